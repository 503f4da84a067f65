(** * Property theorems.  Generated by tools/mkprop.py from the tagged lemmas of
    BEComplexity.v: every theorem is closed by [exact]. *)
From Coq Require Import Znumtheory Sorting.Sorted.
From Verif Require Import PyBase Dict FreeModule Symmetric Simplicial Utils Surjection BarrattEccles Spec SpecChain SpecOperad SpecSurj BEComplexity.

(** The basis elements in the boundary change the order of no
    two letters more often than the basis element they come from. *)
Theorem C82_boundary : forall (dt : Z) (x y : bee),
  wf cls_be x -> dt_ok dt (torsion x) -> be_boundary dt x = Ok y ->
  forall k v, In (k, v) (data y) -> exists k0 v0, In (k0, v0) (data x) /\ forall i j, order_changes i j k <= order_changes i j k0.
Proof. exact @C82_boundary_l. Qed.
Print Assumptions C82_boundary.

(** A permutation only renames the letters. *)
Theorem C82_action : forall (dt n : Z) (a : ring) (x y : bee),
  1 <= n -> wf cls_ring a -> wf cls_be x -> torsion a = torsion x -> dt_ok dt (torsion x) ->
  keys_in (fun k => is_sge k = true /\ perm n (kval k)) a -> keys_in (be_simplex n) x -> ~ is_zero a -> ~ is_zero x -> be_act dt a x = Ok y ->
  forall k v, In (k, v) (data y) -> exists p c k0 v0, In (p, c) (data a) /\ In (k0, v0) (data x) /\
    forall i j, 1 <= i < j -> j <= n -> order_changes (image (kval p) i) (image (kval p) j) k = order_changes i j k0.
Proof. exact @C82_action_l. Qed.
Print Assumptions C82_action.

(** The elements in which no two letters change their order more
    than [m] times are closed under composition: a suboperad. *)
Theorem C82_compose : forall (dt n1 n2 p q i m : Z) (x y z : bee),
  1 <= n1 -> 1 <= n2 -> 1 <= i <= n1 -> wf cls_be x -> wf cls_be y -> torsion y = torsion x -> dt_ok dt (torsion x) ->
  keys_in (be_cell n1 p) x -> keys_in (be_cell n2 q) y -> ~ is_zero x -> ~ is_zero y ->
  keys_in (fun k => forall a b, 1 <= a < b -> b <= n1 -> order_changes a b k <= m) x ->
  keys_in (fun k => forall a b, 1 <= a < b -> b <= n2 -> order_changes a b k <= m) y ->
  be_compose dt x y i = Ok z ->
  keys_in (fun k => forall a b, 1 <= a < b -> b <= n1 + n2 - 1 -> order_changes a b k <= m) z.
Proof. exact @C82_compose_l. Qed.
Print Assumptions C82_compose.

(** In the words of the table reduction two letters alternate at
    most once more than they change their order: the table reduction respects
    the two complexity filtrations. *)
Theorem C82_table : forall (dt n : Z) (x : bee) (y : surj),
  1 <= n -> wf cls_be x -> dt_ok dt (torsion x) -> keys_in (be_simplex n) x -> be_table_reduction dt x = Ok y ->
  forall w v, In (w, v) (data y) -> exists k v0, In (k, v0) (data x) /\ forall i j, 1 <= i < j -> j <= n -> switches i j w <= order_changes i j k + 1.
Proof. exact @C82_table_l. Qed.
Print Assumptions C82_table.

(** In terms of the methods: the complexity of the table
    reduction exceeds that of the argument by at most one. *)
Theorem C82_table_complexity : forall (dt n : Z) (x : bee),
  1 <= n -> wf cls_be x -> dt_ok dt (torsion x) -> keys_in (be_simplex n) x ->
  exists y c c', be_table_reduction dt x = Ok y /\ be_complexity x = Ok c /\ surj_complexity y = Ok c' /\ c' <= c + 1.
Proof. exact @C82_table_complexity_l. Qed.
Print Assumptions C82_table_complexity.

(** The square of the one-cell ((1,2),(2,1)) under composition: two
    terms of degree 2 and arity 3, no two letters change their order twice. And
    ((1,2),(2,1),(1,2)) has complexity 2, its table reduction (1,2,1,2) complexity 3. *)
Example C82_example : let x := mkElt [([[1; 2]; [2; 1]], 1)] 0 tt in
  wf cls_be x /\ keys_in (be_cell 2 1) x /\
  exists z, be_compose 0 x x 1 = Ok z /\ zlen (data z) = 2 /\
    keys_in (fun k => forall a b, 1 <= a < b -> b <= 3 -> order_changes a b k <= 1) z /\
  let u := mkElt [([[1; 2]; [2; 1]; [1; 2]], 1)] 0 tt in
  exists y, be_complexity u = Ok 2 /\ be_table_reduction 0 u = Ok y /\ data y = [([1; 2; 1; 2], 1)] /\ surj_complexity y = Ok 3.
Proof. exact @C82_example_l. Qed.
