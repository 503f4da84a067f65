(** * Property theorems.  Generated by tools/mkprop.py from the tagged lemmas of
    BELaws4.v: every theorem is closed by [exact]. *)
From Coq Require Import Znumtheory Sorting.Sorted.
From Verif Require Import PyBase Dict FreeModule Symmetric Simplicial Utils Surjection BarrattEccles Spec SpecOperad BELaws4.

(** The composite of two basis elements is the signed sum
    over the lattice paths in the grid of their entries; at every vertex of the
    path the two permutations are composed.  Extended bilinearly. *)
Theorem C37_compose_formula : forall (dt n1 n2 p q i : Z) (x y : bee),
  1 <= n1 -> 1 <= n2 -> 1 <= i <= n1 -> wf cls_be x -> wf cls_be y -> torsion y = torsion x -> dt_ok dt (torsion x) ->
  keys_in (be_cell n1 p) x -> keys_in (be_cell n2 q) y -> ~ is_zero x -> ~ is_zero y ->
  gives cls_be (be_compose dt x y i) (torsion x) tt (extend2 (grid_paths (insert_at i)) x y).
Proof. exact @C37_compose_formula_l. Qed.
Print Assumptions C37_compose_formula.

(** The composite has arity n1 + n2 - 1 and degree p + q. *)
Theorem C37_compose_degree : forall (dt n1 n2 p q i : Z) (x y : bee),
  1 <= n1 -> 1 <= n2 -> 1 <= i <= n1 -> wf cls_be x -> wf cls_be y -> torsion y = torsion x -> dt_ok dt (torsion x) ->
  keys_in (be_cell n1 p) x -> keys_in (be_cell n2 q) y -> ~ is_zero x -> ~ is_zero y ->
  exists z, be_compose dt x y i = Ok z /\ wf cls_be z /\ torsion z = torsion x /\ keys_in (be_cell (n1 + n2 - 1) (p + q)) z.
Proof. exact @C37_compose_degree_l. Qed.
Print Assumptions C37_compose_degree.

(** Composition (extended by zero) is additive in both arguments. *)
Theorem C37_bilinear : forall (dt n1 n2 p q i : Z) (x x' y y' : bee),
  1 <= n1 -> 1 <= n2 -> 1 <= i <= n1 -> wf cls_be x -> wf cls_be x' -> wf cls_be y -> wf cls_be y' ->
  torsion x' = torsion x -> torsion y = torsion x -> torsion y' = torsion x -> dt_ok dt (torsion x) ->
  keys_in (be_cell n1 p) x -> keys_in (be_cell n1 p) x' -> keys_in (be_cell n2 q) y -> keys_in (be_cell n2 q) y' ->
  let comp := extended dt cls_be (fun a b => be_compose dt a b i) in
  same (let! s := add dt cls_be x x' in comp s y) (let! u := comp x y in let! v := comp x' y in add dt cls_be u v) /\
  same (let! s := add dt cls_be y y' in comp x s) (let! u := comp x y in let! v := comp x y' in add dt cls_be u v).
Proof. exact @C37_bilinear_l. Qed.
Print Assumptions C37_bilinear.

(** d(x o_i y) == dx o_i y + (-1)^p x o_i dy, extended by zero. *)
Theorem C37_chain_map : forall (dt n1 n2 p q i : Z) (x y : bee),
  1 <= n1 -> 1 <= n2 -> 1 <= i <= n1 -> wf cls_be x -> wf cls_be y -> torsion y = torsion x -> dt_ok dt (torsion x) ->
  keys_in (be_cell n1 p) x -> keys_in (be_cell n2 q) y ->
  let comp := extended dt cls_be (fun a b => be_compose dt a b i) in
  same (let! z := comp x y in be_boundary dt z)
       (let! dx := be_boundary dt x in let! u := comp dx y in
        let! dy := be_boundary dt y in let! v := comp x dy in let! w := scale dt cls_be (sgn p) v in add dt cls_be u w).
Proof. exact @C37_chain_map_l. Qed.
Print Assumptions C37_chain_map.

(** The hypotheses hold for ((1,2),(2,1)) and ((1,2),(2,1)); the
    composite at position 1 has two terms. *)
Example C37_example : exists x z, be_new 0 [([[1; 2]; [2; 1]], 1)] None = Ok x /\ wf cls_be x /\ keys_in (be_cell 2 1) x /\ ~ is_zero x /\ be_compose 0 x x 1 = Ok z /\
    data z = [([[1; 2; 3]; [2; 1; 3]; [3; 2; 1]], -1); ([[1; 2; 3]; [3; 1; 2]; [3; 2; 1]], 1)].
Proof. exact @C37_example_l. Qed.

(** (x o_i y) o_{i-1+j} z == x o_i (y o_j z), extended by zero. *)
Theorem C38_sequential : forall (dt n1 n2 n3 p q r i j : Z) (x y z : bee),
  1 <= n1 -> 1 <= n2 -> 1 <= n3 -> 1 <= i <= n1 -> 1 <= j <= n2 ->
  wf cls_be x -> wf cls_be y -> wf cls_be z -> torsion y = torsion x -> torsion z = torsion x -> dt_ok dt (torsion x) ->
  keys_in (be_cell n1 p) x -> keys_in (be_cell n2 q) y -> keys_in (be_cell n3 r) z ->
  let comp i := extended dt cls_be (fun a b => be_compose dt a b i) in
  same (let! xy := comp i x y in comp (i - 1 + j) xy z) (let! yz := comp j y z in comp i x yz).
Proof. exact @C38_sequential_l. Qed.
Print Assumptions C38_sequential.

(** (x o_i y) o_{k-1+n2} z == (-1)^{|y||z|} (x o_k z) o_i y for i < k, extended by zero. *)
Theorem C38_parallel : forall (dt n1 n2 n3 p q r i k : Z) (x y z : bee),
  1 <= n1 -> 1 <= n2 -> 1 <= n3 -> 1 <= i -> i < k <= n1 ->
  wf cls_be x -> wf cls_be y -> wf cls_be z -> torsion y = torsion x -> torsion z = torsion x -> dt_ok dt (torsion x) ->
  keys_in (be_cell n1 p) x -> keys_in (be_cell n2 q) y -> keys_in (be_cell n3 r) z ->
  let comp i := extended dt cls_be (fun a b => be_compose dt a b i) in
  same (let! xy := comp i x y in comp (k - 1 + n2) xy z) (let! xz := comp k x z in let! w := comp i xz y in scale dt cls_be (sgn (q * r)) w).
Proof. exact @C38_parallel_l. Qed.
Print Assumptions C38_parallel.

(** The basis element ((1)) is a unit for composition, at every position. *)
Theorem C38_unit : forall (dt n p i : Z) (x : bee),
  1 <= n -> 1 <= i <= n -> wf cls_be x -> dt_ok dt (torsion x) -> keys_in (be_cell n p) x ->
  let comp i := extended dt cls_be (fun a b => be_compose dt a b i) in
  same (let! e := be_new dt [([[1]], 1)] (Some (torsion x)) in comp i x e) (Ok x) /\
  same (let! e := be_new dt [([[1]], 1)] (Some (torsion x)) in comp 1 e x) (Ok x).
Proof. exact @C38_unit_l. Qed.
Print Assumptions C38_unit.
