(** * Property theorems.  Generated by tools/mkprop.py from the tagged lemmas of
    AttrLaws.v: every theorem is closed by [exact]. *)
From Coq Require Import Znumtheory Sorting.Sorted.
From Verif Require Import PyBase Dict FreeModule Symmetric Surjection BarrattEccles Spec SpecOperad SpecAttr FreeModuleFacts AttrLaws.

(** The arity of a group ring element is [n] exactly when the element is not zero and [n] is the largest value of every one of its keys; otherwise it is [None]. *)
Theorem C72_ring_arity : forall (x : ring),
  keys_in (fun k => kval k <> []) x ->
  exists o, ring_arity x = Ok o /\ forall n, o = Some n <-> ~ is_zero x /\ keys_in (fun k => largest n (kval k)) x.
Proof. exact @C72_ring_arity_l. Qed.
Print Assumptions C72_ring_arity.

(** The same for surjection elements; the degree is [d] exactly when every key has [d] entries more than its largest value. *)
Theorem C72_surj_arity_degree : forall (x : surj),
  keys_in (fun k => k <> []) x ->
  (exists o, surj_arity x = Ok o /\ forall n, o = Some n <-> ~ is_zero x /\ keys_in (largest n) x) /\
  (exists o, surj_degree x = Ok o /\ forall d, o = Some d <-> ~ is_zero x /\ keys_in (fun k => largest (zlen k - d) k) x).
Proof. exact @C72_surj_arity_degree_l. Qed.
Print Assumptions C72_surj_arity_degree.

(** For Barratt-Eccles elements: every entry of every key has the largest value [n]. *)
Theorem C72_be_arity : forall (x : bee),
  keys_in (fun k => k <> [] /\ forall s, In s k -> s <> []) x ->
  exists o, be_arity x = Ok o /\ forall n, o = Some n <-> ~ is_zero x /\ keys_in (fun k => forall s, In s k -> largest n s) x.
Proof. exact @C72_be_arity_l. Qed.
Print Assumptions C72_be_arity.

(** The degree of a Barratt-Eccles element is [d] exactly when it is not zero and every key has d + 1 entries; otherwise it is None. *)
Theorem C72_be_degree : forall (x : bee) (d : Z),
  be_degree x = Some d <-> ~ is_zero x /\ keys_in (fun k => zlen k = d + 1) x.
Proof. exact @C72_be_degree_l. Qed.
Print Assumptions C72_be_degree.

(** The basis elements of a sum, difference, multiple or negative occur in the operands: homogeneous elements stay homogeneous. *)
Theorem C72_support : forall {K A} `{KeyOk K} (c : pycls K) (dt n : Z) (x y : elt K A) (P : K -> Prop),
  cls_ok c -> wf c x -> wf c y -> torsion y = torsion x -> attr y = attr x -> dt_ok dt (torsion x) ->
  (forall k, P k \/ ~ P k) -> (forall k k', keqb k k' = true -> P k -> P k') -> keys_in P x -> keys_in P y ->
  (exists z, add dt c x y = Ok z /\ keys_in P z) /\ (exists z, sub dt c x y = Ok z /\ keys_in P z) /\
  (exists z, neg dt c x = Ok z /\ keys_in P z) /\ (exists z, scale dt c n x = Ok z /\ keys_in P z).
Proof. exact @C72_support_l. Qed.
Print Assumptions C72_support.

(** Homogeneous and mixed elements. *)
Example C72_example : let x := mkElt [([1; 2; 1; 3], 2); ([3; 2; 1; 2], -1)] 0 BF in let y := mkElt [([1; 2; 1], 1); ([3; 2; 1; 2], -1)] 0 BF in
  keys_in (fun k => k <> []) x /\ keys_in (largest 3) x /\ surj_arity x = Ok (Some 3) /\ surj_degree x = Ok (Some 1) /\
  surj_arity y = Ok None /\ surj_degree y = Ok (Some 1) /\
  be_arity (mkElt [([[1; 2]; [2; 1]], 3)] 0 tt) = Ok (Some 2) /\ ring_arity (mkElt [(SGE [2; 1], 3); (SGE [1], 1)] 0 tt) = Ok None.
Proof. exact @C72_example_l. Qed.

(** Composition raises [TypeError] for different torsions, for operands that are not homogeneous in arity or degree and for a position above the arity, and [ValueError] for a position below 1. *)
Theorem C37_errors : forall (dt i : Z) (x y : bee),
  keys_in (fun k => k <> [] /\ forall s, In s k -> s <> []) x -> keys_in (fun k => k <> [] /\ forall s, In s k -> s <> []) y ->
  (torsion x <> torsion y -> be_compose dt x y i = Err TypeError) /\
  (forall z, z = x \/ z = y -> (forall n, ~ keys_in (fun k => forall s, In s k -> largest n s) z) -> be_compose dt x y i = Err TypeError) /\
  (forall z, z = x \/ z = y -> (forall d, ~ keys_in (fun k => zlen k = d + 1) z) -> be_compose dt x y i = Err TypeError) /\
  (forall n, wf cls_be x -> 1 <= n -> keys_in (be_simplex n) x -> n < i -> be_compose dt x y i = Err TypeError) /\
  (forall n m p q, wf cls_be x -> wf cls_be y -> torsion x = torsion y -> ~ is_zero x -> ~ is_zero y -> 1 <= n -> 1 <= m -> keys_in (be_cell n p) x -> keys_in (be_cell m q) y -> i < 1 -> be_compose dt x y i = Err ValueError).
Proof. exact @C37_errors_l. Qed.
Print Assumptions C37_errors.

Example C37_errors_example : let x := mkElt [([[1; 2]; [2; 1]], 1)] 0 tt in let m := mkElt [([[1; 2]; [2; 1]], 1); ([[1; 2]], 1)] 0 tt in let z := mkElt [([[1; 2]; [2; 1]], 1)] 3 tt in
  be_compose 0 x x 3 = Err TypeError /\ be_compose 0 x x 0 = Err ValueError /\ be_compose 0 x m 1 = Err TypeError /\ be_compose 0 x z 1 = Err TypeError /\
  (exists r, be_compose 0 x x 1 = Ok r /\ zlen (data r) = 2).
Proof. exact @C37_errors_example_l. Qed.
