(** * Property theorems.  Generated by tools/mkprop.py from the tagged lemmas of
    SuspLaws.v: every theorem is closed by [exact]. *)
From Coq Require Import Znumtheory Sorting.Sorted.
From Verif Require Import PyBase Dict FreeModule Symmetric Simplicial Utils Surjection BarrattEccles Spec SpecChain SpecOperad SpecSurj SpecSusp SuspLaws.

(** On homogeneous elements in the Berger-Fresse convention the
    suspension is the linear extension of [surj_suspended]; in particular on
    the zero element it is zero. *)
Theorem C52_formula : forall (dt r d : Z) (x : surj),
  1 <= r -> wf cls_surj x -> dt_ok dt (torsion x) -> attr x = BF -> keys_in (surj_cell r d) x ->
  gives cls_surj (surj_suspension dt x) (torsion x) BF (extend (surj_suspended r) x).
Proof. exact @C52_formula_l. Qed.
Print Assumptions C52_formula.

(** The suspension is linear. *)
Theorem C52_linear : forall (dt r d n : Z) (x y : surj),
  1 <= r -> wf cls_surj x -> wf cls_surj y -> torsion y = torsion x -> dt_ok dt (torsion x) ->
  attr x = BF -> attr y = BF -> keys_in (surj_cell r d) x -> keys_in (surj_cell r d) y ->
  same (let! s := add dt cls_surj x y in surj_suspension dt s)
       (let! p := surj_suspension dt x in let! q := surj_suspension dt y in add dt cls_surj p q) /\
  same (let! s := scale dt cls_surj n x in surj_suspension dt s)
       (let! p := surj_suspension dt x in scale dt cls_surj n p).
Proof. exact @C52_linear_l. Qed.
Print Assumptions C52_linear.

(** Every word of the suspension of an element of arity r and
    degree d has d + 1 letters among 1..r: when it has arity r its degree is
    d - (r - 1).  (It may have a smaller arity: C52_arity_refuted.) *)
Theorem C52_length : forall (dt r d : Z) (x : surj),
  1 <= r -> wf cls_surj x -> dt_ok dt (torsion x) -> attr x = BF -> keys_in (surj_cell r d) x ->
  exists y, surj_suspension dt x = Ok y /\ wf cls_surj y /\ torsion y = torsion x /\ attr y = BF /\
    forall k v, In (k, v) (data y) -> zlen k = d + 1 /\ (onto r k -> surj_cell r (d - (r - 1)) k).
Proof. exact @C52_length_l. Qed.
Print Assumptions C52_length.

(** The zero element is returned as it is; a nonhomogeneous
    element raises TypeError; a nonzero homogeneous element in another
    convention raises NotImplementedError. *)
Theorem C52_errors : forall (dt : Z) (x : surj),
  (is_zero x -> surj_suspension dt x = Ok x) /\
  (forall oa od, ~ is_zero x -> surj_arity x = Ok oa -> surj_degree x = Ok od -> oa = None \/ od = None -> surj_suspension dt x = Err TypeError) /\
  (forall a d, ~ is_zero x -> surj_arity x = Ok (Some a) -> surj_degree x = Ok (Some d) -> attr x <> BF -> surj_suspension dt x = Err NotImplementedError).
Proof. exact @C52_errors_l. Qed.
Print Assumptions C52_errors.
