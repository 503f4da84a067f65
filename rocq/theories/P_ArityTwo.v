(** * Property theorems.  Generated by tools/mkprop.py from the tagged lemmas of
    ArityTwoLaws.v: every theorem is closed by [exact]. *)
From Coq Require Import Znumtheory Sorting.Sorted.
From Verif Require Import PyBase Dict FreeModule Symmetric Surjection BarrattEccles Spec SpecChain SpecOperad SpecSurj SpecCup ArityTwoLaws.

(** The basis elements of arity 2 and degree [d] are the two alternating words of length d + 2. *)
Theorem C97_words : forall (d : Z) (k : list Z),
  0 <= d ->
  (surj_cell 2 d k /\ ~ repeats k) <-> (k = altw 1 (Z.to_nat (d + 2)) \/ k = altw 2 (Z.to_nat (d + 2))).
Proof. exact @C97_words_l. Qed.
Print Assumptions C97_words.

(** A nonzero element of arity 2 and degree [d] has complexity d + 1. *)
Theorem C97_complexity : forall (d : Z) (x : surj),
  0 <= d -> wf cls_surj x -> keys_in (surj_cell 2 d) x -> ~ is_zero x -> surj_complexity x = Ok (d + 1).
Proof. exact @C97_complexity_l. Qed.
Print Assumptions C97_complexity.

(** The cycles of arity 2 and degree d >= 1 are exactly the multiples of the boundary of
    may_steenrod_structure(2, d + 1) (which is T or N times the element of degree [d]: C53). *)
Theorem C97_cycles : forall (dt d : Z) (dc : conv) (x : surj),
  1 <= d -> wf cls_surj x -> torsion x <> 1 -> dt_ok dt (torsion x) -> attr x = BF \/ attr x = MS -> keys_in (surj_cell 2 d) x ->
  (exists z, surj_boundary dt x = Ok z /\ is_zero z) <->
  (exists c, same (Ok x) (let! e := surj_may_steenrod dt dc 2 (d + 1) (Some (torsion x)) (Some (attr x)) in let! b := surj_boundary dt e in scale dt cls_surj c b)).
Proof. exact @C97_cycles_l. Qed.
Print Assumptions C97_cycles.

(** The multiple [c] of that cycle is zero exactly when the torsion divides [c]. *)
Theorem C97_generator : forall (dt t d c : Z) (dc cv : conv),
  0 <= d -> 0 <= t -> t <> 1 -> dt_ok dt t -> cv = BF \/ cv = MS ->
  exists e b z, surj_may_steenrod dt dc 2 (d + 1) (Some t) (Some cv) = Ok e /\ surj_boundary dt e = Ok b /\ scale dt cls_surj c b = Ok z /\ wf cls_surj z /\ keys_in (surj_cell 2 d) z /\
    (is_zero z <-> (t | c)).
Proof. exact @C97_generator_l. Qed.
Print Assumptions C97_generator.

(** The elements of arity 2 and complexity at most [m] (closed under the boundary: C54) have the
    homology of a sphere of dimension m - 1: there is nothing in degrees >= m; a cycle whose degree is between
    1 and m - 2 is the boundary of an element of the stage; in degree 0 (m >= 2) an element is
    the boundary of an element of the stage exactly if the torsion divides the sum of its coefficients; in degree m - 1
    only zero is the boundary of an element of the stage (the cycles there: C97_cycles, C97_generator). *)
Theorem C97_stages : forall (dt m d cx : Z) (x : surj),
  0 <= d -> wf cls_surj x -> dt_ok dt (torsion x) -> attr x = BF \/ attr x = MS -> keys_in (surj_cell 2 d) x ->
  surj_complexity x = Ok cx -> cx <= m ->
  let bounds := exists y cy, wf cls_surj y /\ torsion y = torsion x /\ attr y = attr x /\ keys_in (surj_cell 2 (d + 1)) y /\ surj_complexity y = Ok cy /\ cy <= m /\ same (surj_boundary dt y) (Ok x) in
  (m <= d -> is_zero x) /\
  (1 <= d <= m - 2 -> (exists z, surj_boundary dt x = Ok z /\ is_zero z) -> bounds) /\
  (d = 0 -> 2 <= m -> bounds <-> (torsion x | zsum (map snd (data x)))) /\
  (d = m - 1 -> bounds -> is_zero x).
Proof. exact @C97_stages_l. Qed.
Print Assumptions C97_stages.

Example C97_example : let x : surj := mkElt [([1; 2; 1; 2], 3); ([2; 1; 2; 1], 3)] 0 MS in
  wf cls_surj x /\ keys_in (surj_cell 2 2) x /\ surj_complexity x = Ok 3 /\
  (exists e b, surj_may_steenrod 0 MS 2 3 (Some 0) (Some MS) = Ok e /\ data e = [(altw 1 5, -1)] /\ surj_boundary 0 e = Ok b /\ elt_eqb b (mkElt [([1; 2; 1; 2], -1); ([2; 1; 2; 1], -1)] 0 MS) = true).
Proof. exact @C97_example_l. Qed.
