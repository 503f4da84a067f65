(** * Property theorems.  Generated by tools/mkprop.py from the tagged lemmas of
    CpxLaws.v: every theorem is closed by [exact]. *)
From Coq Require Import Znumtheory Sorting.Sorted.
From Verif Require Import PyBase Dict FreeModule Symmetric Simplicial Utils Surjection BarrattEccles Spec SpecChain SpecOperad SpecSurj CpxLaws.

(** The complexity of a composite is at most the larger of
    the complexities of the two factors: for every n the elements of
    complexity at most n form a suboperad. *)
Theorem C65_suboperad : forall (dt n1 n2 i : Z) (x y : surj),
  1 <= i <= n1 -> 1 <= n2 -> wf cls_surj x -> wf cls_surj y -> torsion y = torsion x -> dt_ok dt (torsion x) ->
  attr x = BF \/ torsion x = 2 -> keys_in (onto n1) x -> keys_in (onto n2) y ->
  exists z cx cy cz, surj_compose dt x y i = Ok z /\ surj_complexity x = Ok cx /\ surj_complexity y = Ok cy /\ surj_complexity z = Ok cz /\
    cz <= Z.max cx cy.
Proof. exact @C65_suboperad_l. Qed.
Print Assumptions C65_suboperad.

(** A composite of (1,2,1,2) (complexity 3) and (1,2,1)
    (complexity 2): complexity 3. *)
Example C65_example : let x := mkElt [([1; 2; 1; 2], 1)] 0 BF in let y := mkElt [([1; 2; 1], 1)] 0 BF in
  wf cls_surj x /\ wf cls_surj y /\
  surj_complexity x = Ok 3 /\ surj_complexity y = Ok 2 /\
  exists z, surj_compose 0 x y 1 = Ok z /\ (3 <=? zlen (data z)) = true /\ surj_complexity z = Ok 3.
Proof. exact @C65_example_l. Qed.
