(** * Property theorems.  Generated by tools/mkprop.py from the tagged lemmas of
    EquivLaws.v: every theorem is closed by [exact]. *)
From Coq Require Import Znumtheory Sorting.Sorted.
From Verif Require Import PyBase Dict FreeModule Symmetric Simplicial Utils Surjection BarrattEccles Spec SpecChain SpecOperad SpecSurj SpecAction EquivLaws.

(** (a * s)(x) == a * s(x): an element [a] of the symmetric
    group ring may act on the surjection or on the factors of the result. *)
Theorem C62_equivariant : forall (dt r d e : Z) (a : ring) (s : surj) (x : simp),
  1 <= r -> wf cls_ring a -> wf cls_surj s -> wf cls_simplicial x -> torsion a = torsion s -> torsion x = torsion s -> dt_ok dt (torsion s) -> attr s = MS ->
  keys_in (fun k => perm r (kval k)) a -> keys_in (surj_cell r d) s -> keys_in (fun k => zlen k = 1 /\ total_degree k = e) x ->
  same (let! u := extended dt cls_surj (surj_act dt) a s in surj_call_simplicial dt u x 1)
       (let! v := surj_call_simplicial dt s x 1 in extended dt cls_simplicial (simp_act dt) a v).
Proof. exact @C62_equivariant_l. Qed.
Print Assumptions C62_equivariant.

(** The hypotheses hold for a = (2,1) - 3(1,2), s = (1,2,1) and a
    triangle; both sides are computed. *)
Example C62_example : let a := mkElt [(SGE [2; 1], 1); (SGE [1; 2], -3)] 0 tt in let s := mkElt (A := conv) [([1; 2; 1], 1)] 0 MS in let x := mkElt [([[0; 1; 2]], 1)] 0 tt in
  wf cls_ring a /\ wf cls_surj s /\ wf cls_simplicial x /\ keys_in (fun k => perm 2 (kval k)) a /\ keys_in (surj_cell 2 1) s /\ keys_in (fun k => zlen k = 1 /\ total_degree k = 2) x /\
  exists u v r, surj_act 0 a s = Ok u /\ surj_call_simplicial 0 s x 1 = Ok v /\ simp_act 0 a v = Ok r /\ zlen (data r) = 6 /\ same (surj_call_simplicial 0 u x 1) (Ok r).
Proof. exact @C62_example_l. Qed.
