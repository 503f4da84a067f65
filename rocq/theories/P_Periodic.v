(** * Property theorems.  Generated by tools/mkprop.py from the tagged lemmas of
    PerLaws.v: every theorem is closed by [exact]. *)
From Coq Require Import Znumtheory Sorting.Sorted.
From Verif Require Import PyBase Dict FreeModule Symmetric Surjection BarrattEccles Spec SpecOperad SpecSurj PerLaws.

(** In the group ring, for arity at least 2. *)
Theorem C110_ring : forall (dt n : Z) (x : ring),
  2 <= n -> wf cls_ring x -> torsion x <> 1 -> dt_ok dt (torsion x) -> keys_in (fun k => perm n (kval k)) x ->
  (same (let! T := transposition_element dt n (Some (torsion x)) in ring_mul dt T x) (zero dt cls_ring x) <->
   exists y, wf cls_ring y /\ torsion y = torsion x /\ keys_in (fun k => perm n (kval k)) y /\
     same (let! N := norm_element dt n (Some (torsion x)) in ring_mul dt N y) (Ok x)) /\
  (same (let! N := norm_element dt n (Some (torsion x)) in ring_mul dt N x) (zero dt cls_ring x) <->
   exists y, wf cls_ring y /\ torsion y = torsion x /\ keys_in (fun k => perm n (kval k)) y /\
     same (let! T := transposition_element dt n (Some (torsion x)) in ring_mul dt T y) (Ok x)) /\
  (same (let! r := rotation_element dt n (Some (torsion x)) in ring_mul dt r x) (Ok x) <->
   exists y, wf cls_ring y /\ torsion y = torsion x /\ keys_in (fun k => perm n (kval k)) y /\
     same (let! N := norm_element dt n (Some (torsion x)) in ring_mul dt N y) (Ok x)).
Proof. exact @C110_ring_l. Qed.
Print Assumptions C110_ring.

(** In the Barratt-Eccles complex, in every degree. *)
Theorem C110_barratt_eccles : forall (dt n d : Z) (x : bee),
  2 <= n -> 0 <= d -> wf cls_be x -> torsion x <> 1 -> dt_ok dt (torsion x) -> keys_in (be_cell n d) x ->
  (same (let! T := transposition_element dt n (Some (torsion x)) in extended dt cls_be (be_act dt) T x) (zero dt cls_be x) <->
   exists y, wf cls_be y /\ torsion y = torsion x /\ keys_in (be_cell n d) y /\
     same (let! N := norm_element dt n (Some (torsion x)) in extended dt cls_be (be_act dt) N y) (Ok x)) /\
  (same (let! N := norm_element dt n (Some (torsion x)) in extended dt cls_be (be_act dt) N x) (zero dt cls_be x) <->
   exists y, wf cls_be y /\ torsion y = torsion x /\ keys_in (be_cell n d) y /\
     same (let! T := transposition_element dt n (Some (torsion x)) in extended dt cls_be (be_act dt) T y) (Ok x)) /\
  (same (let! r := rotation_element dt n (Some (torsion x)) in extended dt cls_be (be_act dt) r x) (Ok x) <->
   exists y, wf cls_be y /\ torsion y = torsion x /\ keys_in (be_cell n d) y /\
     same (let! N := norm_element dt n (Some (torsion x)) in extended dt cls_be (be_act dt) N y) (Ok x)).
Proof. exact @C110_barratt_eccles_l. Qed.
Print Assumptions C110_barratt_eccles.

(** In the surjection complex, in every degree and both conventions. *)
Theorem C110_surjection : forall (dt n d : Z) (x : surj),
  2 <= n -> wf cls_surj x -> torsion x <> 1 -> dt_ok dt (torsion x) -> attr x = BF \/ attr x = MS -> keys_in (surj_cell n d) x ->
  (same (let! T := transposition_element dt n (Some (torsion x)) in extended dt cls_surj (surj_act dt) T x) (zero dt cls_surj x) <->
   exists y, wf cls_surj y /\ torsion y = torsion x /\ attr y = attr x /\ keys_in (surj_cell n d) y /\
     same (let! N := norm_element dt n (Some (torsion x)) in extended dt cls_surj (surj_act dt) N y) (Ok x)) /\
  (same (let! N := norm_element dt n (Some (torsion x)) in extended dt cls_surj (surj_act dt) N x) (zero dt cls_surj x) <->
   exists y, wf cls_surj y /\ torsion y = torsion x /\ attr y = attr x /\ keys_in (surj_cell n d) y /\
     same (let! T := transposition_element dt n (Some (torsion x)) in extended dt cls_surj (surj_act dt) T y) (Ok x)) /\
  (same (let! r := rotation_element dt n (Some (torsion x)) in extended dt cls_surj (surj_act dt) r x) (Ok x) <->
   exists y, wf cls_surj y /\ torsion y = torsion x /\ attr y = attr x /\ keys_in (surj_cell n d) y /\
     same (let! N := norm_element dt n (Some (torsion x)) in extended dt cls_surj (surj_act dt) N y) (Ok x)).
Proof. exact @C110_surjection_l. Qed.
Print Assumptions C110_surjection.

(** rho - id is killed by N and is T * id; (1,2,1) +- (2,1,2)
    is killed by T and is N * (1,2,1). *)
Example C110_example : let x : ring := mkElt [(SGE [2; 3; 1], 1); (SGE [1; 2; 3], 4)] 5 tt in let u : surj := mkElt [([1; 2; 1], 1); ([2; 1; 2], 1)] 0 MS in
  wf cls_ring x /\ keys_in (fun k => perm 3 (kval k)) x /\
  same (let! N := norm_element 5 3 (Some 5) in ring_mul 5 N x) (zero 5 cls_ring x) /\
  same (let! T := transposition_element 5 3 (Some 5) in ring_mul 5 T (mkElt [(SGE [1; 2; 3], 1)] 5 tt)) (Ok x) /\
  wf cls_surj u /\ keys_in (surj_cell 2 1) u /\
  same (let! T := transposition_element 0 2 (Some 0) in extended 0 cls_surj (surj_act 0) T u) (zero 0 cls_surj u) /\
  same (let! N := norm_element 0 2 (Some 0) in extended 0 cls_surj (surj_act 0) N (mkElt [([1; 2; 1], 1)] 0 MS)) (Ok u).
Proof. exact @C110_example_l. Qed.

(** In arity 1 T acts as minus the identity, and the
    multiples of N are not killed by it. *)
Theorem C110_arity_one_refuted : let x : ring := mkElt [(SGE [1], 1)] 0 tt in
  same (let! N := norm_element 0 1 (Some 0) in ring_mul 0 N x) (Ok x) /\
  ~ same (let! T := transposition_element 0 1 (Some 0) in ring_mul 0 T x) (zero 0 cls_ring x).
Proof. exact @C110_arity_one_refuted_l. Qed.
Print Assumptions C110_arity_one_refuted.
