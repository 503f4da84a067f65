(** * Property theorems.  Generated by tools/mkprop.py from the tagged lemmas of
    UniqLaws.v: every theorem is closed by [exact]. *)
From Coq Require Import Znumtheory Sorting.Sorted.
From Verif Require Import PyBase Dict FreeModule Symmetric Surjection BarrattEccles Spec SpecOperad SpecSurj SpecUniq UniqLaws.

(** In the surjection complex, in both conventions. *)
Theorem C111_surjection : forall (dt n t : Z) (cv : conv) (N : nat) (psi psi' : nat -> surj),
  2 <= n -> 0 <= t -> t <> 1 -> dt_ok dt t -> cv = BF \/ cv = MS ->
  equivariant_sequence cls_surj (surj_cell n) (surj_boundary dt) (extended dt cls_surj (surj_act dt)) dt n t cv N psi ->
  equivariant_sequence cls_surj (surj_cell n) (surj_boundary dt) (extended dt cls_surj (surj_act dt)) dt n t cv N psi' ->
  ((t | zsum (map snd (data (psi 0%nat))) - zsum (map snd (data (psi' 0%nat)))) <->
   exists h, equivariant_homotopy cls_surj (surj_cell n) (surj_boundary dt) (extended dt cls_surj (surj_act dt)) dt n t cv N psi psi' h).
Proof. exact @C111_surjection_l. Qed.
Print Assumptions C111_surjection.

(** In the Barratt-Eccles complex. *)
Theorem C111_barratt_eccles : forall (dt n t : Z) (N : nat) (psi psi' : nat -> bee),
  2 <= n -> 0 <= t -> t <> 1 -> dt_ok dt t ->
  equivariant_sequence cls_be (be_cell n) (be_boundary dt) (extended dt cls_be (be_act dt)) dt n t tt N psi ->
  equivariant_sequence cls_be (be_cell n) (be_boundary dt) (extended dt cls_be (be_act dt)) dt n t tt N psi' ->
  ((t | zsum (map snd (data (psi 0%nat))) - zsum (map snd (data (psi' 0%nat)))) <->
   exists h, equivariant_homotopy cls_be (be_cell n) (be_boundary dt) (extended dt cls_be (be_act dt)) dt n t tt N psi psi' h).
Proof. exact @C111_barratt_eccles_l. Qed.
Print Assumptions C111_barratt_eccles.

(** Every element of degree 0 of the surjection complex starts such a sequence. *)
Theorem C111_existence_surjection : forall (dt n t : Z) (cv : conv) (N : nat) (x : surj),
  2 <= n -> 0 <= t -> t <> 1 -> dt_ok dt t -> cv = BF \/ cv = MS ->
  wf cls_surj x -> torsion x = t -> attr x = cv -> keys_in (surj_cell n 0) x ->
  exists psi, psi 0%nat = x /\ equivariant_sequence cls_surj (surj_cell n) (surj_boundary dt) (extended dt cls_surj (surj_act dt)) dt n t cv N psi.
Proof. exact @C111_existence_surjection_l. Qed.
Print Assumptions C111_existence_surjection.

(** The same in the Barratt-Eccles complex. *)
Theorem C111_existence_barratt_eccles : forall (dt n t : Z) (N : nat) (x : bee),
  2 <= n -> 0 <= t -> t <> 1 -> dt_ok dt t ->
  wf cls_be x -> torsion x = t -> keys_in (be_cell n 0) x ->
  exists psi, psi 0%nat = x /\ equivariant_sequence cls_be (be_cell n) (be_boundary dt) (extended dt cls_be (be_act dt)) dt n t tt N psi.
Proof. exact @C111_existence_barratt_eccles_l. Qed.
Print Assumptions C111_existence_barratt_eccles.

(** May-Steenrod structures of the surjection operad: the elements that [may_steenrod_structure] computes are such
    a sequence; and a sequence is homotopic to it if and only if its first element has total 1. *)
Theorem C111_may_surjection : forall (dt n t : Z) (dc cv : conv) (ot : option Z) (ov : option conv),
  t = match ot with Some t => if t =? 0 then dt else t | None => dt end -> cv = match ov with Some c => c | None => dc end -> cv = BF \/ cv = MS ->
  2 <= n -> 0 <= t -> t <> 1 -> dt_ok dt t ->
  exists mu : nat -> surj, (forall d, surj_may_steenrod dt dc n (Z.of_nat d) ot ov = Ok (mu d)) /\
    (forall N, equivariant_sequence cls_surj (surj_cell n) (surj_boundary dt) (extended dt cls_surj (surj_act dt)) dt n t cv N mu) /\
    forall (N : nat) (psi : nat -> surj),
      equivariant_sequence cls_surj (surj_cell n) (surj_boundary dt) (extended dt cls_surj (surj_act dt)) dt n t cv N psi ->
      ((t | zsum (map snd (data (psi 0%nat))) - 1) <->
       exists h, equivariant_homotopy cls_surj (surj_cell n) (surj_boundary dt) (extended dt cls_surj (surj_act dt)) dt n t cv N psi mu h).
Proof. exact @C111_may_surjection_l. Qed.
Print Assumptions C111_may_surjection.

(** The same for May-Steenrod structures of the Barratt-Eccles operad. *)
Theorem C111_may_barratt_eccles : forall (dt n t : Z) (ot : option Z),
  t = match ot with Some t => if t =? 0 then dt else t | None => dt end ->
  2 <= n -> 0 <= t -> t <> 1 -> dt_ok dt t ->
  exists mu : nat -> bee, (forall d, be_may_steenrod dt n (Z.of_nat d) ot = Ok (mu d)) /\
    (forall N, equivariant_sequence cls_be (be_cell n) (be_boundary dt) (extended dt cls_be (be_act dt)) dt n t tt N mu) /\
    forall (N : nat) (psi : nat -> bee),
      equivariant_sequence cls_be (be_cell n) (be_boundary dt) (extended dt cls_be (be_act dt)) dt n t tt N psi ->
      ((t | zsum (map snd (data (psi 0%nat))) - 1) <->
       exists h, equivariant_homotopy cls_be (be_cell n) (be_boundary dt) (extended dt cls_be (be_act dt)) dt n t tt N psi mu h).
Proof. exact @C111_may_barratt_eccles_l. Qed.
Print Assumptions C111_may_barratt_eccles.

(** (1,2), (1,2,1) and its rotation (2,1), (2,1,2): the homotopy is -(1,2,1) in degree 0 and zero in degree 1. *)
Example C111_example : let e := fun k : list Z => mkElt [(k, 1)] 0 BF : surj in
  equivariant_homotopy cls_surj (surj_cell 2) (surj_boundary 0) (extended 0 cls_surj (surj_act 0)) 0 2 0 BF 1
    (fun d => match d with O => e [1; 2] | _ => e [1; 2; 1] end) (fun d => match d with O => e [2; 1] | _ => e [2; 1; 2] end)
    (fun d => match d with O => mkElt [([1; 2; 1], -1)] 0 BF | _ => mkElt [] 0 BF end) /\
  surj_may_steenrod 0 BF 2 0 None None = Ok (e [1; 2]) /\ surj_may_steenrod 0 BF 2 1 None None = Ok (e [1; 2; 1]).
Proof. exact @C111_example_l. Qed.
