(** * Property theorems.  Generated by tools/mkprop.py from the tagged lemmas of
    SurjLaws5.v: every theorem is closed by [exact]. *)
From Coq Require Import Znumtheory Sorting.Sorted.
From Verif Require Import PyBase Dict FreeModule Symmetric Simplicial Utils Surjection BarrattEccles Spec SpecChain SpecOperad SpecSurj SurjLaws5.

(** Degree 0: the identity permutation. *)
Theorem C53_identity : forall (dt n u : Z) (dc cv : conv) (ot : option Z) (ov : option conv),
  u = match ot with Some t => if t =? 0 then dt else t | None => dt end -> cv = match ov with Some c => c | None => dc end -> cv = BF \/ cv = MS ->
  2 <= n -> 0 <= u -> u <> 1 -> dt_ok dt u ->
  gives cls_surj (surj_may_steenrod dt dc n 0 ot ov) u cv [(zrange 1 (n + 1), 1)].
Proof. exact @C53_identity_l. Qed.
Print Assumptions C53_identity.

(** The element is not zero, and its basis elements have arity [n], degree [d] and start with 1. *)
Theorem C53_degree : forall (dt n d u : Z) (dc cv : conv) (ot : option Z) (ov : option conv),
  u = match ot with Some t => if t =? 0 then dt else t | None => dt end -> cv = match ov with Some c => c | None => dc end -> cv = BF \/ cv = MS ->
  2 <= n -> 0 <= d -> 0 <= u -> u <> 1 -> dt_ok dt u ->
  exists y, surj_may_steenrod dt dc n d ot ov = Ok y /\ wf cls_surj y /\ torsion y = u /\ attr y = cv /\ ~ is_zero y /\
    keys_in (fun k => surj_cell n d k /\ hd 0 k = 1) y /\
    surj_arity y = Ok (Some n) /\ surj_degree y = Ok (Some d).
Proof. exact @C53_degree_l. Qed.
Print Assumptions C53_degree.

(** The boundary of the element of degree [d] is T (odd [d]) or N (even [d]) times the element of degree [d - 1]. *)
Theorem C53_boundary : forall (dt n d u : Z) (dc cv : conv) (ot : option Z) (ov : option conv),
  u = match ot with Some t => if t =? 0 then dt else t | None => dt end -> cv = match ov with Some c => c | None => dc end -> cv = BF \/ cv = MS ->
  2 <= n -> 1 <= d -> 0 <= u -> u <> 1 -> dt_ok dt u ->
  same (let! y := surj_may_steenrod dt dc n d ot ov in surj_boundary dt y)
       (let! a := if Z.even d then norm_element dt n (Some u) else transposition_element dt n (Some u) in
        let! z := surj_may_steenrod dt dc n (d - 1) ot ov in surj_act dt a z).
Proof. exact @C53_boundary_l. Qed.
Print Assumptions C53_boundary.

(** In arity one the structure breaks down: degree 2 raises TypeError; and negative degrees recurse forever. *)
Theorem C53_arity_one : surj_may_steenrod 0 BF 1 2 None None = Err TypeError /\
  forall dt dc n d ot ov, d < 0 -> 2 <= n -> 0 <= dt -> dt <> 1 -> surj_may_steenrod dt dc n d ot ov = Err RecursionError.
Proof. exact @C53_arity_one_l. Qed.
Print Assumptions C53_arity_one.

Example C53_example : surj_may_steenrod 0 BF 3 2 None None = Ok (mkElt [([1; 2; 3; 1; 2], 1); ([1; 3; 1; 2; 3], 1); ([1; 2; 3; 2; 3], 1)] 0 BF) /\
  surj_may_steenrod 0 BF 2 3 (Some 2) (Some MS) = Ok (mkElt [([1; 2; 1; 2; 1], 1)] 2 MS) /\
  surj_boundary 0 (mkElt [([1; 2; 1; 2; 1], 1)] 2 MS) = Ok (mkElt [([2; 1; 2; 1], 1); ([1; 2; 1; 2], 1)] 2 MS).
Proof. exact @C53_example_l. Qed.
