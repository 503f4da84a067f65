(** * Property theorems.  Generated by tools/mkprop.py from the tagged lemmas of
    BELaws3.v: every theorem is closed by [exact]. *)
From Coq Require Import Znumtheory Sorting.Sorted.
From Verif Require Import PyBase Dict FreeModule Symmetric Simplicial Utils Surjection BarrattEccles Spec SpecOperad BELaws3.

(** Degree 0: the identity permutation. *)
Theorem C44_identity : forall (dt n u : Z) (ot : option Z),
  u = match ot with Some t => if t =? 0 then dt else t | None => dt end -> 2 <= n -> 0 <= u -> u <> 1 -> dt_ok dt u ->
  gives cls_be (be_may_steenrod dt n 0 ot) u tt [([zrange 1 (n + 1)], 1)].
Proof. exact @C44_identity_l. Qed.
Print Assumptions C44_identity.

(** The element is not zero, its basis elements have arity [n], degree [d] and start with the identity. *)
Theorem C44_degree : forall (dt n d u : Z) (ot : option Z),
  u = match ot with Some t => if t =? 0 then dt else t | None => dt end -> 2 <= n -> 0 <= d -> 0 <= u -> u <> 1 -> dt_ok dt u ->
  exists y, be_may_steenrod dt n d ot = Ok y /\ wf cls_be y /\ torsion y = u /\ ~ is_zero y /\
    keys_in (fun k => be_simplex n k /\ zlen k = d + 1 /\ hd [] k = zrange 1 (n + 1)) y /\
    be_arity y = Ok (Some n) /\ be_degree y = Some d.
Proof. exact @C44_degree_l. Qed.
Print Assumptions C44_degree.

(** The boundary of the element of degree [d] is T (odd [d]) or N (even [d]) times the element of degree [d - 1]. *)
Theorem C44_boundary : forall (dt n d u : Z) (ot : option Z),
  u = match ot with Some t => if t =? 0 then dt else t | None => dt end -> 2 <= n -> 1 <= d -> 0 <= u -> u <> 1 -> dt_ok dt u ->
  same (let! y := be_may_steenrod dt n d ot in be_boundary dt y)
       (let! a := if Z.even d then norm_element dt n (Some u) else transposition_element dt n (Some u) in
        let! z := be_may_steenrod dt n (d - 1) ot in be_act dt a z).
Proof. exact @C44_boundary_l. Qed.
Print Assumptions C44_boundary.

(** In arity one the structure breaks down: degree 2 raises TypeError; and negative degrees recurse forever. *)
Theorem C44_arity_one : be_may_steenrod 0 1 2 None = Err TypeError /\ forall dt n d ot, d < 0 -> 2 <= n -> 0 <= dt -> dt <> 1 -> be_may_steenrod dt n d ot = Err RecursionError.
Proof. exact @C44_arity_one_l. Qed.
Print Assumptions C44_arity_one.

Example C44_example : be_may_steenrod 0 2 3 None = Ok (mkElt [([[1; 2]; [2; 1]; [1; 2]; [2; 1]], 1)] 0 tt) /\
  be_may_steenrod 0 3 1 (Some 5) = Ok (mkElt [([[1; 2; 3]; [2; 3; 1]], 1)] 5 tt) /\
  be_boundary 0 (mkElt [([[1; 2; 3]; [2; 3; 1]], 1)] 5 tt) = Ok (mkElt [([[2; 3; 1]], 1); ([[1; 2; 3]], 4)] 5 tt).
Proof. exact @C44_example_l. Qed.
