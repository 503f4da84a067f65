(** * Specification vocabulary for the algebra of cochains with the cup product computed by the code.  No proofs here. *)
From Verif Require Import PyBase Dict FreeModule Symmetric Simplicial Spec SpecChain SpecCochain SpecSimpCup.

(** The cochain [f] is a u b with coefficients in Z/t (in Z for t = 0): on each simplex [s],
    the value of a (x) b on the diagonal that the code computes for [s] is [f s] modulo [t]. *)
Definition cup_is (dt t : Z) (a b f : list Z -> Z) : Prop := forall s, s <> [] ->
  exists x y, simp_new dt [([s], 1)] (Some t) = Ok x /\ extended1 dt cls_simplicial (fun y => simp_iterated_diagonal dt y 1 1) x = Ok y /\
    congruent t (simp_value (simp_pair a b) y) (f s).
(** Two cochains are equal with coefficients in Z/t. *)
Definition cochain_eq (t : Z) (f g : list Z -> Z) : Prop := forall s, s <> [] -> congruent t (f s) (g s).
(** The unit: 1 on each vertex. *)
Definition unit_cochain (s : list Z) : Z := match s with [_] => 1 | _ => 0 end.
