(** * Specification vocabulary for cochains and Steenrod operations.  No proofs here. *)
From Verif Require Import PyBase Dict FreeModule Symmetric Simplicial Surjection Spec SpecChain.

(** A cochain [alpha] gives its value on each simplex; its tensor power takes
    the product of the values of the factors. *)
Definition on_tensor (alpha : list Z -> Z) (K : list (list Z)) : Z := fold_right Z.mul 1 (map alpha K).
Definition evaluate (alpha : list Z -> Z) (x : simp) : Z := zsum (map (fun kv => snd kv * on_tensor alpha (fst kv)) (data x)).
(** Sets of simplices that are closed under faces and degeneracies: vertices
    may be dropped and repeated. *)
Definition simplicial_set (X : list Z -> Prop) : Prop :=
  (forall l1 v l2, X (l1 ++ v :: l2) -> l1 ++ l2 <> [] -> X (l1 ++ l2)) /\
  (forall l1 v l2, X (l1 ++ v :: l2) -> X (l1 ++ v :: v :: l2)).
(** Normalised cochains of degree [m]. *)
Definition cochain (m : Z) (alpha : list Z -> Z) : Prop :=
  (forall l1 v l2, alpha (l1 ++ v :: v :: l2) = 0) /\ (forall s, zlen s - 1 <> m -> alpha s = 0).
(** Cocycles modulo [p] on the simplicial set [X]. *)
Definition cocycle (p m : Z) (X : list Z -> Prop) (alpha : list Z -> Z) : Prop :=
  cochain m alpha /\
  forall s, X s -> zlen s - 1 = m + 1 -> zsum (map (fun f => snd f * alpha (fst f)) (faces s)) mod p = 0.
