(** * Specification vocabulary for pairs of cochains on simplices.  No proofs here. *)
From Verif Require Import PyBase Dict FreeModule Symmetric Simplicial Spec SpecChain SpecCochain.

(** Value of a chain of tensors of simplices under a function of tensors. *)
Definition simp_value (g : list (list Z) -> Z) (x : simp) : Z := zsum (map (fun kv => snd kv * g (fst kv)) (data x)).
(** The tensor product of two cochains: a (x) b on u (x) v. *)
Definition simp_pair (a b : list Z -> Z) (k : list (list Z)) : Z := match k with [u; v] => a u * b v | _ => 0 end.
(** Coboundary of a cochain: its value on the alternating sum of the faces. *)
Definition simp_coboundary (a : list Z -> Z) (s : list Z) : Z := zsum (map (fun f => snd f * a (fst f)) (faces s)).
(** Congruence modulo the torsion; equality for torsion 0. *)
Definition congruent (t a b : Z) : Prop := exists q, a - b = q * t.
