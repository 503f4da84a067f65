(** * Specification vocabulary for the cochains Sq^k(a) and a u b computed by the code.  No proofs here. *)
From Verif Require Import PyBase Dict FreeModule Symmetric Simplicial Surjection Spec SpecChain SpecCochain SpecSimpCup.

(** [v] is, modulo 2, the value on the simplex [s] of Sq^k(a), for a cochain [a] of degree
    [m]: the value of a (x) a on steenrod_operation(2, -k, -m) applied to [s]. *)
Definition square_at (dt : Z) (dc : conv) (k m : Z) (a : list Z -> Z) (s : list Z) (v : Z) : Prop :=
  exists S x y, surj_steenrod_operation dt dc 2 (- k) (- m) false (Some MS) = Ok S /\ simp_new dt [([s], 1)] (Some 2) = Ok x /\
    surj_call_simplicial dt S x 1 = Ok y /\ congruent 2 (simp_value (simp_pair a a) y) v.
(** [v] is, modulo 2, the value on the simplex [s] of the cup product of [a] and [b]: the
    value of a (x) b on the diagonal of [s]. *)
Definition cup_at (dt : Z) (a b : list Z -> Z) (s : list Z) (v : Z) : Prop :=
  exists x y, simp_new dt [([s], 1)] (Some 2) = Ok x /\ extended1 dt cls_simplicial (fun y => simp_iterated_diagonal dt y 1 1) x = Ok y /\
    congruent 2 (simp_value (simp_pair a b) y) v.
(** The cochain [f] is Sq^k(a), and the cochain [f] is a u b, modulo 2. *)
Definition is_square (dt : Z) (dc : conv) (k m : Z) (a f : list Z -> Z) : Prop := forall s, s <> [] -> square_at dt dc k m a s (f s).
Definition is_cup (dt : Z) (a b f : list Z -> Z) : Prop := forall s, s <> [] -> cup_at dt a b s (f s).
