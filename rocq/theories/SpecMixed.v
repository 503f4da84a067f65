(** * Specification: operations on elements of different torsion (C05) *)
From Verif Require Import PyBase Dict FreeModule Symmetric Simplicial Cubical Utils Surjection BarrattEccles GroupMul Heap World SpecObjects.

Definition value_torsion (v : value) : Z := torsion (projT2 v).
Definition value_zero (v : value) : bool := dempty (data (projT2 v)).

(** the calls with two elements as operands that have to refuse operands of
    different torsion: sums and differences, in place or not, the product of
    the group ring, the actions of the group ring, the composition of the
    Barratt-Eccles operad, and, for a non-zero left operand, the composition
    of ring elements.  (The composition of surjections does not look at the
    torsion; for the action of surjections on chains see C05_call.) *)
Definition mixes (c : call) (p q : ref) (v : value) : Prop :=
  match c with
  | CFree k (OAdd i j) | CFree k (OSub i j) | CFree k (OIadd i j) | CFree k (OIsub i j) => p = (k, i) /\ q = (k, j)
  | RingMul i j => p = (KRing, i) /\ q = (KRing, j)
  | SimpAct r i => p = (KRing, r) /\ q = (KSimp, i)
  | CubAct r i => p = (KRing, r) /\ q = (KCub, i)
  | SurjAct r i => p = (KRing, r) /\ q = (KSurj, i)
  | BeAct r i => p = (KRing, r) /\ q = (KBE, i)
  | BeCompose i j _ => p = (KBE, i) /\ q = (KBE, j)
  | RingCompose i j _ => p = (KRing, i) /\ q = (KRing, j) /\ value_zero v = false
  | _ => False
  end.
