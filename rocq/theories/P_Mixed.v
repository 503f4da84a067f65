(** * Property theorems.  Generated by tools/mkprop.py from the tagged lemmas of
    MixedLaws.v: every theorem is closed by [exact]. *)
From Coq Require Import Znumtheory Sorting.Sorted.
From Verif Require Import PyBase Dict FreeModule Symmetric Simplicial Cubical Utils Surjection BarrattEccles GroupMul Heap World Spec SpecObjects SpecMixed MixedLaws.

(** The product of the group ring and the actions of the group ring refuse an
    operand of another torsion before they look at anything else, and so does the composition of
    Barratt-Eccles elements; the composition of ring elements does unless the left one is zero. *)
Theorem C05_products : forall (dt : Z) (r r' : ring) (x : simp) (y : cubc) (z : surj) (u u' : bee) (position : Z),
  (torsion r <> torsion r' -> ring_mul dt r r' = Err TypeError /\ (data r <> [] -> ring_compose dt r r' position = Err TypeError)) /\
  (torsion r <> torsion x -> simp_act dt r x = Err TypeError) /\
  (torsion r <> torsion y -> cub_act dt r y = Err TypeError) /\
  (torsion r <> torsion z -> surj_act dt r z = Err TypeError) /\
  (torsion r <> torsion u -> be_act dt r u = Err TypeError) /\
  (torsion u <> torsion u' -> be_compose dt u u' position = Err TypeError).
Proof. exact @C05_products_l. Qed.
Print Assumptions C05_products.

(** The action of a surjection element on simplicial and on cubical chains refuses a
    chain of another torsion, unless one of the two is zero. *)
Theorem C05_call : forall (dt : Z) (z : surj) (x : simp) (y : cubc) (coord : Z),
  keys_in (fun k => k <> []) z -> data z <> [] ->
  (data x <> [] -> torsion z <> torsion x -> surj_call_simplicial dt z x coord = Err TypeError) /\
  (data y <> [] -> torsion z <> torsion y -> surj_call_cubical dt z y coord = Err TypeError).
Proof. exact @C05_call_l. Qed.
Print Assumptions C05_call.

(** In every state a program can reach, such a call on two objects of
    different torsion raises TypeError, and afterwards the two operands and every other object are
    what they were. *)
Theorem C05_operands_unchanged : forall (dt : Z) (dc : conv) (before : list call) (c : call) (p q : ref) (v v' : value),
  let w := wrun dt dc before empty_world in
  sees w p = Some v -> sees w q = Some v' -> mixes c p q v -> value_torsion v <> value_torsion v' ->
  let (w', r) := wcall dt dc c w in
  r = Err TypeError /\ forall o u, sees w o = Some u -> sees w' o = Some u.
Proof. exact @C05_operands_unchanged_l. Qed.
Print Assumptions C05_operands_unchanged.
