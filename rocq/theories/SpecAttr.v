(** * Specification: largest value of a list *)
From Verif Require Import PyBase.
Definition largest (m : Z) (l : list Z) : Prop := In m l /\ forall i, In i l -> i <= m.
