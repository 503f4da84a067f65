(** * Specification vocabulary for the Adem relations.  No proofs here. *)
From Verif Require Import PyBase Dict FreeModule Symmetric Simplicial Surjection Spec SpecChain SpecCochain SpecSimpCup.

(** Binomial coefficients (Pascal's triangle). *)
Fixpoint choose (n k : nat) {struct n} : Z :=
  match k, n with
  | O, _ => 1
  | S _, O => 0
  | S k', S n' => choose n' k' + choose n' k
  end.

(** [v] is the value on the chain [c] of Sq^k(a), for a cochain [a] of degree [m]: the value
    of a (x) a on steenrod_operation(2, -k, -m) applied to [c]. *)
Definition square_on (dt : Z) (dc : conv) (k m : Z) (a : list Z -> Z) (c : simp) (v : Z) : Prop :=
  exists S y, surj_steenrod_operation dt dc 2 (- k) (- m) false (Some MS) = Ok S /\ surj_call_simplicial dt S c 1 = Ok y /\ simp_value (simp_pair a a) y = v.
