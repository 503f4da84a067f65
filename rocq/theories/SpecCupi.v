(** * Specification vocabulary for Steenrod's formula for cup-i products.  No proofs here. *)
From Verif Require Import PyBase Dict FreeModule Symmetric Simplicial Surjection Spec SpecChain SpecAction SpecCup.

(** a u_i b on the simplex [s]: [s] is cut in all ways into i + 2 consecutive pieces that share their end vertices, the pieces at
    odd places are joined and given to [a], those at even places are joined and given to [b]; the sign is that of the action of
    the word (1, 2, 1, ...). *)
Definition cupi (i : nat) (a b : list Z -> Z) (s : list Z) : Z :=
  zsum (map (fun u => sgn (action_exponent 2 (combine (altw 1 (i + 2)) (map (fun w => zlen w - 1) u))) *
                      (a (joined 1 (combine (altw 1 (i + 2)) u)) * b (joined 2 (combine (altw 1 (i + 2)) u)))) (front_back (i + 1) s)).
