(** * Specification vocabulary for the suspension of surjections.  No proofs here. *)
From Verif Require Import PyBase Dict FreeModule Spec.

(** Does the word [u] contain each of 1, ..., r? *)
Definition covers (r : Z) (u : list Z) : bool := forallb (fun j => mem j u) (zrange 1 (r + 1)).
(** Suspension of the word [k] of arity [r]: nothing unless the first [r]
    letters are a permutation; then the word from the last of these letters
    on, with the sign of the permutation. *)
Definition surj_suspended (r : Z) (k : list Z) : list (list Z * Z) :=
  let u := firstn (Z.to_nat r) k in
  if covers r u then [(skipn (Z.to_nat (r - 1)) k, sgn (inversions u))] else [].

(** Both computations return normally, with the same attributes and the same
    coefficients for the basis elements that satisfy [P]. *)
Definition agree_on {K A} `{PyKey K} (P : K -> Prop) (r r' : res (elt K A)) : Prop :=
  exists x y, r = Ok x /\ r' = Ok y /\ torsion x = torsion y /\ attr x = attr y /\
    forall k, P k -> dget (data x) k = dget (data y) k.
