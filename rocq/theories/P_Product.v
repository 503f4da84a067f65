(** * Property theorems.  Generated by tools/mkprop.py from the tagged lemmas of
    ProductLaws.v: every theorem is closed by [exact]. *)
From Coq Require Import Znumtheory Sorting.Sorted.
From Verif Require Import PyBase Dict FreeModule Symmetric Simplicial Cubical Utils Surjection BarrattEccles GroupMul Spec SpecOperad SpecSurj ProductLaws.

(** Every non-zero product of two ring elements, whatever they are, is
    rejected when it is composed with a non-zero element of the same torsion (AttributeError) and by
    the operator ** with an exponent other than 0 (TypeError). *)
Theorem C18_products_rejected : forall (dt i k : Z) (x y p z : ring),
  ring_mul dt x y = Ok p -> ~ is_zero p ->
  (torsion z = torsion p -> ~ is_zero z -> ring_compose dt p z i = Err AttributeError) /\
  (k <> 0 -> ring_pow dt p k = Err TypeError).
Proof. exact @C18_products_rejected_l. Qed.
Print Assumptions C18_products_rejected.

(** A group element and a ring element cannot be multiplied, in either order. *)
Theorem C18_group_times_ring : forall (dt : Z) (g : list Z) (x : ring),
  0 <= torsion x -> ring_mul_group x g = Err TypeError /\ group_mul_ring dt g x = Err TypeError.
Proof. exact @C18_group_times_ring_l. Qed.
Print Assumptions C18_group_times_ring.

(** The power of a ring element of arity n with exponent m >= 1 is the sum of
    the powers of its permutations with the same coefficients; with exponent 0 it is the identity
    of the arity. *)
Theorem C17_power_formula : forall (dt n m : Z) (x : ring),
  1 <= n -> wf cls_ring x -> dt_ok dt (torsion x) -> keys_in (fun k => is_sge k = true /\ perm n (kval k)) x ->
  (1 <= m -> gives cls_ring (ring_pow dt x m) (torsion x) tt
     (extend (fun k => match sg_pow (kval k) m with Ok p => [(SGE p, 1)] | Err _ => [] end) x)) /\
  (~ is_zero x -> ring_pow dt x 0 = identity_element dt n (Some (torsion x))).
Proof. exact @C17_power_formula_l. Qed.
Print Assumptions C17_power_formula.

(** The product of two ring elements of arity n can be added to, subtracted
    from, compared with and multiplied by ring elements and by integers, and acts directly on
    simplicial, cubical and surjection elements; after re-creation it is an equal element that can
    also be raised to powers and act on Barratt-Eccles elements. *)
Theorem C18_products_usable : forall (dt n m : Z) (a b p c : ring) (x : simp) (y : cubc) (u : surj) (v : bee),
  1 <= n -> wf cls_ring a -> wf cls_ring b -> wf cls_ring c -> torsion b = torsion a -> torsion c = torsion a -> dt_ok dt (torsion a) ->
  keys_in (fun k => perm n (kval k)) a -> keys_in (fun k => perm n (kval k)) b -> keys_in (fun k => perm n (kval k)) c ->
  ring_mul dt a b = Ok p -> ~ is_zero p ->
  ((exists z, add dt cls_ring p c = Ok z) /\ (exists z, sub dt cls_ring p c = Ok z) /\ (exists z, scale dt cls_ring m p = Ok z) /\
   (exists z, ring_mul dt p c = Ok z) /\ (exists z, ring_mul dt c p = Ok z)) /\
  (wf cls_simplicial x -> torsion x = torsion a -> ~ is_zero x -> keys_in (fun k => zlen k = n) x -> exists z, simp_act dt p x = Ok z) /\
  (wf cls_cubical y -> torsion y = torsion a -> ~ is_zero y -> keys_in (fun k => zlen k = n) y -> exists z, cub_act dt p y = Ok z) /\
  (wf cls_surj u -> torsion u = torsion a -> ~ is_zero u -> attr u = BF \/ attr u = MS -> keys_in (onto n) u -> exists z, surj_act dt p u = Ok z) /\
  exists q, create dt cls_ring p (data p) = Ok q /\ elt_eqb q p = true /\ (0 <= m -> exists z, ring_pow dt q m = Ok z) /\
    (wf cls_be v -> torsion v = torsion a -> ~ is_zero v -> keys_in (be_simplex n) v -> exists z, be_act dt q v = Ok z).
Proof. exact @C18_products_usable_l. Qed.
Print Assumptions C18_products_usable.
