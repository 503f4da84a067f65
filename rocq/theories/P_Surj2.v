(** * Property theorems.  Generated by tools/mkprop.py from the tagged lemmas of
    SurjLaws2.v: every theorem is closed by [exact]. *)
From Coq Require Import Znumtheory Sorting.Sorted.
From Verif Require Import PyBase Dict FreeModule Symmetric Simplicial Utils Surjection BarrattEccles Spec SpecChain SpecOperad SpecSurj SurjLaws2.

(** A permutation acts by renaming the values, with the
    Koszul sign in the McClure-Smith convention; extended bilinearly. *)
Theorem C46_action_formula : forall (dt n : Z) (a : ring) (x : surj),
  1 <= n -> wf cls_ring a -> wf cls_surj x -> torsion a = torsion x -> dt_ok dt (torsion x) -> attr x = BF \/ attr x = MS ->
  keys_in (fun k => perm n (kval k)) a -> keys_in (onto n) x -> ~ is_zero a -> ~ is_zero x ->
  gives cls_surj (surj_act dt a x) (torsion x) (attr x) (extend2 (fun p k => surj_move (attr x) (kval p) k) a x).
Proof. exact @C46_action_formula_l. Qed.
Print Assumptions C46_action_formula.

(** (a * b) * x == a * (b * x), extended by zero. *)
Theorem C46_left_action : forall (dt n : Z) (a b : ring) (x : surj),
  1 <= n -> wf cls_ring a -> wf cls_ring b -> wf cls_surj x -> torsion a = torsion x -> torsion b = torsion x -> dt_ok dt (torsion x) -> attr x = BF \/ attr x = MS ->
  keys_in (fun k => perm n (kval k)) a -> keys_in (fun k => perm n (kval k)) b -> keys_in (onto n) x ->
  same (let! ab := ring_mul dt a b in extended dt cls_surj (surj_act dt) ab x)
       (let! bx := extended dt cls_surj (surj_act dt) b x in extended dt cls_surj (surj_act dt) a bx).
Proof. exact @C46_left_action_l. Qed.
Print Assumptions C46_left_action.

Theorem C46_unit : forall (dt n : Z) (x : surj),
  1 <= n -> wf cls_surj x -> dt_ok dt (torsion x) -> torsion x <> 1 -> attr x = BF \/ attr x = MS -> keys_in (onto n) x ->
  same (let! e := identity_element dt n (Some (torsion x)) in extended dt cls_surj (surj_act dt) e x) (Ok x).
Proof. exact @C46_unit_l. Qed.
Print Assumptions C46_unit.

Theorem C46_bilinear : forall (dt n : Z) (a b : ring) (x y : surj),
  1 <= n -> wf cls_ring a -> wf cls_ring b -> wf cls_surj x -> wf cls_surj y ->
  torsion a = torsion x -> torsion b = torsion x -> torsion y = torsion x -> attr y = attr x -> dt_ok dt (torsion x) -> attr x = BF \/ attr x = MS ->
  keys_in (fun k => perm n (kval k)) a -> keys_in (fun k => perm n (kval k)) b -> keys_in (onto n) x -> keys_in (onto n) y ->
  same (let! s := add dt cls_ring a b in extended dt cls_surj (surj_act dt) s x)
       (let! p := extended dt cls_surj (surj_act dt) a x in let! q := extended dt cls_surj (surj_act dt) b x in add dt cls_surj p q) /\
  same (let! s := add dt cls_surj x y in extended dt cls_surj (surj_act dt) a s)
       (let! p := extended dt cls_surj (surj_act dt) a x in let! q := extended dt cls_surj (surj_act dt) a y in add dt cls_surj p q).
Proof. exact @C46_bilinear_l. Qed.
Print Assumptions C46_bilinear.

(** boundary(a * x) == a * boundary(x), extended by zero, in both conventions. *)
Theorem C46_action_boundary : forall (dt n : Z) (a : ring) (x : surj),
  1 <= n -> wf cls_ring a -> wf cls_surj x -> torsion a = torsion x -> dt_ok dt (torsion x) -> attr x = BF \/ attr x = MS ->
  keys_in (fun k => perm n (kval k)) a -> keys_in (onto n) x ->
  same (let! y := extended dt cls_surj (surj_act dt) a x in surj_boundary dt y)
       (let! y := surj_boundary dt x in extended dt cls_surj (surj_act dt) a y).
Proof. exact @C46_action_boundary_l. Qed.
Print Assumptions C46_action_boundary.

(** The action keeps arity and degree. *)
Theorem C46_degree : forall (dt n d : Z) (a : ring) (x : surj),
  1 <= n -> wf cls_ring a -> wf cls_surj x -> torsion a = torsion x -> dt_ok dt (torsion x) -> attr x = BF \/ attr x = MS ->
  keys_in (fun k => perm n (kval k)) a -> keys_in (surj_cell n d) x ->
  exists y, extended dt cls_surj (surj_act dt) a x = Ok y /\ wf cls_surj y /\ torsion y = torsion x /\ attr y = attr x /\ keys_in (surj_cell n d) y.
Proof. exact @C46_degree_l. Qed.
Print Assumptions C46_degree.

(** Different torsions, different arities, or an unknown convention are rejected. *)
Theorem C46_mismatch : forall (dt n m : Z) (a : ring) (x : surj),
  (torsion a <> torsion x -> surj_act dt a x = Err TypeError) /\
  (ring_arity a = Ok (Some n) -> surj_arity x = Ok (Some m) -> n <> m -> surj_act dt a x = Err TypeError) /\
  (1 <= n -> wf cls_ring a -> torsion a = torsion x -> attr x = OtherConv -> keys_in (fun k => perm n (kval k)) a -> keys_in (onto n) x -> ~ is_zero a -> ~ is_zero x ->
   surj_act dt a x = Err AssertionError).
Proof. exact @C46_mismatch_l. Qed.
Print Assumptions C46_mismatch.

Example C46_example : let x cv := mkElt (A := conv) [([1; 2; 1; 3; 2], 1)] 0 cv in
  let a := mkElt [(SGE [2; 1; 3], 1); (Tup [3; 1; 2], 5)] 0 tt in
  wf cls_surj (x MS) /\ wf cls_ring a /\ keys_in (fun k => perm 3 (kval k)) a /\ keys_in (onto 3) (x MS) /\
  surj_act 0 a (x BF) = Ok (mkElt [([2; 1; 2; 3; 1], 1); ([3; 1; 3; 2; 1], 5)] 0 BF) /\
  surj_act 0 a (x MS) = Ok (mkElt [([2; 1; 2; 3; 1], -1); ([3; 1; 3; 2; 1], -5)] 0 MS).
Proof. exact @C46_example_l. Qed.

(** Every basis element is acted on by the permutation that
    makes the first occurrences increasing (with the sign of the action in the McClure-Smith convention); with ['sign'],
    times the sign of that permutation. *)
Theorem C47_orbit_formula : forall (dt n : Z) (rep : repr) (x : surj),
  1 <= n -> wf cls_surj x -> dt_ok dt (torsion x) -> keys_in (onto n) x ->
  attr x = BF \/ attr x = MS -> rep = Trivial \/ rep = SignRep ->
  gives cls_surj (surj_orbit dt x rep) (torsion x) (attr x)
    (extend (fun k => map (fun '(k', s) => (k', match rep with SignRep => sgn (inversions (surj_rename k)) | _ => 1 end * s))
                          (surj_move (attr x) (surj_rename k) k)) x).
Proof. exact @C47_orbit_formula_l. Qed.
Print Assumptions C47_orbit_formula.

Theorem C47_first_occurrences_increasing : forall (dt n : Z) (rep : repr) (x : surj),
  1 <= n -> wf cls_surj x -> dt_ok dt (torsion x) -> keys_in (onto n) x ->
  attr x = BF \/ attr x = MS -> rep = Trivial \/ rep = SignRep ->
  exists y, surj_orbit dt x rep = Ok y /\ wf cls_surj y /\ torsion y = torsion x /\ attr y = attr x /\
    keys_in (fun k => onto n k /\ firsts k = zrange 1 (n + 1)) y.
Proof. exact @C47_first_occurrences_increasing_l. Qed.
Print Assumptions C47_first_occurrences_increasing.

Theorem C47_idempotent : forall (dt n : Z) (rep : repr) (x : surj),
  1 <= n -> wf cls_surj x -> dt_ok dt (torsion x) -> keys_in (onto n) x ->
  attr x = BF \/ attr x = MS -> rep = Trivial \/ rep = SignRep ->
  same (let! y := surj_orbit dt x rep in surj_orbit dt y rep) (surj_orbit dt x rep).
Proof. exact @C47_idempotent_l. Qed.
Print Assumptions C47_idempotent.

(** If [a] is a permutation (with coefficient 1) the orbits of [x] and [a * x]
    agree, up to the sign of [a] for ['sign']; in general they are proportional by
    the (twisted) augmentation of [a]. *)
Theorem C47_constant_on_orbits : forall (dt n : Z) (rep : repr) (a : ring) (x : surj),
  1 <= n -> wf cls_ring a -> wf cls_surj x -> torsion a = torsion x -> dt_ok dt (torsion x) -> attr x = BF \/ attr x = MS -> rep = Trivial \/ rep = SignRep ->
  keys_in (fun k => perm n (kval k)) a -> keys_in (onto n) x ->
  same (let! y := extended dt cls_surj (surj_act dt) a x in surj_orbit dt y rep)
       (let! y := surj_orbit dt x rep in
        scale dt cls_surj (zsum (map (fun kv => snd kv * match rep with SignRep => sgn (inversions (kval (fst kv))) | _ => 1 end) (data a))) y).
Proof. exact @C47_constant_on_orbits_l. Qed.
Print Assumptions C47_constant_on_orbits.

(** The boundary is defined on orbits. *)
Theorem C47_boundary_on_orbits : forall (dt n : Z) (rep : repr) (x : surj),
  1 <= n -> wf cls_surj x -> dt_ok dt (torsion x) -> keys_in (onto n) x ->
  attr x = BF \/ attr x = MS -> rep = Trivial \/ rep = SignRep ->
  same (let! y := surj_orbit dt x rep in let! z := surj_boundary dt y in surj_orbit dt z rep)
       (let! z := surj_boundary dt x in surj_orbit dt z rep).
Proof. exact @C47_boundary_on_orbits_l. Qed.
Print Assumptions C47_boundary_on_orbits.

(** Any other representation string raises TypeError on a non-zero element. *)
Theorem C47_unknown_representation : forall (dt n : Z) (x : surj),
  1 <= n -> keys_in (onto n) x -> ~ is_zero x -> surj_orbit dt x OtherRep = Err TypeError.
Proof. exact @C47_unknown_representation_l. Qed.
Print Assumptions C47_unknown_representation.

Example C47_example : let x := mkElt [([2; 1; 2; 3; 1], 1); ([1; 2; 1; 3; 2], 1)] 0 MS in
  wf cls_surj x /\ keys_in (onto 3) x /\
  surj_orbit 0 x Trivial = Ok (mkElt [] 0 MS) /\
  surj_orbit 0 x SignRep = Ok (mkElt [([1; 2; 1; 3; 2], 2)] 0 MS).
Proof. exact @C47_example_l. Qed.
