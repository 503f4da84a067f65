(** * Operations on the zero element (C58) *)
From Verif Require Import PyBase Dict FreeModule Symmetric Simplicial Cubical Utils Surjection BarrattEccles Spec SpecChain SpecCube SpecOperad SpecSurj.
From Verif Require Import Eqm FreeModuleFacts ListFacts TensorAct BEFacts SurjLaws.

Lemma dempty_nil {K A} (x : elt K A) : is_zero x -> dempty (data x) = true.
Proof. unfold is_zero. now intros ->. Qed.
Lemma dempty_nonnil {K A} (x : elt K A) : ~ is_zero x -> dempty (data x) = false.
Proof. unfold is_zero. destruct (data x); [congruence|reflexivity]. Qed.
Lemma elt_zero {K A} (x : elt K A) : is_zero x -> x = mkElt [] (torsion x) (attr x).
Proof. destruct x as [d t a]. unfold is_zero. cbn. now intros ->. Qed.
Lemma new_nil {K A} `{PyKey K} dt (c : pycls K) t (a : A) : new dt c [] (Some t) a = Ok (mkElt [] t a).
Proof. unfold new, convert, pref, zero_bad, strip, reduce. cbn. destruct (t =? 0); reflexivity. Qed.
Lemma unit_eq (u : unit) : u = tt.
Proof. now destruct u. Qed.
Lemma pref_nil {K} `{PyKey K} (c : pycls K) t : pref c t [] = Ok [].
Proof. unfold pref, zero_bad, strip, reduce. cbn. destruct (t =? 0); reflexivity. Qed.
Lemma list_prod_nil_r {X Y} (l : list X) : list_prod l (@nil Y) = [].
Proof. now induction l. Qed.

(** #C58_zero_unary# The unary operations send zero to zero, for every default torsion. *)
Lemma zero_unary_l (dt : Z) :
  (forall x : bee, is_zero x ->
     be_boundary dt x = Ok x /\ (forall rep, be_orbit dt x rep = Ok x) /\
     be_table_reduction dt x = Ok (mkElt [] (torsion x) BF) /\
     (forall r, be_diagonal dt x r = Ok (mkElt [] (torsion x) tt)) /\ be_complexity x = Ok 0) /\
  (forall x : surj, is_zero x ->
     surj_boundary dt x = Ok x /\ (forall rep, surj_orbit dt x rep = Ok x) /\ surj_suspension dt x = Ok x /\
     surj_complexity x = Ok 0 /\ surj_filtration x = Ok 0) /\
  (forall x : simp, is_zero x -> simp_boundary dt x = Ok x /\ simp_one_reduced dt x = Ok x) /\
  (forall x : cubc, is_zero x ->
     cub_boundary dt x = Ok x /\ cub_join dt x = Ok x /\ cub_cartan_serre dt x = Ok (mkElt [] (torsion x) tt)) /\
  (forall (x : ring) k, is_zero x -> k <> 0 -> ring_pow dt x k = Ok x).
Proof.
  repeat split; intros; match goal with Hx : is_zero _ |- _ => rewrite (elt_zero _ Hx) end;
    try destruct (attr x); try reflexivity.
  - unfold be_boundary. rewrite zero_data. cbn [bind data torsion attr for_]. now rewrite pref_nil.
  - unfold be_table_reduction. rewrite new_nil. cbn [bind data torsion attr for_]. now rewrite pref_nil.
  - unfold be_diagonal. now rewrite new_nil.
  - unfold surj_boundary. rewrite zero_data. cbn [bind data torsion attr dkeys map for_]. now destruct (_ =? _).
  - unfold surj_boundary. rewrite zero_data. cbn [bind data torsion attr dkeys map for_]. now destruct (_ =? _).
  - unfold surj_boundary. rewrite zero_data. cbn [bind data torsion attr dkeys map for_]. now destruct (_ =? _).
  - unfold surj_orbit. now rewrite zero_data.
  - unfold surj_orbit. now rewrite zero_data.
  - unfold surj_orbit. now rewrite zero_data.
  - unfold simp_boundary. now rewrite zero_data.
  - unfold simp_one_reduced. now rewrite zero_data.
  - unfold cub_boundary. now rewrite zero_data.
  - unfold cub_cartan_serre. rewrite new_nil. cbn [bind]. rewrite zero_data. reflexivity.
  - unfold ring_pow. destruct (k =? 0) eqn:E; [lia|]. now rewrite zero_data.
Qed.

(** #C58_zero_binary# Products and compositions in the group ring, composition in the surjection operad
    (also between zeros of different torsions) and the action of surjections on chains: zero when one of the operands is
    zero (and the operation accepts the operands). *)
Lemma zero_binary_l (dt : Z) :
  (forall x y : ring, is_zero x \/ is_zero y -> torsion x = torsion y -> ring_mul dt x y = Ok (mkElt [] (torsion x) tt)) /\
  (forall (x y : ring) i, is_zero x \/ is_zero y -> torsion x = torsion y ->
     ring_compose dt x y i = Ok (mkElt [] (torsion x) tt)) /\
  (forall (x y : surj) i r, 1 <= r -> keys_in (onto r) y -> is_zero x \/ is_zero y ->
     surj_compose dt x y i = Ok (mkElt [] (torsion x) (attr x))) /\
  (forall (x : surj) (y : simp) i, is_zero x \/ is_zero y -> surj_call_simplicial dt x y i = Ok (mkElt [] (torsion y) tt)) /\
  (forall (x : surj) (y : cubc) i, is_zero x \/ is_zero y -> surj_call_cubical dt x y i = Ok (mkElt [] (torsion y) tt)).
Proof.
  split; [|split; [|split; [|split]]].
  - intros x y Hz Ht. unfold ring_mul. rewrite Ht, Z.eqb_refl. cbn [negb]. rewrite zero_data. cbn [bind data].
    assert (E : list_prod (data x) (data y) = []) by (destruct Hz as [E | E]; rewrite E; [reflexivity|apply list_prod_nil_r]).
    rewrite E. cbn [for_ bind]. rewrite pref_nil. reflexivity.
  - intros x y i Hz Ht. unfold ring_compose. rewrite Ht, Z.eqb_refl. cbn [negb]. rewrite !zero_data. cbn [bind].
    destruct (dempty (data x)); [now rewrite Ht, (unit_eq (attr x))|].
    assert (E : list_prod (data x) (data y) = []) by (destruct Hz as [E | E]; rewrite E; [reflexivity|apply list_prod_nil_r]).
    rewrite E. cbn [for_]. now rewrite Ht, (unit_eq (attr x)).
  - intros x y i r Hr Hy Hz. unfold surj_compose. rewrite zero_data. cbn [bind].
    assert (E : list_prod (data x) (data y) = []) by (destruct Hz as [E | E]; rewrite E; [reflexivity|apply list_prod_nil_r]).
    rewrite E. destruct (data y) as [|p d] eqn:Ed.
    + unfold surj_arity. rewrite Ed. reflexivity.
    + rewrite (surj_arity_ok r) by (auto; rewrite Ed; discriminate). reflexivity.
  - intros x y i Hz. unfold surj_call_simplicial.
    assert (E : dempty (data x) || dempty (data y) = true)
      by (destruct Hz as [E | E]; rewrite E; [reflexivity|apply orb_true_r]).
    rewrite E, zero_data. now rewrite (unit_eq (attr y)).
  - intros x y i Hz. unfold surj_call_cubical.
    assert (E : dempty (data x) || dempty (data y) = true)
      by (destruct Hz as [E | E]; rewrite E; [reflexivity|apply orb_true_r]).
    rewrite E, zero_data. now rewrite (unit_eq (attr y)).
Qed.

(** #C58_act_both_zero# The actions of the symmetric group ring accept two zero operands. *)
Lemma act_both_zero_l (dt : Z) (a : ring) : is_zero a ->
  (forall x : bee, is_zero x -> torsion x = torsion a -> be_act dt a x = Ok x) /\
  (forall x : surj, is_zero x -> torsion x = torsion a -> surj_act dt a x = Ok x) /\
  (forall x : simp, is_zero x -> torsion x = torsion a -> simp_act dt a x = Ok x) /\
  (forall x : cubc, is_zero x -> torsion x = torsion a -> cub_act dt a x = Ok x).
Proof.
  intros Ha. rewrite (elt_zero _ Ha). repeat split; intros x Hx Ht; rewrite (elt_zero _ Hx); cbn [torsion] in Ht.
  - unfold be_act. cbn [torsion]. rewrite Ht, Z.eqb_refl. cbn [negb]. change (be_arity _) with (Ok (A := option Z) None). cbn [bind]. change (ring_arity _) with (Ok (A := option Z) None).
    cbn [bind opt_eqb negb]. now rewrite zero_data.
  - unfold surj_act. cbn [torsion]. rewrite Ht, Z.eqb_refl. cbn [negb]. change (surj_arity _) with (Ok (A := option Z) None). cbn [bind]. change (ring_arity _) with (Ok (A := option Z) None).
    cbn [bind opt_eqb negb]. now rewrite zero_data.
  - unfold simp_act. cbn [torsion]. rewrite Ht, Z.eqb_refl. cbn [negb]. change (ring_arity _) with (Ok (A := option Z) None).
    cbn [bind]. change (simp_arity _) with (None : option Z). cbn [opt_eqb negb]. now rewrite zero_data.
  - unfold cub_act. cbn [torsion]. rewrite Ht, Z.eqb_refl. cbn [negb]. change (ring_arity _) with (Ok (A := option Z) None).
    cbn [bind]. change (cub_arity _) with (None : option Z). cbn [opt_eqb negb]. now rewrite zero_data.
Qed.

(** #C58_act_zero_refuted# The naive expectation fails: the action of zero on a non-zero element, and of
    a non-zero element on zero, raises TypeError, in the four classes. *)
Lemma act_zero_refuted_l (dt n : Z) (a z : ring) : 1 <= n -> keys_in (fun k => perm n (kval k)) a -> ~ is_zero a -> is_zero z ->
  (forall x : bee, is_zero x -> be_act dt a x = Err TypeError) /\
  (forall x : surj, is_zero x -> surj_act dt a x = Err TypeError) /\
  (forall x : simp, is_zero x -> simp_act dt a x = Err TypeError) /\
  (forall x : cubc, is_zero x -> cub_act dt a x = Err TypeError) /\
  (forall x : bee, wf cls_be x -> keys_in (be_simplex n) x -> ~ is_zero x -> be_act dt z x = Err TypeError) /\
  (forall x : surj, keys_in (onto n) x -> ~ is_zero x -> surj_act dt z x = Err TypeError) /\
  (forall x : simp, keys_in (fun k => zlen k = n) x -> ~ is_zero x -> simp_act dt z x = Err TypeError) /\
  (forall x : cubc, keys_in (fun k => zlen k = n) x -> ~ is_zero x -> cub_act dt z x = Err TypeError).
Proof.
  intros Hn Ka Na Hz.
  assert (Ea : ring_arity a = Ok (Some n)) by (apply ring_arity_ok; auto).
  assert (Ez : ring_arity z = Ok None) by (unfold ring_arity; now rewrite Hz).
  repeat split; intros x Hx; intros;
    unfold be_act, surj_act, simp_act, cub_act; destruct (negb _); try reflexivity; rewrite ?Ea, ?Ez; cbn [bind].
  - rewrite (elt_zero _ Hx). reflexivity.
  - rewrite (elt_zero _ Hx). reflexivity.
  - rewrite (elt_zero _ Hx). reflexivity.
  - rewrite (elt_zero _ Hx). reflexivity.
  - rewrite (be_arity_ok n) by auto. reflexivity.
  - rewrite (surj_arity_ok n) by auto. reflexivity.
  - unfold simp_arity. rewrite (tensor_arity_ok n) by auto. reflexivity.
  - unfold cub_arity. rewrite (tensor_arity_ok n) by auto. reflexivity.
Qed.

(** #C58_compose_zero_refuted# Barratt-Eccles composition with a zero operand raises TypeError. *)
Lemma compose_zero_refuted_l (dt : Z) (x y : bee) (i : Z) : is_zero x \/ is_zero y -> be_compose dt x y i = Err TypeError.
Proof.
  intros Hz. unfold be_compose, be_compose_check. destruct (negb _); [reflexivity|].
  assert (E : dempty (data x) || dempty (data y) = true)
    by (destruct Hz as [E | E]; rewrite E; [reflexivity|apply orb_true_r]).
  rewrite E. cbn [bind]. rewrite zero_data. cbn [bind].
  destruct Hz as [E1 | E1].
  - unfold be_degree at 1. rewrite E1. reflexivity.
  - destruct (be_degree x); [|reflexivity]. unfold be_degree. rewrite E1. reflexivity.
Qed.

(** #C58_diagonal_zero_refuted# The iterated diagonal of zero, and the power 0 of a zero group ring element, raise TypeError. *)
Lemma diagonal_zero_refuted_l (dt times coord : Z) :
  (forall x : simp, is_zero x -> simp_iterated_diagonal dt x times coord = Err TypeError) /\
  (forall x : cubc, is_zero x -> cub_iterated_diagonal dt x times coord = Err TypeError) /\
  (forall x : ring, is_zero x -> ring_pow dt x 0 = Err TypeError).
Proof. repeat split; intros x Hx; rewrite (elt_zero _ Hx); reflexivity. Qed.

(** #C58_example# The hypotheses hold for the difference of an element with itself. *)
Example example_l :
  (let! x := simp_new 0 [([[0; 1; 2]], 1)] (Some 0) in
  let! z := sub 0 cls_simplicial x x in
  let! b := simp_boundary 0 z in
  Ok (data z, data b, simp_iterated_diagonal 0 z 1 1))
  = Ok ([], [], Err TypeError).
Proof. reflexivity. Qed.
