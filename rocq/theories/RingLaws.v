(** * Laws of the symmetric group rings (C15-C19). *)
From Coq Require Import Setoid Morphisms.
From Verif Require Import PyBase Dict FreeModule Symmetric Eqm Spec FreeModuleFacts FreeModuleLaws ListFacts ClassFacts LinearFacts
  SymmetricFacts CycleFacts SymmetricLaws RingFacts.

Ltac dwf := match goal with Hd : den ?c ?t ?a _ ?y |- wf ?c ?y => refine (den_wf c t a _ y _ Hd); assumption end.
Lemma ring_attr (w : ring) : attr w = tt.
Proof. now destruct (attr w). Qed.

(** #C15_product_coefficients# The product extends the product of
    permutations bilinearly: the coefficient of [p] in [x * y] is the sum of
    the products of the coefficients of [a] in [x] and [b] in [y] over the
    pairs with [a * b = p] (modulo the torsion); its basis elements are
    permutations of the same arity. *)
Lemma C15_product_coefficients_l (dt n : Z) (x y : ring) :
  1 <= n -> wf cls_ring x -> wf cls_ring y -> torsion y = torsion x ->
  keys_in (fun k => perm n (kval k)) x -> keys_in (fun k => perm n (kval k)) y ->
  exists z, ring_mul dt x y = Ok z /\ wf cls_ring z /\ torsion z = torsion x /\ keys_in (fun k => perm n (kval k)) z /\
    forall p, (torsion x | dget (data z) (SGE p) -
      zsum (map (fun '((a, va), (b, vb)) => match sg_mul (kval a) (kval b) with
                                             | Ok q => if tup_eqb q p then va * vb else 0
                                             | Err _ => 0 end) (list_prod (data x) (data y)))).
Proof.
  intros Hn Wx Wy Et Kx Ky. pose proof (proj1 Wx) as Ht. assert (Hn0 : 0 <= n) by lia.
  destruct (linop_bilR _ _ _ ok_ring _ _ _ _ _ _ _ _ _ Ht (kpred_pk n) (bilop_mul dt n _ Hn0 Ht) (rep2_local2 _ _ _ _ (rep_mul n Hn0)) (rep2_zero _ _ _ _ (rep_mul n Hn0)) y Wy Et
    (ring_attr y) Ky x Wx eq_refl (ring_attr x) Kx) as (z & E & Hz & Kz).
  exists z. split; [exact E|]. split; [exact (den_wf _ _ _ _ _ Ht Hz)|]. split; [exact (proj1 Hz)|]. split; [exact Kz|].
  intros p. destruct Hz as (_ & _ & Hz3 & Hz4). specialize (Hz4 (ind (SGE p)) ltac:(apply ring_adm, resp_ind)).
  rewrite dget_ind in Hz4 by apply Hz3.
  match goal with |- (_ | _ - ?S) => replace S with (ev (DBR Pmul y (ind (SGE p))) (data x)); [exact Hz4|] end.
  match goal with |- _ = zsum (map ?f _) => change (ev (DBR Pmul y (ind (SGE p))) (data x) = sumf f (list_prod (data x) (data y))) end.
  rewrite sumf_list_prod. apply sumf_ext. intros [a va] Ha. cbn [fst snd]. unfold DBR, ev. rewrite <- sumf_scal.
  apply sumf_ext. intros [b vb] Hb. cbn [fst snd]. rewrite (sg_mul_ok n) by (exact (Kx _ _ Ha) || exact (Ky _ _ Hb) || lia).
  unfold Pmul, ind. cbn [keqb PyKey_skey kval SGE]. destruct (tup_eqb _ p); ring.
Qed.
(** #C15_associative# *)
Lemma C15_associative_l (dt n : Z) (x y z : ring) :
  1 <= n -> wf cls_ring x -> wf cls_ring y -> wf cls_ring z -> torsion y = torsion x -> torsion z = torsion x ->
  keys_in (fun k => perm n (kval k)) x -> keys_in (fun k => perm n (kval k)) y -> keys_in (fun k => perm n (kval k)) z ->
  same (let! xy := ring_mul dt x y in ring_mul dt xy z) (let! yz := ring_mul dt y z in ring_mul dt x yz).
Proof.
  intros Hn Wx Wy Wz Ty Tz Kx Ky Kz. pose proof (proj1 Wx) as Ht. assert (Hn0 : 0 <= n) by lia.
  refine (bilop_assoc cls_ring cls_ring cls_ring cls_ring cls_ring cls_ring ok_ring ok_ring ok_ring (torsion x) tt tt tt tt tt tt
    (pk n) (pk n) (pk n) (pk n) (pk n) (pk n) Pmul Pmul Pmul Pmul _ _ _ _ x y z Ht (kpred_pk n) (kpred_pk n)
    (bilop_mul dt n _ Hn0 Ht) (rep_mul n Hn0) (bilop_mul dt n _ Hn0 Ht) (adm_mul n Hn0) (bilop_mul dt n _ Hn0 Ht) (rep_mul n Hn0) (bilop_mul dt n _ Hn0 Ht) (adm_mul n Hn0)
    _ Wx eq_refl _ Kx Wy Ty _ Ky Wz Tz _ Kz); try (match goal with |- attr ?u = _ => now destruct (attr u) end).
  intros g k1 k2 k3 _ H1 H2 H3 _ _ _. unfold Pmul. cbn [kval SGE]. now rewrite (pmul_assoc n).
Qed.
(** #C15_distributive# *)
Lemma C15_distributive_l (dt n : Z) (x y z : ring) :
  1 <= n -> wf cls_ring x -> wf cls_ring y -> wf cls_ring z -> torsion y = torsion x -> torsion z = torsion x -> dt_ok dt (torsion x) ->
  keys_in (fun k => perm n (kval k)) x -> keys_in (fun k => perm n (kval k)) y -> keys_in (fun k => perm n (kval k)) z ->
  same (let! s := add dt cls_ring x y in ring_mul dt s z)
       (let! p := ring_mul dt x z in let! q := ring_mul dt y z in add dt cls_ring p q) /\
  same (let! s := add dt cls_ring y z in ring_mul dt x s)
       (let! p := ring_mul dt x y in let! q := ring_mul dt x z in add dt cls_ring p q).
Proof.
  intros Hn Wx Wy Wz Ty Tz Hdt Kx Ky Kz. pose proof (proj1 Wx) as Ht. assert (Hn0 : 0 <= n) by lia. split.
  - apply (bilop_add_l cls_ring cls_ring cls_ring ok_ring ok_ring ok_ring dt (torsion x) tt tt tt (pk n) (pk n) (pk n) Pmul (ring_mul dt) x y z); auto using kpred_pk, bilop_mul, rep2_local2, rep_mul, adm_mul.
    all: first [apply ring_attr | apply (rep2_zero _ _ _ _ (rep_mul n Hn0))].
  - apply (bilop_add_r cls_ring cls_ring cls_ring ok_ring ok_ring ok_ring dt (torsion x) tt tt tt (pk n) (pk n) (pk n) Pmul (ring_mul dt) x y z); auto using kpred_pk, bilop_mul, rep2_local2, rep_mul, adm_mul.
    all: first [apply ring_attr | apply (rep2_zero _ _ _ _ (rep_mul n Hn0))].
Qed.
(** #C15_unit# *)
Lemma C15_unit_l (dt n : Z) (x : ring) :
  1 <= n -> wf cls_ring x -> dt_ok dt (torsion x) -> keys_in (fun k => perm n (kval k)) x ->
  same (let! e := identity_element dt n (Some (torsion x)) in ring_mul dt e x) (Ok x) /\
  same (let! e := identity_element dt n (Some (torsion x)) in ring_mul dt x e) (Ok x).
Proof.
  intros Hn Wx Hdt Kx. pose proof (proj1 Wx) as Ht. assert (Hn0 : 0 <= n) by lia.
  pose proof (den_self cls_ring x Wx) as Dx. destruct (attr x) eqn:Ax.
  assert (De : returns (identity_element dt n (Some (torsion x))) (fun e => den cls_ring (torsion x) tt (fun g => g (SGE (zrange 1 (n + 1)))) e /\ keys_in (pk n) e)).
  { unfold identity_element. eapply returns_mono; [apply (ring_new_den dt (torsion x)); auto; split; [intros ? []|exact I]|].
    intros e De. split.
    - eapply den_ext; [|exact De]. intros g _. cbn beta. rewrite ev_cons, ev_nil. apply eqm_eq. ring.
    - refine (den_keys_ring n _ _ _ _ Ht De (fun g => eq_refl) _). intros k v [[= <- <-]|[]]. apply perm_id. }
  split; eapply (same_den cls_ring ok_ring (torsion x) tt); try exact Ht; try (apply returns_ok; exact Dx).
  - eapply returns_bind; [exact De|]. intros e [Dee Ke].
    eapply returns_mono.
    + apply (linop_bilL _ _ _ ok_ring _ _ _ _ _ _ _ _ _ Ht (kpred_pk n) (bilop_mul dt n _ Hn0 Ht) (rep2_local2 _ _ _ _ (rep_mul n Hn0)) (rep2_zero _ _ _ _ (rep_mul n Hn0)) e).
      * dwf.
      * now destruct Dee.
      * now destruct (attr e).
      * exact Ke.
      * exact Wx.
      * reflexivity.
      * exact Ax.
      * exact Kx.
    + intros z [Hz _]. eapply den_ext; [|exact Hz]. intros g Hg. cbn beta. unfold DBL.
      instantiate (1 := fun g => ev g (data x)). cbn beta. apply ev_eqm. intros k v Hin.
      rewrite (den_ev _ _ _ _ _ (fun k1 => Pmul g k1 k) Dee).
      * unfold Pmul. cbn [kval SGE]. rewrite pmul_id_l by exact (Kx _ _ Hin). apply eqm_eq. apply (ring_resp g (SGE (kval k)) k); [exact (proj1 Hg)|reflexivity].
      * apply ring_adm. intros k1 k1' E. cbn in E. apply tup_eqb_eq in E. unfold Pmul. now rewrite E.
  - intros g Hg. reflexivity.
  - eapply returns_bind; [exact De|]. intros e [Dee Ke].
    eapply returns_mono.
    + apply (linop_bilR _ _ _ ok_ring _ _ _ _ _ _ _ _ _ Ht (kpred_pk n) (bilop_mul dt n _ Hn0 Ht) (rep2_local2 _ _ _ _ (rep_mul n Hn0)) (rep2_zero _ _ _ _ (rep_mul n Hn0)) e).
      * dwf.
      * now destruct Dee.
      * now destruct (attr e).
      * exact Ke.
      * exact Wx.
      * reflexivity.
      * exact Ax.
      * exact Kx.
    + intros z [Hz _]. eapply den_ext; [|exact Hz]. intros g Hg. cbn beta. unfold DBR.
      instantiate (1 := fun g => ev g (data x)). cbn beta. apply ev_eqm. intros k v Hin.
      rewrite (den_ev _ _ _ _ _ (fun k1 => Pmul g k k1) Dee).
      * unfold Pmul. cbn [kval SGE]. rewrite pmul_id_r by (auto; exact (Kx _ _ Hin)). apply eqm_eq. apply ring_resp; [exact (proj1 Hg)|reflexivity].
      * apply ring_adm. intros k1 k1' E. cbn in E. apply tup_eqb_eq in E. unfold Pmul. now rewrite E.
  - intros g Hg. reflexivity.
Qed.
(** #C15_torsion_mismatch# *)
Lemma C15_torsion_mismatch_l (dt : Z) (x y : ring) : torsion x <> torsion y -> ring_mul dt x y = Err TypeError.
Proof. intros N. unfold ring_mul. now destruct (Z.eqb_spec (torsion x) (torsion y)). Qed.
(** #C15_example# *)
Example C15_example_l :
  let x := mkElt [(SGE [2; 1; 3], 1); (SGE [2; 3; 1], -2)] 0 tt in
  wf cls_ring x /\ keys_in (fun k => perm 3 (kval k)) x /\
  ring_mul 0 x x = Ok (mkElt [(Tup [1; 2; 3], 1); (Tup [1; 3; 2], -2); (Tup [3; 2; 1], -2); (Tup [3; 1; 2], 4)] 0 tt).
Proof.
  cbn zeta. split; [|split].
  - apply wfb_wf. reflexivity.
  - intros k v [[= <- <-]|[[= <- <-]|[]]]; cbn [kval SGE]; apply perm_of_incl; try lia; try reflexivity;
    intros i Hi; (assert (i = 1 \/ i = 2 \/ i = 3) as [-> | [-> | ->]] by lia); cbn; tauto.
  - reflexivity.
Qed.

(** #C16_rotation# For torsion not 1: rotation_element(n) is the permutation
    i -> i+1 (mod n); its k-th power is i -> i+k (mod n), so its order is [n]. *)
Lemma C16_rotation_l (dt n t : Z) : 1 <= n -> 0 <= t -> t <> 1 -> dt_ok dt t ->
  exists x, rotation_element dt n (Some t) = Ok x /\
    forall k, 0 <= k ->
      (exists p, perm n p /\ (forall i, 1 <= i <= n -> image p i = (i - 1 + k) mod n + 1) /\
                 same (ring_pow dt x k) (Ok (mkElt [(SGE p, 1)] t tt))) /\
      (same (ring_pow dt x k) (identity_element dt n (Some t)) <-> k mod n = 0).
Proof.
  intros Hn Ht N Hdt. exists (mkElt [(SGE (rot n 1), 1)] t tt). split.
  { unfold rotation_element. rewrite rot_1 by lia. now apply new_basis. }
  intros k Hk.
  pose proof (ring_pow_basis dt t n (rot n 1) k Hn Ht N Hdt (perm_rot n 1 Hn) Hk) as R.
  rewrite ppow_rot, Z2Nat.id in R by lia.
  assert (B : forall q, returns (Ok (mkElt [(SGE q, 1)] t tt : ring)) (den cls_ring t tt (fun g => g (SGE q)))).
  { intros q. apply returns_ok. eapply den_ext; [|exact (den_self cls_ring _ (wf_basis t q Ht N))]. intros g _. cbn beta. cbn [data].
    rewrite ev_cons, ev_nil. apply eqm_eq. ring. }
  assert (S : same (ring_pow dt (mkElt [(SGE (rot n 1), 1)] t tt) k) (Ok (mkElt [(SGE (rot n k), 1)] t tt))).
  { eapply (same_den cls_ring ok_ring t tt); [exact Ht|exact R|apply B|reflexivity]. }
  split.
  - exists (rot n k). split; [now apply perm_rot|]. split; [|exact S]. intros i Hi. now apply image_rot.
  - unfold identity_element. rewrite (new_basis dt (Some t) t) by auto. split.
    + intros E. assert (E2 := same_trans _ _ _ (same_sym _ _ S) E). destruct E2 as (u & w & [= <-] & [= <-] & E2 & _).
      unfold elt_eqb in E2. cbn [data] in E2. rewrite dict_eqb_dget in E2.
      specialize (E2 (SGE (rot n k))). cbn [dget keqb PyKey_skey kval SGE] in E2.
      rewrite (proj2 (tup_eqb_eq (rot n k) (rot n k)) eq_refl) in E2.
      destruct (tup_eqb (zrange 1 (n + 1)) (rot n k)) eqn:E3; [|discriminate]. apply tup_eqb_eq in E3.
      apply (f_equal (fun p => image p 1)) in E3. rewrite image_zrange, image_rot in E3 by lia. replace (1 - 1 + k) with k in E3 by lia. lia.
    + intros Hmod.
      assert (Er : rot n k = zrange 1 (n + 1)).
      { rewrite <- rot_0. unfold rot. apply map_ext_in. intros i _. f_equal. rewrite Z.add_mod by lia. rewrite Hmod.
        rewrite Z.add_0_r, Z.mod_mod, Z.add_0_r by lia. reflexivity. }
      rewrite <- Er. exact S.
Qed.
(** #C16_transposition# For arity at least 2. *)
Lemma C16_transposition_l (dt n t : Z) : 2 <= n -> 0 <= t -> dt_ok dt t ->
  same (transposition_element dt n (Some t))
       (let! r := rotation_element dt n (Some t) in let! e := identity_element dt n (Some t) in sub dt cls_ring r e).
Proof.
  intros Hn Ht Hdt. eapply (same_den cls_ring ok_ring t tt); [exact Ht|apply (transposition_den dt n t); auto| |].
  - unfold rotation_element, identity_element.
    eapply returns_bind; [apply (ring_new_den dt t); auto; split; [intros ? []|exact I]|]. intros r Hr.
    eapply returns_bind; [apply (ring_new_den dt t); auto; split; [intros ? []|exact I]|]. intros e He.
    eapply (sub_den cls_ring ok_ring dt t); eauto.
  - intros g _. cbn beta. rewrite !ev_cons, !ev_nil, rot_1, rot_0 by lia. apply eqm_eq. ring.
Qed.
(** #C16_transposition_refuted# In arity 1 transposition_element is minus the
    identity, not rho - id = 0, and T * N is not zero. *)
Lemma C16_transposition_refuted_l :
  ~ same (transposition_element 0 1 (Some 0))
       (let! r := rotation_element 0 1 (Some 0) in let! e := identity_element 0 1 (Some 0) in sub 0 cls_ring r e) /\
  ~ same (let! T := transposition_element 0 1 (Some 0) in let! N := norm_element 0 1 (Some 0) in ring_mul 0 T N)
         (let! N := norm_element 0 1 (Some 0) in zero 0 cls_ring N).
Proof.
  split; intros (a & b & Ea & Eb & E & _); vm_compute in Ea, Eb; injection Ea as <-; injection Eb as <-; discriminate E.
Qed.
(** #C16_norm# norm_element(n) is the sum of the [n] powers of the rotation
    (pairwise different permutations). *)
Lemma C16_norm_l (dt n t : Z) : 1 <= n -> 0 <= t -> t <> 1 -> dt_ok dt t ->
  same (norm_element dt n (Some t))
       (ring_new dt (map (fun k => (map (fun i => (i - 1 + k) mod n + 1) (zrange 1 (n + 1)), 1)) (zrange 0 n)) (Some t)).
Proof.
  intros Hn Ht N Hdt. eapply (same_den cls_ring ok_ring t tt); [exact Ht|apply (norm_den dt n t); auto| |].
  - unfold ring_new. rewrite map_map. cbn [fst snd].
    assert (ND : kdistinct (dkeys (map (fun k => (SGE (rot n k), 1)) (zrange 0 n)))).
    { unfold dkeys. rewrite map_map. cbn [fst]. assert (Hin : forall x, In x (zrange 0 n) -> 0 <= x < n) by (intros x Hx; now apply in_zrange in Hx).
      pose proof (NoDup_zrange 0 n) as NDz. induction (zrange 0 n) as [|k l IH]; cbn [map kdistinct]; [exact I|].
      inversion NDz as [|? ? Hnl NDl]; subst. split.
      - intros k' Hk'. apply in_map_iff in Hk'. destruct Hk' as (j & <- & Hj). destruct (keqb _ _) eqn:E; [|reflexivity].
        cbn in E. apply tup_eqb_eq in E. apply rot_inj in E; [subst; contradiction|lia| |]; apply Hin; [now left|now right].
      - apply IH; auto. intros; apply Hin; now right. }
    unfold rot in ND. rewrite dict_of_id by exact ND. apply (ring_new_den dt t); auto.
  - intros g _. cbn beta. unfold ev. rewrite sumf_map. apply eqm_eq. apply sumf_ext. intros k _. cbn [fst snd]. unfold rot. ring.
Qed.
(** #C16_products_vanish# T * N == N * T == 0 for arity at least 2 and torsion not 1. *)
Lemma C16_products_vanish_l (dt n t : Z) : 2 <= n -> 0 <= t -> t <> 1 -> dt_ok dt t ->
  same (let! T := transposition_element dt n (Some t) in let! N := norm_element dt n (Some t) in ring_mul dt T N)
       (let! N := norm_element dt n (Some t) in zero dt cls_ring N) /\
  same (let! T := transposition_element dt n (Some t) in let! N := norm_element dt n (Some t) in ring_mul dt N T)
       (let! N := norm_element dt n (Some t) in zero dt cls_ring N).
Proof.
  intros Hn Ht Nt Hdt.
  assert (HT := transposition_den dt n t (Some t) eq_refl Hn Ht).
  assert (HN := norm_den dt n t (Some t) eq_refl ltac:(lia) Ht Nt Hdt).
  assert (Tel : forall h : list Z -> Z, sumf (fun k => h (rot n (k + 1)) - h (rot n k)) (zrange 0 n) = 0).
  { intros h. assert (G : forall m, (Z.of_nat m <= n) -> sumf (fun k => h (rot n (k + 1)) - h (rot n k)) (zrange 0 (Z.of_nat m)) = h (rot n (Z.of_nat m)) - h (rot n 0)).
    { induction m as [|m IH]; intros Hm; [rewrite zrange_nil by lia; rewrite sumf_nil; cbn; ring|].
      rewrite Nat2Z.inj_succ, <- Z.add_1_r. rewrite sumf_zrange_snoc, IH by lia. ring. }
    specialize (G (Z.to_nat n) ltac:(lia)). rewrite Z2Nat.id in G by lia. rewrite G.
    replace (rot n n) with (rot n 0); [ring|]. rewrite <- (rot_period n 0) by lia. reflexivity. }
  assert (KT : forall T, den cls_ring t tt (fun g => g (SGE (rot n 1)) - g (SGE (rot n 0))) T -> keys_in (pk n) T).
  { intros T DT. apply (den_supp_ring n t _ T [rot n 1; rot n 0] Ht DT).
    - intros g E. rewrite !E; [ring|right; now left|now left].
    - intros p [<-|[<-|[]]]; apply perm_rot; lia. }
  assert (KN : forall N, den cls_ring t tt (fun g => sumf (fun k => g (SGE (rot n k))) (zrange 0 n)) N -> keys_in (pk n) N).
  { intros N DN. apply (den_supp_ring n t _ N (map (rot n) (zrange 0 n)) Ht DN).
    - intros g E. apply sumf_0. intros k Hk. apply E. now apply in_map.
    - intros p Hp. apply in_map_iff in Hp. destruct Hp as (k & <- & _). apply perm_rot. lia. }
  assert (R : forall (g : skey -> Z) q, adm cls_ring g -> forall k, kval k = q -> g k = g (SGE q)).
  { intros g q Hg k E. apply ring_resp; [exact (proj1 Hg)|exact E]. }
  split; eapply (same_den cls_ring ok_ring t tt); try exact Ht.
  - eapply returns_bind; [exact HT|]. intros T DT. eapply returns_bind; [exact HN|]. intros N DN.
    eapply returns_mono.
    + apply (ring_mul_den dt n t T N); auto; try lia; try (dwf); try (now destruct DT); try (now destruct DN).
    + intros z Hz. eapply den_ext; [|exact Hz]. intros g Hg. cbn beta. instantiate (1 := fun _ => 0). cbn beta.
      rewrite (den_ev _ _ _ _ _ _ DT).
      2:{ apply ring_adm. intros k k' E. cbn in E. apply tup_eqb_eq in E. apply ev_ext. intros k2 v _. now rewrite E. }
      rewrite !(den_ev _ _ _ _ _ _ DN); try (apply ring_adm; intros k k' E; cbn in E; apply tup_eqb_eq in E; now rewrite E).
      cbn [kval SGE]. apply eqm_eq. rewrite <- sumf_sub. etransitivity; [|exact (Tel (fun p => g (SGE p)))]. apply sumf_ext. intros k _.
      rewrite !rot_add by lia. now rewrite (Z.add_comm 1 k), Z.add_0_l.
  - eapply returns_bind; [exact HN|]. intros N DN. eapply (zero_den' cls_ring ok_ring dt t); eauto.
  - intros g _. reflexivity.
  - eapply returns_bind; [exact HT|]. intros T DT. eapply returns_bind; [exact HN|]. intros N DN.
    eapply returns_mono.
    + apply (ring_mul_den dt n t N T); auto; try lia; try (dwf); try (now destruct DT); try (now destruct DN).
    + intros z Hz. eapply den_ext; [|exact Hz]. intros g Hg. cbn beta. instantiate (1 := fun _ => 0). cbn beta. rewrite ev_exch.
      rewrite (den_ev _ _ _ _ _ _ DT).
      2:{ apply ring_adm. intros k k' E. cbn in E. apply tup_eqb_eq in E. apply ev_ext. intros k2 v _. now rewrite E. }
      rewrite !(den_ev _ _ _ _ _ _ DN); try (apply ring_adm; intros k k' E; cbn in E; apply tup_eqb_eq in E; now rewrite E).
      cbn [kval SGE]. apply eqm_eq. rewrite <- sumf_sub. etransitivity; [|exact (Tel (fun p => g (SGE p)))]. apply sumf_ext. intros k _.
      rewrite !rot_add by lia. now rewrite Z.add_0_r.
  - eapply returns_bind; [exact HN|]. intros N DN. eapply (zero_den' cls_ring ok_ring dt t); eauto.
  - intros g _. reflexivity.
Qed.
(** #C16_example# *)
Example C16_example_l : norm_element 0 3 (Some 0) = Ok (mkElt [(SGE [1; 2; 3], 1); (SGE [2; 3; 1], 1); (SGE [3; 1; 2], 1)] 0 tt) /\
  transposition_element 0 3 (Some 3) = Ok (mkElt [(SGE [2; 3; 1], 1); (SGE [1; 2; 3], 2)] 3 tt).
Proof. split; reflexivity. Qed.

(** #C17_single_element# The power of a ring element with a single basis
    element and coefficient 1 is the iterated product. *)
Lemma C17_single_element_l (dt n t m : Z) (p : list Z) :
  1 <= n -> 0 <= t -> t <> 1 -> dt_ok dt t -> perm n p -> 0 <= m ->
  let x := mkElt [(SGE p, 1)] t tt in
  same (ring_pow dt x 0) (identity_element dt n (Some t)) /\
  same (ring_pow dt x (m + 1)) (let! y := ring_pow dt x m in ring_mul dt y x).
Proof.
  intros Hn Ht N Hdt Hp Hm x. split.
  - eapply (same_den cls_ring ok_ring t tt); [exact Ht|apply (ring_pow_basis dt t n p 0); auto; lia| |].
    + unfold identity_element. apply (ring_new_den dt t); auto. split; [intros ? []|exact I].
    + intros g _. cbn beta. rewrite ev_cons, ev_nil. apply eqm_eq. cbn [ppow Z.to_nat]. lia.
  - eapply (same_den cls_ring ok_ring t tt); [exact Ht|apply (ring_pow_basis dt t n p (m + 1)); auto; lia| |].
    + eapply returns_bind; [apply (ring_pow_basis dt t n p m); auto|]. intros y Dy.
      assert (Kx : keys_in (pk n) x) by (intros k v [[= <- <-]|[]]; exact Hp).
      assert (Ky : keys_in (pk n) y).
      { apply (den_supp_ring n t _ y [ppow n p (Z.to_nat m)] Ht Dy); [intros g E; apply E; now left|].
        intros q [<-|[]]. apply perm_ppow; auto; lia. }
      eapply returns_mono.
      * apply (ring_mul_den dt n t y x); auto; [lia|dwf|now apply wf_basis|now destruct Dy].
      * intros z Hz. eapply den_ext; [|exact Hz]. intros g Hg. cbn beta. rewrite (den_ev _ _ _ _ _ _ Dy).
        -- subst x. cbn [data]. rewrite ev_cons, ev_nil. cbn [kval SGE]. instantiate (1 := fun g => g (SGE (pmul (ppow n p (Z.to_nat m)) p))).
           apply eqm_eq. ring.
        -- apply ring_adm. intros k k' E. cbn in E. apply tup_eqb_eq in E. apply ev_ext. intros k2 v _. now rewrite E.
    + intros g _. cbn beta. replace (Z.to_nat (m + 1)) with (S (Z.to_nat m)) by lia. reflexivity.
Qed.
(** #C17_refuted# The power raises every basis element to the power instead
    of multiplying: (p + 2 e) ** 2 = 3 e although (p + 2 e)*(p + 2 e) = 5 e + 4 p. *)
Lemma C17_refuted_l : exists x : ring, wf cls_ring x /\ keys_in (fun k => perm 4 (kval k)) x /\
  ~ same (ring_pow 0 x 2) (ring_mul 0 x x) /\
  ring_pow 0 x 2 = Ok (mkElt [(SGE [1; 2; 3; 4], 3)] 0 tt) /\
  ring_mul 0 x x = Ok (mkElt [(Tup [1; 2; 3; 4], 5); (Tup [4; 3; 2; 1], 4)] 0 tt).
Proof.
  exists (mkElt [(SGE [4; 3; 2; 1], 1); (SGE [1; 2; 3; 4], 2)] 0 tt). split; [now apply wfb_wf|]. split; [|split].
  - intros k v [[= <- <-]|[[= <- <-]|[]]]; cbn [kval SGE]; apply perm_of_incl; try lia; try reflexivity;
    intros i Hi; (assert (i = 1 \/ i = 2 \/ i = 3 \/ i = 4) as [-> | [-> | [-> | ->]]] by lia); cbn; tauto.
  - intros (a & b & Ea & Eb & E & _); vm_compute in Ea, Eb; injection Ea as <-; injection Eb as <-; discriminate E.
  - split; reflexivity.
Qed.

(** #C18_refuted# A product of ring elements is not first class: composing
    it raises AttributeError, its square (as a power) raises TypeError;
    multiplying a ring element by a group element, in any order, raises
    TypeError. *)
Lemma C18_refuted_l : exists (x p : ring) (g : list Z), wf cls_ring x /\ keys_in (fun k => perm 2 (kval k)) x /\ perm 2 g /\
  ring_mul 0 x x = Ok p /\ wf cls_ring p /\ p <> mkElt [] 0 tt /\
  ring_compose 0 p x 1 = Err AttributeError /\ ring_pow 0 p 2 = Err TypeError /\
  ring_mul_group x g = Err TypeError /\ group_mul_ring 0 g x = Err TypeError /\
  (exists q, ring_compose 0 x x 1 = Ok q) /\ (exists q, ring_pow 0 x 2 = Ok q).
Proof.
  exists (mkElt [(SGE [2; 1], 1)] 0 tt), (mkElt [(Tup [1; 2], 1)] 0 tt), [2; 1].
  split; [now apply wfb_wf|]. split; [|split].
  - intros k v [[= <- <-]|[]]. cbn. apply perm_of_incl; try lia; try reflexivity. intros i Hi.
    assert (i = 1 \/ i = 2) as [-> | ->] by lia; cbn; tauto.
  - apply perm_of_incl; try lia; try reflexivity. intros i Hi.
    assert (i = 1 \/ i = 2) as [-> | ->] by lia; cbn; tauto.
  - split; [reflexivity|]. split; [now apply wfb_wf|]. split; [discriminate|]. do 4 (split; [reflexivity|]).
    split; eexists; reflexivity.
Qed.
(** #C18_products_as_arguments# What does hold: products can be added,
    scaled, compared, and multiplied again with ring elements (C15), and
    re-creating a product restores its keys, after which it can be composed. *)
Lemma C18_products_as_arguments_l (dt r s i : Z) (x y z : ring) (p : ring) :
  1 <= r -> 1 <= s -> 1 <= i <= r -> wf cls_ring x -> wf cls_ring y -> wf cls_ring z -> torsion y = torsion x -> torsion z = torsion x -> dt_ok dt (torsion x) ->
  keys_in (fun k => perm r (kval k)) x -> keys_in (fun k => perm r (kval k)) y -> keys_in (fun k => perm s (kval k)) z ->
  ring_mul dt x y = Ok p ->
  exists q, create dt cls_ring p (data p) = Ok q /\ elt_eqb q p = true /\ (exists c, ring_compose dt q z i = Ok c).
Proof.
  intros Hr Hs Hi Wx Wy Wz Ty Tz Hdt Kx Ky Kz E. pose proof (proj1 Wx) as Ht.
  destruct (bilop_keys _ _ _ ok_ring _ _ _ _ _ _ _ _ _ Ht (kpred_pk r) (bilop_mul dt r _ ltac:(lia) Ht) (rep2_local2 _ _ _ _ (rep_mul r ltac:(lia)))
    (rep2_zero _ _ _ _ (rep_mul r ltac:(lia))) x y p Wx eq_refl (ring_attr x) Kx Wy Ty (ring_attr y) Ky E) as (Wp & Tp & Ap & Kp).
  destruct (create_den cls_ring ok_ring dt (torsion x) p (data p) Ht Hdt Tp (proj1 (proj2 Wp)) ltac:(intros; apply ring_okey)) as (q & Eq & Dq).
  exists q. split; [exact Eq|]. pose proof (den_self cls_ring p Wp) as Dp. rewrite Tp in Dp. split.
  - eapply (den_eqb cls_ring ok_ring (torsion x)); eauto. reflexivity.
  - rewrite ring_compose_rc by (eapply create_keys; [exact Eq|]; reflexivity).
    rewrite Ap in Dq.
    destruct (bilop_comp dt r s (torsion x) i Ht Hdt Hi q z) as (c & Ec & _); auto.
    + dwf.
    + now destruct Dq.
    + now destruct (attr q).
    + eapply (den_keys cls_ring ok_ring (torsion x) tt _ q (pk r) Ht (kpred_pk r) Dq). intros g Hg H0. apply eqm_eq. apply ev_zero.
      intros k v Hin. apply H0. eapply Kp; eauto.
    + now destruct (attr z).
    + eauto.
Qed.

(** Elements built by the constructor have basis elements of class
    SymmetricGroupElement; so have results of [compose]. *)
(** #C19_bilinear# *)
Lemma C19_bilinear_l (dt r s i : Z) (x x' y y' : ring) :
  1 <= r -> 1 <= s -> 1 <= i <= r -> wf cls_ring x -> wf cls_ring x' -> wf cls_ring y -> wf cls_ring y' ->
  torsion x' = torsion x -> torsion y = torsion x -> torsion y' = torsion x -> dt_ok dt (torsion x) ->
  keys_in (fun k => is_sge k = true /\ perm r (kval k)) x -> keys_in (fun k => is_sge k = true /\ perm r (kval k)) x' ->
  keys_in (fun k => perm s (kval k)) y -> keys_in (fun k => perm s (kval k)) y' ->
  same (let! s := add dt cls_ring x x' in ring_compose dt s y i)
       (let! p := ring_compose dt x y i in let! q := ring_compose dt x' y i in add dt cls_ring p q) /\
  same (let! s := add dt cls_ring y y' in ring_compose dt x s i)
       (let! p := ring_compose dt x y i in let! q := ring_compose dt x y' i in add dt cls_ring p q).
Proof.
  intros Hr Hs Hi Wx Wx' Wy Wy' Tx' Ty Ty' Hdt Kx Kx' Ky Ky'. pose proof (proj1 Wx) as Ht.
  assert (Sx : keys_in sge x) by (intros k v Hin; now apply Kx in Hin). assert (Sx' : keys_in sge x') by (intros k v Hin; now apply Kx' in Hin).
  assert (Px : keys_in (pk r) x) by (intros k v Hin; now apply Kx in Hin). assert (Px' : keys_in (pk r) x') by (intros k v Hin; now apply Kx' in Hin).
  assert (Bil := bilop_comp dt r s (torsion x) i Ht Hdt Hi). assert (Rep := rep_comp r s i ltac:(lia) Hi).
  assert (U : forall w : ring, attr w = tt) by (intros w; now destruct (attr w)). split.
  - destruct (add dt cls_ring x x') as [w|] eqn:Ew.
    2:{ pose proof (den_self cls_ring x Wx) as D1. pose proof (den_self cls_ring x' Wx') as D2. rewrite Tx' in D2.
        destruct (add_den cls_ring ok_ring dt (torsion x) Ht Hdt _ _ _ _ _ _ D1 D2) as (w & Ew' & _). congruence. }
    assert (Sw : keys_in sge w).
    { unfold add in Ew. destruct (negb _); [discriminate|]. destruct (create dt cls_ring x (data x)) as [ans|] eqn:Ec; cbn in Ew; [|discriminate].
      destruct (pref _ _ _) as [d|] eqn:Ed in Ew; cbn in Ew; [|discriminate]. injection Ew as <-. intros k v Hin. cbn in Hin.
      apply (pref_keys _ _ _ _ _ _ Ed) in Hin. revert Hin. apply dupdate_Forall.
      - intros k0 Hk0. unfold dkeys in Hk0. apply in_map_iff in Hk0. destruct Hk0 as ([k1 v1] & <- & Hin).
        revert Hin. eapply create_keys; [exact Ec|]. reflexivity.
      - intros k0 Hk0. unfold dkeys in Hk0. apply in_map_iff in Hk0. destruct Hk0 as ([k1 v1] & <- & Hin). eapply Sx'; eauto. }
    cbn [bind]. rewrite !ring_compose_rc by assumption.
    pose proof (bilop_add_l cls_ring cls_ring cls_ring ok_ring ok_ring ok_ring dt (torsion x) tt tt tt (pk r) (pk s) (pk (r + s - 1)) (Pcomp i) (fun x y => rc dt x y i) x x' y
      Ht Hdt (kpred_pk r) (kpred_pk _) Bil (rep2_local2 _ _ _ _ Rep) (adm_comp r s _ i) (rep2_zero _ _ _ _ Rep) Wx eq_refl (U x) Px Wx' Tx' (U x') Px' Wy Ty (U y) Ky) as Q.
    rewrite Ew in Q. exact Q.
  - rewrite !ring_compose_rc by assumption.
    replace (let! s0 := add dt cls_ring y y' in ring_compose dt x s0 i) with (let! s0 := add dt cls_ring y y' in rc dt x s0 i).
    2:{ destruct (add dt cls_ring y y'); cbn; [|reflexivity]. now rewrite ring_compose_rc. }
    apply (bilop_add_r cls_ring cls_ring cls_ring ok_ring ok_ring ok_ring dt (torsion x) tt tt tt (pk r) (pk s) (pk (r + s - 1)) (Pcomp i) (fun x y => rc dt x y i) x y y'
      Ht Hdt (kpred_pk s) (kpred_pk _) Bil (rep2_local2 _ _ _ _ Rep) (adm_comp r s _ i) (rep2_zero _ _ _ _ Rep) Wx eq_refl (U x) Px Wy Ty (U y) Ky Wy' Ty' (U y') Ky').
Qed.
Lemma compose_rc_bind dt x y i z j : keys_in sge x -> 
  (let! p := ring_compose dt x y i in ring_compose dt p z j) = (let! p := rc dt x y i in rc dt p z j).
Proof.
  intros Sx. rewrite ring_compose_rc by assumption. destruct (rc dt x y i) as [p|] eqn:E; cbn; [|reflexivity].
  apply ring_compose_rc. eapply rc_sge; eauto.
Qed.
(** #C19_sequential# *)
Lemma C19_sequential_l (dt r s u i j : Z) (x y z : ring) :
  1 <= r -> 1 <= s -> 1 <= u -> 1 <= i <= r -> 1 <= j <= s -> wf cls_ring x -> wf cls_ring y -> wf cls_ring z ->
  torsion y = torsion x -> torsion z = torsion x -> dt_ok dt (torsion x) ->
  keys_in (fun k => is_sge k = true /\ perm r (kval k)) x -> keys_in (fun k => is_sge k = true /\ perm s (kval k)) y ->
  keys_in (fun k => perm u (kval k)) z ->
  same (let! xy := ring_compose dt x y i in ring_compose dt xy z (i - 1 + j))
       (let! yz := ring_compose dt y z j in ring_compose dt x yz i).
Proof.
  intros Hr Hs Hu Hi Hj Wx Wy Wz Ty Tz Hdt Kx Ky Kz. pose proof (proj1 Wx) as Ht.
  assert (Sx : keys_in sge x) by (intros k v Hin; now apply Kx in Hin). assert (Sy : keys_in sge y) by (intros k v Hin; now apply Ky in Hin).
  assert (Px : keys_in (pk r) x) by (intros k v Hin; now apply Kx in Hin). assert (Py : keys_in (pk s) y) by (intros k v Hin; now apply Ky in Hin).
  assert (U : forall w : ring, attr w = tt) by (intros w; now destruct (attr w)).
  rewrite compose_rc_bind by assumption. rewrite ring_compose_rc by assumption.
  replace (let! yz := rc dt y z j in ring_compose dt x yz i) with (let! yz := rc dt y z j in rc dt x yz i).
  2:{ destruct (rc dt y z j); cbn; [|reflexivity]. now rewrite ring_compose_rc. }
  assert (Hij : 1 <= i - 1 + j <= r + s - 1) by lia.
  apply (bilop_assoc cls_ring cls_ring cls_ring cls_ring cls_ring cls_ring ok_ring ok_ring ok_ring (torsion x) tt tt tt tt tt tt
    (pk r) (pk s) (pk u) (pk (r + s - 1)) (pk (s + u - 1)) (pk (r + s + u - 2)) (Pcomp i) (Pcomp (i - 1 + j)) (Pcomp j) (Pcomp i)
    (fun x y => rc dt x y i) (fun x y => rc dt x y (i - 1 + j)) (fun x y => rc dt x y j) (fun x y => rc dt x y i) x y z Ht (kpred_pk _) (kpred_pk _)
    (bilop_comp dt r s _ i Ht Hdt Hi) (rep_comp r s i ltac:(lia) Hi) (bilop_comp dt _ u _ _ Ht Hdt Hij) (adm_comp _ _ _ _)
    (bilop_comp dt s u _ j Ht Hdt Hj) (rep_comp s u j ltac:(lia) Hj) (bilop_comp dt r _ _ i Ht Hdt Hi) (adm_comp _ _ _ _)); auto.
  intros g k1 k2 k3 Hg H1 H2 H3 _ _ _. unfold Pcomp. cbn [kval SGE]. now rewrite (gcomp_seq r s).
Qed.
(** #C19_parallel# *)
Lemma C19_parallel_l (dt r s u i k : Z) (x y z : ring) :
  1 <= r -> 1 <= s -> 1 <= u -> 1 <= i < k -> k <= r -> wf cls_ring x -> wf cls_ring y -> wf cls_ring z ->
  torsion y = torsion x -> torsion z = torsion x -> dt_ok dt (torsion x) ->
  keys_in (fun k => is_sge k = true /\ perm r (kval k)) x -> keys_in (fun k => perm s (kval k)) y ->
  keys_in (fun k => perm u (kval k)) z ->
  same (let! xy := ring_compose dt x y i in ring_compose dt xy z (k - 1 + s))
       (let! xz := ring_compose dt x z k in ring_compose dt xz y i).
Proof.
  intros Hr Hs Hu Hi Hk Wx Wy Wz Ty Tz Hdt Kx Ky Kz. pose proof (proj1 Wx) as Ht.
  assert (Sx : keys_in sge x) by (intros k0 v Hin; now apply Kx in Hin).
  assert (Px : keys_in (pk r) x) by (intros k0 v Hin; now apply Kx in Hin).
  assert (U : forall w : ring, attr w = tt) by (intros w; now destruct (attr w)).
  rewrite !compose_rc_bind by assumption.
  (* both sides through x with y and z fixed *)
  assert (L : forall r' s' i' (y' : ring), 0 <= s' -> 1 <= i' <= r' -> wf cls_ring y' -> torsion y' = torsion x -> keys_in (pk s') y' ->
     linop cls_ring cls_ring (torsion x) tt tt (pk r') (pk (r' + s' - 1)) (DBR (Pcomp i') y') (fun x => rc dt x y' i')).
  { intros r' s' i' y' Hs' Hi' Wy' Ty' Ky'.
    exact (linop_bilR cls_ring cls_ring cls_ring ok_ring (torsion x) tt tt tt (pk r') (pk s') (pk (r' + s' - 1)) (Pcomp i') (fun x y => rc dt x y i') Ht (kpred_pk _)
      (bilop_comp dt r' s' (torsion x) i' Ht Hdt Hi') (rep2_local2 _ _ _ _ (rep_comp r' s' i' Hs' Hi')) (rep2_zero _ _ _ _ (rep_comp r' s' i' Hs' Hi')) y' Wy' Ty' (U y') Ky'). }
  assert (Hk2 : 1 <= k - 1 + s <= r + s - 1) by lia. assert (Hi2 : 1 <= i <= r + u - 1) by lia.
  eapply (linop_same cls_ring cls_ring ok_ring (torsion x) tt tt (pk r) _ _ _ _
    (fun x => let! xy := rc dt x y i in rc dt xy z (k - 1 + s)) (fun x => let! xz := rc dt x z k in rc dt xz y i) x Ht); auto.
  - eapply (linop_comp cls_ring cls_ring cls_ring ok_ring ok_ring ok_ring (torsion x) tt tt tt (pk r) (pk (r + s - 1)) _ _ _ (fun x => rc dt x y i) (fun x => rc dt x z (k - 1 + s)) Ht (kpred_pk _)).
    + apply (L r s); auto; lia.
    + apply (L _ u); auto; lia.
    + apply rep_local, (rep2_R (pk r) (pk s)); [apply rep_comp; lia|exact Ky].
    + apply (DBR_admop cls_ring cls_ring cls_ring _ (pk u)); auto using adm_comp.
  - eapply (linop_comp cls_ring cls_ring cls_ring ok_ring ok_ring ok_ring (torsion x) tt tt tt (pk r) (pk (r + u - 1)) _ _ _ (fun x => rc dt x z k) (fun x => rc dt x y i) Ht (kpred_pk _)).
    + apply (L r u); auto; lia.
    + apply (L _ s); auto; lia.
    + apply rep_local, (rep2_R (pk r) (pk u)); [apply rep_comp; lia|exact Kz].
    + apply (DBR_admop cls_ring cls_ring cls_ring _ (pk s)); auto using adm_comp.
  - intros g k1 Hg H1 _. apply eqm_eq. cbn beta. unfold DBR. etransitivity; [apply (ev_exch (fun k2 k3 => Pcomp (k - 1 + s) g (SGE (gcomp (kval k1) (kval k2) i)) k3))|]. apply ev_ext. intros k3 v3 H3. apply ev_ext. intros k2 v2 H2.
    unfold Pcomp. cbn [kval SGE]. rewrite (gcomp_par r s u); auto; try lia; [exact (Ky _ _ H2)|exact (Kz _ _ H3)].
Qed.
(** #C19_unit# *)
Lemma C19_unit_l (dt r i : Z) (x : ring) :
  1 <= r -> 1 <= i <= r -> wf cls_ring x -> torsion x <> 1 -> dt_ok dt (torsion x) ->
  keys_in (fun k => is_sge k = true /\ perm r (kval k)) x ->
  same (let! e := identity_element dt 1 (Some (torsion x)) in ring_compose dt x e i) (Ok x) /\
  same (let! e := identity_element dt 1 (Some (torsion x)) in ring_compose dt e x 1) (Ok x).
Proof.
  intros Hr Hi Wx Nt Hdt Kx. pose proof (proj1 Wx) as Ht.
  assert (Sx : keys_in sge x) by (intros k0 v Hin; now apply Kx in Hin).
  assert (Px : keys_in (pk r) x) by (intros k0 v Hin; now apply Kx in Hin).
  assert (U : forall w : ring, attr w = tt) by (intros w; now destruct (attr w)).
  unfold identity_element. rewrite (new_basis dt (Some (torsion x)) (torsion x)) by auto. cbn [bind].
  change (zrange 1 (1 + 1)) with [1].
  assert (We := wf_basis (torsion x) [1] Ht Nt). assert (Ke : keys_in (pk 1) (mkElt [(SGE [1], 1)] (torsion x) tt : ring)) by (intros k v [[= <- <-]|[]]; exact (perm_id 1)).
  pose proof (den_self cls_ring x Wx) as Dx. rewrite (U x) in Dx.
  rewrite !ring_compose_rc; [|intros k v [[= <- <-]|[]]; reflexivity|assumption].
  split; eapply (same_den cls_ring ok_ring (torsion x) tt); try exact Ht; try (apply returns_ok; exact Dx).
  - apply (bilop_comp dt r 1 (torsion x) i Ht Hdt Hi); auto.
  - intros g Hg. cbn beta. cbn [data]. apply eqm_eq. apply ev_ext. intros k v _. rewrite ev_cons, ev_nil. unfold Pcomp. cbn [kval SGE].
    rewrite gcomp_unit_r. rewrite (ring_resp g k (SGE (kval k))) by (reflexivity || exact (proj1 Hg)). ring.
  - apply (bilop_comp dt 1 r (torsion x) 1 Ht Hdt ltac:(lia)); auto.
  - intros g Hg. cbn beta. cbn [data]. rewrite ev_cons, ev_nil, Z.mul_1_l, Z.add_0_r. apply eqm_eq. apply ev_ext. intros k v _. unfold Pcomp. cbn [kval SGE].
    rewrite gcomp_unit_l. now rewrite (ring_resp g k (SGE (kval k))) by (reflexivity || exact (proj1 Hg)).
Qed.
(** #C19_keys# The constructor and [compose] only produce basis elements of
    class SymmetricGroupElement, as the previous theorems require. *)
Lemma C19_keys_l (dt : Z) : 
  (forall d ot x, ring_new dt d ot = Ok x -> keys_in (fun k => is_sge k = true) x) /\
  (forall x y i z, keys_in (fun k => is_sge k = true) x -> ring_compose dt x y i = Ok z -> keys_in (fun k => is_sge k = true) z).
Proof.
  split.
  - intros d ot x. apply new_sge.
  - intros x y i z Sx E. rewrite ring_compose_rc in E by exact Sx. eapply rc_sge; eauto.
Qed.
(** #C19_example# *)
Example C19_example_l :
  let x := mkElt [(SGE [2; 3; 1], 1); (SGE [1; 2; 3], -1)] 0 tt in
  let y := mkElt [(SGE [2; 1], 1); (SGE [1; 2], 1)] 0 tt in
  wf cls_ring x /\ wf cls_ring y /\
  ring_compose 0 x y 2 = Ok (mkElt [(SGE [3; 2; 4; 1], 1); (SGE [2; 3; 4; 1], 1); (SGE [1; 3; 2; 4], -1); (SGE [1; 2; 3; 4], -1)] 0 tt).
Proof. cbn zeta. split; [now apply wfb_wf|]. split; [now apply wfb_wf|]. reflexivity. Qed.
