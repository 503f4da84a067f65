(** * Tensor classes: boundary, action, for Simplicial.v and Cubical.v.  Proof library. *)
From Coq Require Import Setoid Morphisms.
From Verif Require Import PyBase Dict FreeModule Symmetric Simplicial Eqm Spec FreeModuleFacts FreeModuleLaws ListFacts ClassFacts LinearFacts SymmetricFacts
  CycleFacts SymmetricLaws RingFacts Tensor.

Lemma cuts_splits {B} (l : list B) : cuts l = splits l.
Proof.
  induction l as [|a l IH]; [reflexivity|]. cbn [cuts]. rewrite splits_cons, IH. f_equal. apply map_ext. now intros [[? ?] ?].
Qed.
Lemma coef_ev {K} `{PyKey K} (l : dict K) k : coef l k = ev (ind k) l.
Proof. unfold coef, ev, ind, sumf. f_equal. apply map_ext. intros p. destruct (keqb _ k); ring. Qed.
Lemma ev_extend {K K' A} (f : K -> list (K' * Z)) (x : elt K A) g : ev g (extend f x) = ev (fun k => ev g (f k)) (data x).
Proof.
  unfold extend, ev. rewrite sumf_flat_map. apply sumf_ext. intros [k v] _. cbn [fst snd]. rewrite sumf_map, <- sumf_scal.
  apply sumf_ext. intros p _. cbn. ring.
Qed.
Lemma ev_extend2 {K1 K2 K' A1 A2} (f : K1 -> K2 -> list (K' * Z)) (x : elt K1 A1) (y : elt K2 A2) g :
  ev g (extend2 f x y) = ev (fun k1 => ev (fun k2 => ev g (f k1 k2)) (data y)) (data x).
Proof.
  unfold extend2, ev. rewrite sumf_flat_map. apply sumf_ext. intros [k v] _. cbn [fst snd]. rewrite sumf_flat_map, <- sumf_scal.
  apply sumf_ext. intros [k' v'] _. cbn [fst snd]. rewrite sumf_map, <- !sumf_scal. apply sumf_ext. intros p _. cbn. ring.
Qed.
Lemma den_gives {K A} `{KO : KeyOk K} (c : pycls K) (Hc : cls_ok c) t (a : A) F (r : res (elt K A)) l : 0 <= t ->
  returns r (den c t a F) -> (forall g, adm c g -> eqm t (F g) (ev g l)) -> gives c r t a l.
Proof.
  intros Ht (z & E & Hz) HF. exists z. split; [exact E|]. split; [eapply den_wf; eauto|]. pose proof Hz as (-> & -> & H3 & H4).
  split; [reflexivity|]. split; [reflexivity|]. intros k Hk.
  pose proof (proj1 Hz) as Et. rewrite Et.
  rewrite coef_ev. rewrite <- (dget_ind (data z) k) by apply H3. change (eqm t (ev (ind k) (data z)) (ev (ind k) l)).
  rewrite H4 by now apply adm_ind. apply HF. now apply adm_ind.
Qed.

Lemma zset_const l n : l <> [] -> (forall m, In m l -> m = n) -> zset l = [n].
Proof.
  intros N H. unfold zset. induction l as [|a l IH]; [congruence|]. cbn [nodup]. rewrite (H a) by now left.
  destruct l as [|b l].
  - reflexivity.
  - destruct (in_dec Z.eq_dec n (b :: l)) as [_|Nn].
    + apply IH; [discriminate|]. intros m Hm. apply H. now right.
    + exfalso. apply Nn. left. apply H. right. now left.
Qed.
Lemma ring_arity_ok n (x : ring) : 1 <= n -> keys_in (pk n) x -> data x <> [] -> ring_arity x = Ok (Some n).
Proof.
  intros Hn Kx N. unfold ring_arity. destruct (dempty (data x)) eqn:E; [destruct (data x); [congruence|discriminate]|].
  rewrite (mapM_map _ (fun _ => n)).
  - cbn [bind]. rewrite (zset_const _ n).
    + reflexivity.
    + unfold dkeys. rewrite map_map. now destruct (data x).
    + intros m Hm. apply in_map_iff in Hm. now destruct Hm as (? & <- & _).
  - intros k Hk. apply in_map_iff in Hk. destruct Hk as ([k' v] & <- & Hin). apply perm_max; auto. exact (Kx _ _ Hin).
Qed.
Lemma tensor_arity_ok {B A} n (x : elt (list B) A) : keys_in (fun k => zlen k = n) x -> data x <> [] -> tensor_arity x = Some n.
Proof.
  intros Kx N. unfold tensor_arity. rewrite (zset_const _ n); [reflexivity| |].
  - unfold dkeys. rewrite map_map. now destruct (data x).
  - intros m Hm. apply in_map_iff in Hm. destruct Hm as (k & <- & Hk). apply in_map_iff in Hk. destruct Hk as ([k' v] & <- & Hin). exact (Kx _ _ Hin).
Qed.

Lemma ring_attr0 (w : ring) : attr w = tt. Proof. now destruct (attr w). Qed.
(** the common code of the actions *)
Definition tact (c : pycls (list (list Z))) (dg : list Z -> Z) (dt : Z) (other : ring) (x : elt (list (list Z)) unit) : res (elt (list (list Z)) unit) :=
  if negb (torsion x =? torsion other) then Err TypeError else
  let! oa := ring_arity other in
  if negb (opt_eqb (tensor_arity x) oa) then Err TypeError else
  let! answer := zero dt c x in
  for_ (list_prod (data x) (data other)) answer (fun answer '((k1, v1), (k2, v2)) =>
    let! new_key := place (kval k2) k1 in
    let! new_sign := koszul_sign (kval k2) (map (fun s => dg s mod 2) k1) in
    add_term dt c x answer new_key (new_sign * v1 * v2)).
(** extended by zero *)
Notation tact0 c dg dt := (extended dt c (tact c dg dt)).

Section TA.
Variable c : pycls (list (list Z)).
Variable badb : list Z -> bool.
Hypothesis Hbad : forall k, bad c k = Ok (existsb badb k).
Hypothesis Hck : forall k, ckey c k = k.
Variable fb : list Z -> dict (list Z).
Variable dg : list Z -> Z.
Hypothesis dg_fb : forall b b' v, In (b', v) (fb b) -> dg b' = dg b - 1.
Hypothesis fd_fd : forall g b, fd fb (fd fb g) b = 0.
Hypothesis fd_bad : forall g b, (forall b', badb b' = true -> g b' = 0) -> badb b = true -> fd fb g b = 0.
Notation el := (elt (list (list Z)) unit).

Lemma okc : cls_ok c. Proof. now apply cls_ok_keyeq. Qed.
Lemma okeyc k : okey c k. Proof. rewrite <- (Hck k). eexists. apply Hbad. Qed.
Lemma adm_bad g k b : adm c g -> In b k -> badb b = true -> g k = 0.
Proof. intros [_ Hg] Hin Hb. apply Hg. rewrite Hbad. f_equal. apply existsb_exists. eauto. Qed.
Lemma admP_bad P g k b : admP c P g -> P k -> In b k -> badb b = true -> g k = 0.
Proof. intros [_ Hg] Pk Hin Hb. apply Hg; auto. rewrite Hbad. f_equal. apply existsb_exists. eauto. Qed.
Lemma ele_attr (w : el) : attr w = tt. Proof. now destruct (attr w). Qed.

(** predicates on keys that make sense for all operations *)
Definition kar (n : Z) (k : list (list Z)) : Prop := zlen k = n.
Definition kdeg (n d : Z) (k : list (list Z)) : Prop := zlen k = n /\ tdeg dg k = d.
Lemma kpred_kar n : kpred (kar n).
Proof. apply kpred_eq. intros k. unfold kar. lia. Qed.
Lemma kpred_kdeg n d : kpred (kdeg n d).
Proof. apply kpred_eq. intros k. unfold kdeg. lia. Qed.
Lemma kpred_any : kpred (fun _ : list (list Z) => True).
Proof. apply kpred_eq. tauto. Qed.

(** *** boundary *)
Variable dt : Z.
Variable bnd : el -> res el.
Hypothesis bnd_den : forall t x, 0 <= t -> dt_ok dt t -> wf c x -> torsion x = t ->
  returns (bnd x) (den c t tt (fun g => ev (tD fb dg g) (data x))).

Lemma rep_tD (P Q : list (list Z) -> Prop) : (forall k k' v, P k -> In (k', v) (tb fb dg k) -> Q k') -> rep P Q (tD fb dg).
Proof. intros H k Hk. exists (tb fb dg k). split; [intros k' v Hin; eapply H; eauto|]. reflexivity. Qed.
Lemma adm_tD (P Q : list (list Z) -> Prop) : (forall k k' v, P k -> In (k', v) (tb fb dg k) -> Q k') -> admop c c P Q (tD fb dg).
Proof.
  intros HPQ g Hg. apply admP_keyeq. intros k Pk Hb. rewrite Hbad in Hb. injection Hb as Hb. apply existsb_exists in Hb.
  destruct Hb as (b & Hin & Hb). apply in_split in Hin. destruct Hin as (k1 & k2 & ->).
  assert (Hg' : forall k', In k' (dkeys (tb fb dg (k1 ++ b :: k2))) -> forall b', In b' k' -> badb b' = true -> g k' = 0).
  { intros k' Hk' b' Hb' Hbb. apply in_map_iff in Hk'. destruct Hk' as ([k0 v] & <- & Hk'). cbn. eapply admP_bad; eauto. }
  set (g' := fun k' => if in_dec (list_eq_dec (list_eq_dec Z.eq_dec)) k' (dkeys (tb fb dg (k1 ++ b :: k2))) then g k' else 0).
  rewrite (tD_ext _ _ g g').
  2:{ intros k' v Hin. unfold g'. destruct (in_dec _ _ _) as [|N]; [reflexivity|]. exfalso. apply N. now apply (in_map fst) in Hin. }
  assert (Hz : forall k' b', In b' k' -> badb b' = true -> g' k' = 0).
  { intros k' b' H1 H2. unfold g'. destruct (in_dec _ _ _) as [Hi|]; [|reflexivity]. eapply Hg'; eauto. }
  clearbody g'. clear Hg Hg' Pk g. rewrite tD_app, tD_cons.
  assert (E1 : tD fb dg (fun u => g' (u ++ b :: k2)) k1 = 0).
  { apply ev_zero. intros u v _. apply (Hz _ b); auto. apply in_or_app. right. now left. }
  assert (E2 : tD fb dg (fun k' => g' (k1 ++ b :: k')) k2 = 0).
  { apply ev_zero. intros u v _. apply (Hz _ b); auto. apply in_or_app. right. now left. }
  assert (E3 : fd fb (fun b' => g' (k1 ++ b' :: k2)) b = 0).
  { apply fd_bad; [|exact Hb]. intros b' Hb'. apply (Hz _ b'); auto. apply in_or_app. right. now left. }
  rewrite E1, E2, E3. ring.
Qed.
Lemma linop_bnd t (P Q : list (list Z) -> Prop) : 0 <= t -> dt_ok dt t -> kpred Q -> (forall k k' v, P k -> In (k', v) (tb fb dg k) -> Q k') ->
  linop c c t tt tt P Q (tD fb dg) bnd.
Proof.
  intros Ht Hdt HQ HPQ. apply (linop_intro c c okc); auto.
  - apply rep_local. now apply rep_tD.
  - apply (rep_zero _ _ _ (rep_tD P Q HPQ)).
Qed.
Lemma tb_kar n k k' v : kar n k -> In (k', v) (tb fb dg k) -> kar n k'.
Proof. intros Hk Hin. apply (tdeg_tb fb dg dg_fb) in Hin. unfold kar, zlen in *. lia. Qed.
Lemma tb_kdeg n d k k' v : kdeg n d k -> In (k', v) (tb fb dg k) -> kdeg n (d - 1) k'.
Proof. intros Hk Hin. apply (tdeg_tb fb dg dg_fb) in Hin. unfold kdeg, zlen in *. lia. Qed.

Lemma bnd_bnd x : dt_ok dt (torsion x) -> wf c x -> same (let! y := bnd x in bnd y) (zero dt c x).
Proof.
  intros Hdt Wx. pose proof (proj1 Wx) as Ht. set (P := fun _ : list (list Z) => True).
  assert (L := linop_bnd (torsion x) P P Ht Hdt kpred_any ltac:(unfold P; tauto)).
  eapply (same_den c okc (torsion x) tt); [exact Ht| | |].
  - eapply returns_mono; [apply (linop_comp c c c okc okc okc (torsion x) tt tt tt P P P _ _ bnd bnd Ht kpred_any L L)|].
    + apply rep_local, rep_tD. unfold P. tauto.
    + apply adm_tD. unfold P. tauto.
    + exact Wx.
    + reflexivity.
    + apply ele_attr.
    + intros k v _. exact I.
    + intros z [Hz _]. exact Hz.
  - eapply returns_mono; [apply (zero_den c okc dt (torsion x)); auto|]. intros z Hz. rewrite (ele_attr x) in Hz. exact Hz.
  - intros g Hg. cbn beta. apply eqm_eq. apply ev_zero. intros k v _. now apply tD_tD.
Qed.
Lemma bnd_add x y : dt_ok dt (torsion x) -> wf c x -> wf c y -> torsion y = torsion x ->
  same (let! s := add dt c x y in bnd s) (let! p := bnd x in let! q := bnd y in add dt c p q).
Proof.
  intros Hdt Wx Wy Ty. pose proof (proj1 Wx) as Ht. set (P := fun _ : list (list Z) => True).
  apply (linop_add c c okc okc dt (torsion x) tt tt P P (tD fb dg)); auto using kpred_any, ele_attr.
  - apply linop_bnd; auto using kpred_any; unfold P; tauto.
  - apply adm_tD. unfold P. tauto.
  - intros k v _. exact I.
  - intros k v _. exact I.
Qed.
Lemma bnd_scale n x : dt_ok dt (torsion x) -> wf c x ->
  same (let! s := scale dt c n x in bnd s) (let! p := bnd x in scale dt c n p).
Proof.
  intros Hdt Wx. pose proof (proj1 Wx) as Ht. set (P := fun _ : list (list Z) => True).
  apply (linop_scale c c okc okc dt (torsion x) tt tt P P (tD fb dg)); auto using kpred_any, ele_attr.
  - apply linop_bnd; auto using kpred_any; unfold P; tauto.
  - apply adm_tD. unfold P. tauto.
  - intros k v _. exact I.
Qed.
Lemma bnd_deg n d x : dt_ok dt (torsion x) -> wf c x -> keys_in (kdeg n d) x ->
  exists y, bnd x = Ok y /\ wf c y /\ torsion y = torsion x /\ keys_in (kdeg n (d - 1)) y.
Proof.
  intros Hdt Wx Kx. pose proof (proj1 Wx) as Ht.
  destruct (linop_bnd (torsion x) (kdeg n d) (kdeg n (d - 1)) Ht Hdt (kpred_kdeg _ _) (tb_kdeg n d) x Wx eq_refl (ele_attr x) Kx) as (y & E & Hy & Ky).
  exists y. split; [exact E|]. split; [eapply den_wf; eauto|]. split; [exact (proj1 Hy)|exact Ky].
Qed.

(** *** action *)
Definition Pact (g : list (list Z) -> Z) (k2 : skey) (k1 : list (list Z)) : Z := kact dg g (kval k2) k1.
Lemma tact_den n t other x : 1 <= n -> 0 <= t -> dt_ok dt t -> wf cls_ring other -> wf c x -> torsion other = t -> torsion x = t ->
  keys_in (pk n) other -> keys_in (kar n) x -> ((data other <> [] /\ data x <> []) \/ (data other = [] /\ data x = [])) ->
  returns (tact c dg dt other x) (den c t tt (fun g => ev (fun k2 => ev (fun k1 => Pact g k2 k1) (data x)) (data other))).
Proof.
  intros Hn Ht Hdt Wo Wx To Tx Ko Kx NZ. unfold tact. rewrite To, Tx, Z.eqb_refl. cbn [negb].
  assert (E : exists oa, ring_arity other = Ok oa /\ opt_eqb (tensor_arity x) oa = true).
  { destruct NZ as [[No Nx]|[Zo Zx]].
    - exists (Some n). split; [now apply ring_arity_ok|]. rewrite (tensor_arity_ok n) by assumption. apply Z.eqb_refl.
    - exists None. unfold ring_arity, tensor_arity. rewrite Zo, Zx. auto. }
  destruct E as (oa & -> & E2). cbn [bind]. rewrite E2. cbn [negb].
  eapply returns_bind; [apply (zero_den c okc dt t); auto|]. intros ans Hans. rewrite (ele_attr x) in Hans.
  eapply returns_mono.
  - apply (pair_loop_den c okc t tt (data x) (data other) _ (fun k1 k2 g => Pact g k2 k1)); [|exact Hans].
    intros k1 v1 k2 v2 F y H1 H2 Hy. apply Kx in H1. apply Ko in H2. unfold kar, pk in *.
    rewrite (place_ok n) by (auto; lia). cbn [bind]. rewrite (koszul_ok n) by (rewrite ?zlen_map; auto; lia). cbn [bind].
    eapply returns_mono; [eapply (add_term_den c okc dt t); eauto; apply okeyc|]. intros z Hz. eapply den_ext; [|exact Hz].
    intros g _. cbn beta. apply eqm_eq. f_equal. unfold Pact, kact.
    match goal with |- sgn ?a * v1 * v2 * _ = _ => match goal with |- _ = _ * (sgn ?b * _) => replace (sgn a) with (sgn b) end end; [ring|].
    apply sgn_eqm. apply kinv_eqm. intros i Hi. pose proof (perm_len n _ ltac:(lia) H2) as Lp. destruct (posn_index _ _ Hi) as (_ & R & _).
    unfold lab, znth. rewrite (nth_indep (map _ k1) 0 (dg [] mod 2)) by (rewrite map_length; unfold zlen in *; lia).
    rewrite (map_nth (fun s => dg s mod 2)). symmetry. apply eqm_mod. lia.
  - intros z Hz. eapply den_ext; [|exact Hz]. intros g _. cbn beta. apply eqm_eq. rewrite Z.add_0_l. apply ev_exch.
Qed.
Lemma bilop_act n t : 1 <= n -> 0 <= t -> dt_ok dt t ->
  bilop cls_ring c c t tt tt tt (pk n) (kar n) Pact (tact0 c dg dt).
Proof.
  intros Hn Ht Hdt o x Wo To _ Ko Wx Tx _ Kx. unfold extended.
  destruct (data o) as [|po o'] eqn:Eo; [|destruct (data x) as [|px x'] eqn:Ex].
  - cbn [dempty orb]. eapply returns_mono; [apply (zero_den c okc dt t); auto|]. intros z Hz. rewrite (ele_attr x) in Hz. exact Hz.
  - cbn [dempty orb]. eapply returns_mono; [apply (zero_den c okc dt t); auto|]. intros z Hz. rewrite (ele_attr x) in Hz.
    eapply den_ext; [|exact Hz]. intros g _. cbn beta. apply eqm_eq. symmetry. apply ev_zero. reflexivity.
  - cbn [dempty orb]. rewrite <- Eo, <- Ex. apply (tact_den n t); auto. left. rewrite Eo, Ex. split; discriminate.
Qed.
Lemma rep_act n : 0 <= n -> rep2 (pk n) (kar n) (kar n) Pact.
Proof.
  intros Hn k2 k1 H2 H1. exists [(placef (kval k2) k1, sgn (kinv (kval k2) (fun j => dg (lab (kval k2) k1 j))))]. split.
  - intros k v [[= <- <-]|[]]. now apply (placef_len n).
  - intros g. rewrite ev_cons, ev_nil. unfold Pact, kact. ring.
Qed.
Lemma adm_act n : 0 <= n -> adm2 cls_ring c c (pk n) (kar n) (kar n) Pact.
Proof.
  intros Hn g Hg. split.
  - intros k1 H1 Hb. split; [|discriminate]. intros k k' E Hk. cbn in E. apply tup_eqb_eq in E. unfold Pact. now rewrite E.
  - intros k2 H2 _. apply admP_keyeq. intros k Hk Hb. rewrite Hbad in Hb. injection Hb as Hb. apply existsb_exists in Hb. destruct Hb as (b & Hin & Hb).
    unfold Pact, kact. rewrite (admP_bad (kar n) g _ b); auto; [ring|now apply (placef_len n)|].
    eapply Permutation_in; [apply Permutation_sym; now apply (placef_perm n)|assumption].
Qed.
Lemma tact0_nz o x : data o <> [] -> data x <> [] -> tact0 c dg dt o x = tact c dg dt o x.
Proof. intros H1 H2. unfold extended. destruct (data o); [congruence|]. destruct (data x); [congruence|]. reflexivity. Qed.
Lemma tact0_keys n o x z : 1 <= n -> dt_ok dt (torsion x) -> wf cls_ring o -> wf c x -> torsion o = torsion x -> keys_in (pk n) o -> keys_in (kar n) x ->
  tact0 c dg dt o x = Ok z -> wf c z /\ torsion z = torsion x /\ keys_in (kar n) z.
Proof.
  intros Hn Hdt Wo Wx To Ko Kx E. pose proof (proj1 Wx) as Ht. assert (Hn0 : 0 <= n) by lia.
  destruct (bilop_keys cls_ring c c okc (torsion x) tt tt tt (pk n) (kar n) (kar n) Pact (tact0 c dg dt) Ht (kpred_kar n) (bilop_act n _ Hn Ht Hdt)
    (rep2_local2 _ _ _ _ (rep_act n Hn0)) (rep2_zero _ _ _ _ (rep_act n Hn0)) o x z Wo To (ring_attr0 o) Ko Wx eq_refl (ele_attr x) Kx E) as (? & ? & ? & ?). auto.
Qed.

(** *** laws *)
Notation act := (tact0 c dg dt).
Lemma act_gives n o x : 1 <= n -> dt_ok dt (torsion x) -> wf cls_ring o -> wf c x -> torsion o = torsion x -> keys_in (pk n) o -> keys_in (kar n) x ->
  data o <> [] -> data x <> [] -> forall f, (forall g k2 k1, pk n k2 -> kar n k1 -> ev g (f k2 k1) = Pact g k2 k1) ->
  gives c (tact c dg dt o x) (torsion x) tt (extend2 f o x).
Proof.
  intros Hn Hdt Wo Wx To Ko Kx No Nx f Hf. pose proof (proj1 Wx) as Ht. eapply (den_gives c okc); [exact Ht| |].
  - apply (tact_den n); auto.
  - intros g _. cbn beta. apply eqm_eq. rewrite ev_extend2. apply ev_ext. intros k2 v2 H2. apply ev_ext. intros k1 v1 H1. symmetry. apply Hf; eauto.
Qed.
Lemma act_assoc n a b x : 1 <= n -> dt_ok dt (torsion x) -> wf cls_ring a -> wf cls_ring b -> wf c x -> torsion a = torsion x -> torsion b = torsion x ->
  keys_in (pk n) a -> keys_in (pk n) b -> keys_in (kar n) x ->
  same (let! ab := ring_mul dt a b in act ab x) (let! bx := act b x in act a bx).
Proof.
  intros Hn Hdt Wa Wb Wx Ta Tb Ka Kb Kx. pose proof (proj1 Wx) as Ht. assert (Hn0 : 0 <= n) by lia.
  refine (bilop_assoc cls_ring cls_ring c cls_ring c c ok_ring okc okc (torsion x) tt tt tt tt tt tt
    (pk n) (pk n) (kar n) (pk n) (kar n) (kar n) Pmul Pact Pact Pact _ _ _ _ a b x Ht (kpred_pk n) (kpred_kar n)
    (bilop_mul dt n _ Hn0 Ht) (rep_mul n Hn0) (bilop_act n _ Hn Ht Hdt) (adm_act n Hn0) (bilop_act n _ Hn Ht Hdt) (rep_act n Hn0) (bilop_act n _ Hn Ht Hdt) (adm_act n Hn0)
    _ Wa Ta _ Ka Wb Tb _ Kb Wx eq_refl _ Kx); try (match goal with |- attr ?u = _ => now destruct (attr u) end).
  intros g k1 k2 k3 _ H1 H2 H3 _ _ _. unfold Pmul, Pact. cbn [kval SGE]. apply eqm_eq. symmetry. now apply (kact_pmul dg n).
Qed.
Lemma act_add_l n a b x : 1 <= n -> dt_ok dt (torsion x) -> wf cls_ring a -> wf cls_ring b -> wf c x -> torsion a = torsion x -> torsion b = torsion x ->
  keys_in (pk n) a -> keys_in (pk n) b -> keys_in (kar n) x ->
  same (let! s := add dt cls_ring a b in act s x) (let! p := act a x in let! q := act b x in add dt c p q).
Proof.
  intros Hn Hdt Wa Wb Wx Ta Tb Ka Kb Kx. pose proof (proj1 Wx) as Ht. assert (Hn0 : 0 <= n) by lia.
  exact (bilop_add_l cls_ring c c ok_ring okc okc dt (torsion x) tt tt tt (pk n) (kar n) (kar n) Pact act a b x Ht Hdt (kpred_pk n) (kpred_kar n)
    (bilop_act n _ Hn Ht Hdt) (rep2_local2 _ _ _ _ (rep_act n Hn0)) (adm_act n Hn0) (rep2_zero _ _ _ _ (rep_act n Hn0))
    Wa Ta (ring_attr0 a) Ka Wb Tb (ring_attr0 b) Kb Wx eq_refl (ele_attr x) Kx).
Qed.
Lemma act_add_r n a x y : 1 <= n -> dt_ok dt (torsion x) -> wf cls_ring a -> wf c x -> wf c y -> torsion a = torsion x -> torsion y = torsion x ->
  keys_in (pk n) a -> keys_in (kar n) x -> keys_in (kar n) y ->
  same (let! s := add dt c x y in act a s) (let! p := act a x in let! q := act a y in add dt c p q).
Proof.
  intros Hn Hdt Wa Wx Wy Ta Ty Ka Kx Ky. pose proof (proj1 Wx) as Ht. assert (Hn0 : 0 <= n) by lia.
  exact (bilop_add_r cls_ring c c ok_ring okc okc dt (torsion x) tt tt tt (pk n) (kar n) (kar n) Pact act a x y Ht Hdt (kpred_kar n) (kpred_kar n)
    (bilop_act n _ Hn Ht Hdt) (rep2_local2 _ _ _ _ (rep_act n Hn0)) (adm_act n Hn0) (rep2_zero _ _ _ _ (rep_act n Hn0))
    Wa Ta (ring_attr0 a) Ka Wx eq_refl (ele_attr x) Kx Wy Ty (ele_attr y) Ky).
Qed.
Lemma linop_act n t a : 1 <= n -> 0 <= t -> dt_ok dt t -> wf cls_ring a -> torsion a = t -> keys_in (pk n) a ->
  linop c c t tt tt (kar n) (kar n) (DBL Pact a) (fun x => act a x).
Proof.
  intros Hn Ht Hdt Wa Ta Ka. assert (Hn0 : 0 <= n) by lia.
  exact (linop_bilL cls_ring c c okc t tt tt tt (pk n) (kar n) (kar n) Pact act Ht (kpred_kar n) (bilop_act n _ Hn Ht Hdt) 
    (rep2_local2 _ _ _ _ (rep_act n Hn0)) (rep2_zero _ _ _ _ (rep_act n Hn0)) a Wa Ta (ring_attr0 a) Ka).
Qed.
Lemma act_bnd n a x : 1 <= n -> dt_ok dt (torsion x) -> wf cls_ring a -> wf c x -> torsion a = torsion x ->
  keys_in (pk n) a -> keys_in (kar n) x ->
  same (let! y := act a x in bnd y) (let! y := bnd x in act a y).
Proof.
  intros Hn Hdt Wa Wx Ta Ka Kx. pose proof (proj1 Wx) as Ht. assert (Hn0 : 0 <= n) by lia.
  pose proof (linop_act n _ a Hn Ht Hdt Wa Ta Ka) as L1. pose proof (linop_bnd (torsion x) (kar n) (kar n) Ht Hdt (kpred_kar n) (tb_kar n)) as L2.
  pose proof (rep2_L _ _ _ Pact a (rep_act n Hn0) Ka) as R1. pose proof (rep_tD (kar n) (kar n) (tb_kar n)) as R2.
  pose proof (DBL_admop cls_ring c c _ _ _ Pact (adm_act n Hn0) a Ka Wa) as A1. pose proof (adm_tD (kar n) (kar n) (tb_kar n)) as A2.
  refine (linop_same c c okc (torsion x) tt tt (kar n) (kar n) (kar n) _ _ _ _ x Ht
    (linop_comp c c c okc okc okc (torsion x) tt tt tt (kar n) (kar n) (kar n) _ _ _ _ Ht (kpred_kar n) L1 L2 (rep_local _ _ _ R1) A2)
    (linop_comp c c c okc okc okc (torsion x) tt tt tt (kar n) (kar n) (kar n) _ _ _ _ Ht (kpred_kar n) L2 L1 (rep_local _ _ _ R2) A1)
    Wx eq_refl (ele_attr x) Kx _).
  intros g k _ Hk _. cbn beta. change (tD fb dg (DBL Pact a g) k) with (tD fb dg (fun k' => ev (fun k2 => Pact g k2 k') (data a)) k). rewrite (rep_lin _ _ _ (fun k' k2 => Pact g k2 k') (data a) R2 k Hk). unfold DBL. apply eqm_eq.
  apply ev_ext. intros k2 v Hin. unfold Pact. symmetry. apply (kact_tD fb dg dg_fb n); auto. apply (Ka _ _ Hin).
Qed.
Lemma act_unit n x : 1 <= n -> dt_ok dt (torsion x) -> torsion x <> 1 -> wf c x -> keys_in (kar n) x ->
  same (let! e := identity_element dt n (Some (torsion x)) in act e x) (Ok x).
Proof.
  intros Hn Hdt N1 Wx Kx. pose proof (proj1 Wx) as Ht. assert (Hn0 : 0 <= n) by lia.
  unfold identity_element.
  rewrite (new_basis dt (Some (torsion x)) (torsion x)) by auto. cbn [bind].
  eapply (same_den c okc (torsion x) tt); [exact Ht| | |].
  - eapply returns_mono; [apply (linop_act n (torsion x) (mkElt [(SGE (zrange 1 (n + 1)), 1)] (torsion x) tt) Hn Ht Hdt)|].
    + now apply wf_basis.
    + reflexivity.
    + intros k v [[= <- <-]|[]]. apply perm_id.
    + exact Wx.
    + reflexivity.
    + apply ele_attr.
    + exact Kx.
    + intros z [Hz _]. exact Hz.
  - apply returns_ok. pose proof (den_self c x Wx) as Dx. rewrite (ele_attr x) in Dx. exact Dx.
  - intros g _. cbn beta. apply eqm_eq. apply ev_ext. intros k v Hin. unfold DBL. cbn [data]. rewrite ev_cons, ev_nil. unfold Pact. cbn [kval SGE].
    rewrite (kact_id dg n g k Hn0 (Kx _ _ Hin)). ring.
Qed.
End TA.
