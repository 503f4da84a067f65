(** * The code of the cubical action computes [cub_acts].  Proof library. *)
From Coq Require Import Setoid Morphisms.
From Verif Require Import PyBase Dict FreeModule Symmetric Simplicial Cubical Utils Surjection Eqm Spec SpecChain SpecOperad SpecSurj SpecAction SpecCube SpecCubAction FreeModuleFacts FreeModuleLaws ListFacts
  ClassFacts LinearFacts BilFacts SymmetricFacts CycleFacts SymmetricLaws RingFacts Tensor TensorAct LoopFacts AW SimplicialFacts SimplicialDiag SurjFacts SurjBoundary SurjLaws ActFacts ActSign ActCore ActCode SpecCube CubicalFacts CubicalDiag CubicalJoin CubActFacts CubActCore.

(** ** groups *)
Definition grp (i : Z) (k : list Z) : list Z := map fst (filter (fun p => snd p =? i) (enumerate k)).
Lemma combine_enum' {B} (d : B) (k : list Z) (u : list B) : length u = length k -> combine k u = map (fun x => (snd x, znth d u (fst x))) (enumerate k).
Proof.
  revert u. induction k as [|a k IH]; intros [|b u] L; try discriminate; [reflexivity|]. rewrite enumerate_cons. cbn [combine map fst snd]. f_equal. rewrite map_map, IH by (cbn in L; lia). apply map_ext_in.
  intros [idx c] Hin. cbn [fst snd]. f_equal. apply (in_map fst) in Hin. rewrite enumerate_fst, in_zrange in Hin. cbn [fst] in Hin. unfold znth. replace (Z.to_nat (idx + 1)) with (Datatypes.S (Z.to_nat idx)) by lia. reflexivity.
Qed.
Lemma grp_range i k idx : In idx (grp i k) -> 0 <= idx < zlen k.
Proof. unfold grp. intros H. apply in_map_iff in H. destruct H as (p & <- & Hp). apply filter_In in Hp. destruct Hp as [Hp _]. apply (in_map fst) in Hp. rewrite enumerate_fst, in_zrange in Hp. exact Hp. Qed.
Lemma grouped_grp {B} (d : B) i (k : list Z) (u : list B) : length u = length k -> grouped i (combine k u) = map (znth d u) (grp i k).
Proof.
  intros L. rewrite (combine_enum' d) by exact L. unfold grouped, grp. rewrite map_map. induction (enumerate k) as [|[idx a] l IH]; [reflexivity|]. cbn [map filter fst snd]. destruct (a =? i); cbn [map fst snd]; [f_equal|]; exact IH.
Qed.
Lemma grp_get {B} i (k : list Z) (u : list B) : length u = length k -> mapM (fun idx => py_get u idx) (grp i k) = Ok (grouped i (combine k u)).
Proof.
  intros L. destruct u as [|d u'] eqn:Eu.
  - destruct k; [reflexivity|discriminate].
  - rewrite <- Eu in *. rewrite (grouped_grp d) by exact L. apply mapM_map. intros idx Hin. apply py_get_in. apply grp_range in Hin. unfold zlen in *. lia.
Qed.
Lemma grp_cons i a k : grp i (a :: k) = (if a =? i then [0] else []) ++ map (fun j => j + 1) (grp i k).
Proof.
  unfold grp. rewrite enumerate_cons. cbn [filter snd].
  assert (E : map fst (filter (fun p : Z * Z => snd p =? i) (map (fun p => (fst p + 1, snd p)) (enumerate k))) = map (fun j => j + 1) (map fst (filter (fun p => snd p =? i) (enumerate k)))).
  { induction (enumerate k) as [|[x y] l IH]; [reflexivity|]. cbn [map filter fst snd]. destruct (y =? i); cbn [map fst snd]; rewrite IH; reflexivity. }
  destruct (a =? i); cbn [map fst app]; rewrite E; reflexivity.
Qed.
Lemma grp_ne i k : In i k -> exists j l, grp i k = j :: l.
Proof.
  induction k as [|a k IH]; [intros []|]. intros H. rewrite grp_cons. destruct (Z.eqb_spec a i) as [->|N]; [eexists; eexists; reflexivity|].
  destruct H as [H|H]; [congruence|]. destruct (IH H) as (j & l & ->). eexists; eexists; reflexivity.
Qed.
Lemma hd_weight i k ws j l : length ws = length k -> grp i k = j :: l -> py_get ws j = Ok (hd 0 (grouped i (combine k ws))).
Proof.
  intros L E. rewrite (grouped_grp 0) by exact L. rewrite E. cbn [map hd]. apply py_get_in. assert (H : In j (grp i k)) by (rewrite E; now left). apply grp_range in H. unfold zlen in *. lia.
Qed.
Lemma len_grp {B} i (k : list Z) (u : list B) : length u = length k -> zlen (grouped i (combine k u)) = zlen (grp i k).
Proof.
  intros L. destruct u as [|d u'] eqn:Eu; [destruct k; [reflexivity|discriminate]|]. rewrite <- Eu in *. rewrite (grouped_grp d) by exact L. apply zlen_map.
Qed.
Lemma enumerate_map {A B} (f : A -> B) (l : list A) : enumerate (map f l) = map (fun p => (fst p, f (snd p))) (enumerate l).
Proof. induction l as [|a l IH]; [reflexivity|]. cbn [map]. rewrite !enumerate_cons. cbn [map fst snd]. f_equal. rewrite IH, !map_map. reflexivity. Qed.
Lemma py_get_hd {B} (a : B) l : py_get (a :: l) 0 = Ok a.
Proof. exact (py_get_app [] l a). Qed.
Lemma cubical_sign_ok r k ws : 1 <= r -> onto r k -> length ws = length k ->
  cubical_sign r ws (map (fun i => grp i k) (zrange 1 (r + 1))) = Ok (sgn (join_exponent r (combine k ws))).
Proof.
  intros Hr Ho L. unfold cubical_sign, join_exponent.
  assert (Hne : forall i, In i (zrange 1 (r + 1)) -> exists j l, grp i k = j :: l) by (intros i Hi; apply in_zrange in Hi; apply grp_ne, Ho; lia).
  destruct (Z.leb_spec r 2).
  - set (mu := fun g : list Z => (zlen g - 1) * match g with j :: _ => znth 0 ws j | [] => 0 end).
    rewrite (mapM_map _ mu).
    2:{ intros g Hg. apply in_map_iff in Hg. destruct Hg as (i & <- & Hi). destruct (Hne i Hi) as (j & l & E). unfold mu. rewrite E, py_get_hd. cbn [bind].
        rewrite (hd_weight i k ws j l L E). cbn [bind]. f_equal. f_equal. rewrite (grouped_grp 0) by exact L. rewrite E. reflexivity. }
    cbn [bind]. rewrite map_map.
    assert (EM : map (fun i => mu (grp i k)) (zrange 1 (r + 1)) = map (fun i => (zlen (grouped i (combine k ws)) - 1) * hd 0 (grouped i (combine k ws))) (zrange 1 (r + 1))).
    { apply map_ext_in. intros i Hi. destruct (Hne i Hi) as (j & l & E). rewrite (len_grp i k ws L). unfold mu. f_equal. rewrite (grouped_grp 0) by exact L. rewrite E. reflexivity. }
    rewrite EM. set (T1 := zsum _). assert (r = 1 \/ r = 2) as [-> | ->] by lia.
    + change (zrange 1 (1 + 1)) with [1]. cbn [map]. change (enumerate [grp 1 k]) with [(0, grp 1 k)]. cbn [mapM]. change (slice_from [grp 1 k] (0 + 1)) with (@nil (list Z)). cbn [mapM bind map]. rewrite sgn_mod2. reflexivity.
    + change (zrange 1 (2 + 1)) with [1; 2]. cbn [map]. change (enumerate [grp 1 k; grp 2 k]) with [(0, grp 1 k); (1, grp 2 k)]. cbn [mapM]. change (slice_from [grp 1 k; grp 2 k] (0 + 1)) with [grp 2 k]. change (slice_from [grp 1 k; grp 2 k] (1 + 1)) with (@nil (list Z)).
      destruct (Hne 1) as (j1 & l1 & E1); [apply in_zrange; lia|]. destruct (Hne 2) as (j2 & l2 & E2); [apply in_zrange; lia|]. rewrite !(len_grp _ k ws L), E1, E2. cbn [mapM]. rewrite !py_get_hd. cbn [bind map].
      rewrite sgn_mod2. f_equal. f_equal. f_equal. change (2 =? 2) with true. cbn [andb]. 
      replace (hd 0 (map fst (combine k ws))) with (hd 0 k) by (destruct k, ws; try discriminate; reflexivity).
      destruct k as [|a k]; [discriminate|]. cbn [hd]. rewrite grp_cons in E1, E2.
      assert (Ha : a = 1 \/ a = 2) by (assert (1 <= a <= 2) by (apply Ho; now left); lia). destruct Ha as [-> | ->].
      * change (1 =? 1) with true in E1. change (1 =? 2) with false in *. cbv iota in *. cbn [app] in E1, E2. injection E1 as <- _.
        assert (0 <= j2) by (assert (H2 : In j2 (map (fun j => j + 1) (grp 2 k))) by (rewrite E2; now left); apply in_map_iff in H2; destruct H2 as (x & <- & Hx); apply grp_range in Hx; lia).
        destruct (Z.ltb_spec j2 0); [lia|]. unfold zsum. cbn. ring.
      * change (2 =? 1) with false in E1. change (2 =? 2) with true in *. cbv iota in *. cbn [app] in E1, E2. injection E2 as <- _.
        assert (1 <= j1) by (assert (H2 : In j1 (map (fun j => j + 1) (grp 1 k))) by (rewrite E1; now left); apply in_map_iff in H2; destruct H2 as (x & <- & Hx); apply grp_range in Hx; lia).
        destruct (Z.ltb_spec 0 j1); [|lia]. unfold zsum. cbn [fold_left fold_right map]. ring.
  - rewrite (mapM_map _ (fun g => map (fun '(idx, i) => (zlen g - 1 - idx) * znth 0 ws i) (enumerate g))).
    2:{ intros g Hg. apply in_map_iff in Hg. destruct Hg as (i & <- & Hi). apply mapM_map. intros [idx j] Hin. apply (in_map snd) in Hin. rewrite enumerate_snd in Hin. cbn [snd] in Hin.
        apply grp_range in Hin. rewrite (py_get_in 0) by (unfold zlen in *; lia). reflexivity. }
    cbn [bind]. rewrite sgn_mod2. f_equal. f_equal. rewrite !map_map. change (zsum (map ?f ?l)) with (sumf f l). rewrite <- sumf_add. apply sumf_ext. intros i _. rewrite (len_grp i k ws L). f_equal.
    rewrite (grouped_grp 0) by exact L. rewrite enumerate_map, map_map. unfold zsum. f_equal. apply map_ext. now intros [idx j].
Qed.
Lemma grouped_par i (l l' : list (Z * Z)) : map fst l = map fst l' -> map (fun x => snd x mod 2) l = map (fun x => snd x mod 2) l' -> map (fun w => w mod 2) (grouped i l) = map (fun w => w mod 2) (grouped i l').
Proof.
  revert l'. induction l as [|[a v] l IH]; intros [|[b w] l'] E1 E2; try discriminate; [reflexivity|]. cbn [map fst snd] in E1, E2. injection E1 as -> E1. injection E2 as E2 E3. rewrite !grouped_cons, !map_app, (IH l' E1 E3).
  destruct (b =? i); [|reflexivity]. cbn [map]. now rewrite E2.
Qed.
Lemma mod2_len {B} (l l' : list B) (f g : B -> Z) : map f l = map g l' -> zlen l = zlen l'.
Proof. intros E. apply (f_equal zlen) in E. now rewrite !zlen_map in E. Qed.
Lemma par_enum n (l l' : list Z) : map (fun w => w mod 2) l = map (fun w => w mod 2) l' -> eqm 2 (zsum (map (fun '(idx, w) => (n - 1 - idx) * w) (enumerate l))) (zsum (map (fun '(idx, w) => (n - 1 - idx) * w) (enumerate l'))).
Proof.
  revert n l'. induction l as [|v l IH]; intros n [|w l'] E; try discriminate; [reflexivity|]. cbn [map] in E. injection E as E1 E2. rewrite !enumerate_cons. cbn [map]. rewrite !map_map.
  change (zsum (?a :: ?b)) with (a + zsum b).
  rewrite (map_ext _ (fun '(idx, w) => (n - 1 - 1 - idx) * w)) by (intros [idx x]; cbn [fst snd]; ring).
  rewrite (map_ext (fun x : Z * Z => let '(idx, w0) := (fst x + 1, snd x) in (n - 1 - idx) * w0) (fun '(idx, w) => (n - 1 - 1 - idx) * w)) by (intros [idx x]; cbn [fst snd]; ring).
  apply eqm_add; [|exact (IH (n - 1) l' E2)]. rewrite <- (eqm_mod 2 v), <- (eqm_mod 2 w), E1 by lia. reflexivity.
Qed.
Lemma jex_par r l l' : map fst l = map fst l' -> map (fun x => snd x mod 2) l = map (fun x => snd x mod 2) l' -> sgn (join_exponent r l) = sgn (join_exponent r l').
Proof.
  intros E1 E2. apply sgn_eqm. unfold join_exponent. rewrite E1. pose proof (fun i => grouped_par i l l' E1 E2) as G. assert (GL : forall i, zlen (grouped i l) = zlen (grouped i l')) by (intros i; eapply mod2_len; apply G).
  destruct (r <=? 2).
  - apply eqm_add; [|rewrite !GL; reflexivity]. change (zsum (map ?f ?l)) with (sumf f l). apply sumf_eqm. intros i _. rewrite GL.
    assert (EH : eqm 2 (hd 0 (grouped i l)) (hd 0 (grouped i l'))).
    { specialize (G i). destruct (grouped i l) as [|v m], (grouped i l') as [|w m']; try discriminate; [reflexivity|]. cbn [map hd] in *. injection G as G _. rewrite <- (eqm_mod 2 v), <- (eqm_mod 2 w), G by lia. reflexivity. }
    now rewrite EH.
  - change (zsum (map ?f (zrange 1 (r + 1)))) with (sumf f (zrange 1 (r + 1))). apply sumf_eqm. intros i _. rewrite GL. apply eqm_add; [|reflexivity]. apply par_enum, G.
Qed.

(** ** products *)
Definition PA (ds : list (dict (list (list Z)))) (h : list (list Z) -> Z) : Z :=
  sumf (fun pairs => fold_right Z.mul 1 (map snd pairs) * h (concat (map fst pairs))) (product_all ds).
Lemma PA_cons d ds h : PA (d :: ds) h = ev (fun key => PA ds (fun w => h (key ++ w))) d.
Proof.
  unfold PA, ev. cbn [product_all]. rewrite sumf_flat_map. apply sumf_ext. intros [key v] _. cbn [fst snd]. rewrite sumf_map, <- sumf_scal. apply sumf_ext. intros pairs _. cbn [map fst snd fold_right concat]. ring.
Qed.
Lemma grouped_in {B} i (k : list Z) (u : list B) c : In c (grouped i (combine k u)) -> In c u.
Proof. intros Hc. unfold grouped in Hc. apply in_map_iff in Hc. destruct Hc as ([a x] & <- & Hp). apply filter_In in Hp. now apply proj1, in_combine_r in Hp. Qed.
Lemma grouped_zlen {B} i (k : list Z) (u : list B) : length u = length k -> In i k -> 1 <= zlen (grouped i (combine k u)).
Proof. intros L Hi. rewrite len_grp by exact L. destruct (grp_ne i k Hi) as (j & l & ->). rewrite zlen_cons. pose proof (zlen_nonneg l). lia. Qed.
Lemma adm_any (g : list (list Z) -> Z) : adm cls_cubical g.
Proof. split; [|discriminate]. intros k k' E. apply keqb_eq in E. now subst. Qed.
Lemma cub_joins_ok dt t (y : cubc) k u N : 0 <= t -> dt_ok dt t -> torsion y = t -> length u = length k -> (forall c, In c u -> zlen c = N) ->
  forall is, (forall i, In i is -> In i k) -> exists res, cub_joins dt y is k u = Ok res /\
    match res with
    | None => forall g, eqm t (MJ is g (combine k u)) 0
    | Some gj => map fst gj = map (fun i => grp i k) is /\ forall g, eqm t (PA (map (fun p => data (snd p)) gj) g) (MJ is g (combine k u))
    end.
Proof.
  intros Ht Hdt Ty L HN. induction is as [|i is IH]; intros Hi.
  - exists (Some []). split; [reflexivity|]. split; [reflexivity|]. intros g. apply eqm_eq. unfold PA. cbn [map product_all]. rewrite sumf_cons, sumf_nil. cbn [map fold_right concat MJ]. ring.
  - cbn [cub_joins]. fold (grp i k). rewrite grp_get by exact L. cbn [bind]. set (key := grouped i (combine k u)).
    destruct (create_den cls_cubical ok_cubical dt t y [(key, 1)] Ht Hdt Ty) as (e & Ee & De).
    { split; [intros ? []|exact I]. } { intros k' _. eexists. reflexivity. }
    rewrite cub_attr in De. rewrite Ee. cbn [bind].
    assert (Ke : keys_in (fun k' => k' = key) e).
    { eapply (den_keys cls_cubical ok_cubical t tt _ e (fun k' => k' = key) Ht); [apply kpred_eq; intros k'; destruct (list_eq_dec (list_eq_dec Z.eq_dec) k' key); auto|exact De|].
      intros g _ H0. cbn beta. rewrite ev_cons, ev_nil. apply eqm_eq. rewrite (H0 key) by reflexivity. ring. }
    assert (H1 : 1 <= zlen key) by (apply grouped_zlen; [exact L|apply Hi; now left]).
    destruct (join_den dt t (zlen key) (tdeg cube_dim key) e Ht Hdt) as (j & Ej & Dj); [eapply den_wf; eauto|exact (proj1 De)|exact H1| | |].
    { intros k' v Hin. rewrite (Ke _ _ Hin). split; reflexivity. }
    { intros k' v Hin. rewrite (Ke _ _ Hin). intros c Hc. rewrite (HN c) by (eapply grouped_in; eauto). destruct key as [|c0 key'] eqn:EK; [destruct Hc|]. cbn [hd]. symmetry. apply HN. apply (grouped_in i k). fold key. rewrite EK. now left. }
    rewrite Ej. cbn [bind].
    assert (EV : forall G, eqm t (ev G (data j)) (Jg (fun b => G [b]) key)).
    { intros G. rewrite (den_ev _ _ _ _ _ _ Dj (adm_any G)). rewrite (den_ev _ _ _ _ _ _ De (adm_any (DJ G))). rewrite ev_cons, ev_nil. apply eqm_eq. unfold DJ, Jg. ring. }
    destruct (dempty (data j)) eqn:E0.
    + exists None. split; [reflexivity|]. intros g. cbn [MJ]. fold key. destruct (data j); [|discriminate].
      specialize (EV (fun v => MJ is (fun w => g (v ++ w)) (combine k u))). rewrite <- EV. reflexivity.
    + destruct IH as (res & Er & Hres); [intros; apply Hi; now right|]. rewrite Er. cbn [bind]. destruct res as [gj|].
      * destruct Hres as [Hf Hg]. eexists. split; [reflexivity|]. split; [cbn [map fst]; now rewrite Hf|]. intros g. cbn [map snd]. rewrite PA_cons. cbn [MJ]. fold key.
        rewrite (EV (fun key0 => PA (map (fun p => data (snd p)) gj) (fun w => g (key0 ++ w)))). apply Jg_eqm. intros b. exact (Hg (fun w => g ([b] ++ w))).
      * eexists. split; [reflexivity|]. intros g. cbn [MJ]. fold key. rewrite (Jg_eqm t _ (fun _ => 0)) by (intros; apply Hres). apply eqm_eq. now apply ev_zero.
Qed.
(** ** body *)
Definition HHC (r coord d : Z) (g : list (list Z) -> Z) (k : list Z) (w : list (list Z)) : Z :=
  sgn (tdeg cube_dim (slice_to w (coord - 1)) * d) * T1C r k (fun v => g (slice_to w (coord - 1) ++ v ++ slice_from w (coord + zlen k - 1))) (slice w (coord - 1) (coord + zlen k - 1)).
Lemma HHC_app r coord d g k l1 u l2 : zlen l1 = coord - 1 -> length u = length k -> HHC r coord d g k (l1 ++ u ++ l2) = sgn (tdeg cube_dim l1 * d) * T1C r k (fun v => g (l1 ++ v ++ l2)) u.
Proof.
  intros E L. unfold HHC. rewrite <- E. rewrite slice_to_app. rewrite (slice_mid l1 u l2) by (unfold zlen in *; lia). f_equal. f_equal.
  replace (slice_from (l1 ++ u ++ l2) (coord + zlen k - 1)) with l2; [reflexivity|]. symmetry. rewrite app_assoc. replace (coord + zlen k - 1) with (zlen (l1 ++ u)) by (rewrite zlen_app; unfold zlen in *; lia). apply slice_from_app.
Qed.
Definition midc (n e coord m : Z) (w : list (list Z)) : Prop := kdegC n e w /\ even_cubes (slice w (coord - 1) (coord + m - 1)).
Lemma forall_in_dec {B} (P : B -> Prop) : (forall b, P b \/ ~ P b) -> forall l, (forall b, In b l -> P b) \/ ~ (forall b, In b l -> P b).
Proof.
  intros D. induction l as [|b l IH]; [left; intros ? []|]. destruct (D b) as [Hb|Hb]; [|right; intros H; apply Hb, H; now left].
  destruct IH as [IH|IH]; [left; intros c [<-|Hc]; auto|right; intros H; apply IH; intros c Hc; apply H; now right].
Qed.
Lemma kpred_midc n e coord m : kpred (midc n e coord m).
Proof.
  apply kpred_eq. intros w. unfold midc. pose proof (kpred_kdegC n e) as [D _].
  destruct (D w) as [H|H]; [|right; tauto]. unfold even_cubes. destruct (forall_in_dec (fun c => zlen c = zlen (hd [] (slice w (coord - 1) (coord + m - 1)))) (fun c => match Z.eq_dec _ _ with left H => or_introl H | right H => or_intror H end) (slice w (coord - 1) (coord + m - 1))); tauto.
Qed.
Lemma even_serre t s u e : In (u, e) (serre t s) -> even_cubes u.
Proof.
  intros H c Hc. pose proof (serre_eqc _ _ _ _ (zlen s) eq_refl H) as HU. rewrite (proj1 (HU c Hc)). destruct u as [|c0 u]; [destruct Hc|]. cbn [hd]. symmetry. apply HU. now left.
Qed.
Lemma body_denC dt t r d n e coord (x : surj) (y : cubc) : 0 <= t -> dt_ok dt t -> 1 <= r -> 1 <= coord <= n ->
  wf cls_surj x -> torsion x = t -> keys_in (surj_cell r d) x -> data x <> [] -> wf cls_cubical y -> torsion y = t -> keys_in (kdegC n e) y -> data y <> [] ->
  returns (surj_call_cubical_body dt x y coord r d) (den cls_cubical t tt (fun g => ev (fun k => ev (fun K => PhiC r coord g k K) (data y)) (data x))).
Proof.
  intros Ht Hdt Hr Hc Wx Tx Kx Nx Wy Ty Ky Ny. unfold surj_call_cubical_body.
  assert (Hd : 0 <= r + d - 1).
  { destruct (data x) as [|[k v] l] eqn:E; [congruence|]. assert (Hk : surj_cell r d k) by (apply (Kx k v); rewrite E; now left). destruct Hk as [Ho Lk]. apply onto_ne in Ho; [|exact Hr].
    destruct k; [congruence|]. rewrite zlen_cons in Lk. pose proof (zlen_nonneg k). lia. }
  eapply returns_bind; [apply (zero_den cls_cubical ok_cubical dt t); auto|]. intros ans Hans. rewrite cub_attr in Hans.
  destruct (diagC_den dt t n e (r + d - 1) coord y Ht Hdt Wy Ty Ky Ny Hc Hd) as (pre & Ep & Dp).
  rewrite Ep. cbn [bind]. clear Ep.
  assert (Kp : keys_in (midc (n + (r + d - 1)) e coord (r + d)) pre).
  { eapply (den_keys cls_cubical ok_cubical t tt _ pre _ Ht (kpred_midc _ _ _ _) Dp). intros g _ H0. cbn beta. apply eqm_eq. apply ev_zero. intros K v HK. rewrite SdC_serre. apply ev_zero. intros w v' Hw. apply H0.
    split; [replace (n + (r + d - 1)) with (n + Z.of_nat (Z.to_nat (r + d - 1))) by lia; eapply (serre_at_deg n e); eauto; exact (Ky _ _ HK)|].
    unfold serre_at in Hw. apply in_flat_map in Hw. destruct Hw as ([[l1 s] l2] & Hs & Hw). destruct (Z.eqb_spec (zlen l1) (coord - 1)) as [E1|]; [|destruct Hw]. apply in_map_iff in Hw. destruct Hw as ([u e'] & [= <- _] & Hu).
    pose proof (serre_deg _ _ _ _ Hu) as [_ Lu]. rewrite slice_mid by lia. eapply even_serre; eauto. }
  eapply returns_mono.
  - apply (pair_loop_den cls_cubical ok_cubical t tt (data x) (data pre) _ (fun k w g => HHC r coord d g k w)); [|exact Hans].
    intros k v1 w v2 F z H1 H2 Hz. destruct (Kx _ _ H1) as [Ho Lk]. destruct (Kp _ _ H2) as [[Lw _] Ev]. assert (Nk : k <> []) by now apply (onto_ne r).
    assert (0 < zlen k) by (destruct k; [congruence|]; rewrite zlen_cons; pose proof (zlen_nonneg k); lia).
    replace (coord + (r + d) - 1) with (coord + zlen k - 1) in Ev by lia.
    destruct (cut3 w (coord - 1) (zlen k)) as (l1 & u & l2 & -> & E1 & E2); try lia. assert (L : length u = length k) by (unfold zlen in *; lia).
    rewrite slice_mid in Ev by lia.
    rewrite <- E1. rewrite slice_to_app.
    replace (slice (l1 ++ u ++ l2) (zlen l1) (coord + zlen k - 1)) with u by (symmetry; apply slice_mid; lia).
    replace (slice_from (l1 ++ u ++ l2) (coord + zlen k - 1)) with l2 by (symmetry; rewrite app_assoc; replace (coord + zlen k - 1) with (zlen (l1 ++ u)) by (rewrite zlen_app; lia); apply slice_from_app).
    rewrite (onto_max r k Hr Ho). cbn [bind].
    destruct (cub_joins_ok dt t y k u (zlen (hd [] u)) Ht Hdt Ty L Ev (zrange 1 (r + 1))) as (res & Er & Hres); [intros i Hi; apply in_zrange in Hi; apply Ho; lia|].
    rewrite Er. cbn [bind]. destruct res as [gj|].
    + destruct Hres as [Hf Hg]. cbn zeta.
      assert (LW : zlen (map (fun e0 : list Z => cube_dim e0 mod 2) u) = zlen k) by (rewrite zlen_map; exact E2).
      assert (ES : (if torsion x =? 2 then Ok 1 else let! s := compute_sign k (map (fun e0 => cube_dim e0 mod 2) u) in let! s' := cubical_sign r (map (fun e0 => cube_dim e0 mod 2) u) (map fst gj) in
            Ok (s * s' * sgn (zsum (map cube_dim l1) mod 2 * d)))
          = Ok (if t =? 2 then 1 else csg r (combine k u) * sgn (tdeg cube_dim l1 * d))).
      { rewrite Tx. destruct (t =? 2); [reflexivity|]. rewrite (compute_sign_ok r) by (exact Ho || exact LW). cbn [bind]. rewrite Hf, (cubical_sign_ok r) by (lia || exact Ho || (unfold zlen in LW; lia)). cbn [bind]. f_equal.
        assert (P1 : map fst (combine k (map (fun e0 : list Z => cube_dim e0 mod 2) u)) = map fst (cwt (combine k u))).
        { clear -L. revert u L. induction k as [|a k IH]; intros [|b u] L; try discriminate; [reflexivity|]. unfold cwt in *. cbn [map combine fst]. f_equal. apply IH. cbn in L. lia. }
        assert (P2 : map (fun x => snd x mod 2) (combine k (map (fun e0 : list Z => cube_dim e0 mod 2) u)) = map (fun x => snd x mod 2) (cwt (combine k u))).
        { clear -L. revert u L. induction k as [|a k IH]; intros [|b u] L; try discriminate; [reflexivity|]. unfold cwt in *. cbn [map combine fst snd]. f_equal; [apply Zmod_mod|]. apply IH. cbn in L. lia. }
        rewrite (aex_par r _ _ P1 P2), (jex_par r _ _ P1 P2). unfold csg. rewrite sgn_add. f_equal. change (zsum (map cube_dim l1)) with (tdeg cube_dim l1). apply sgn_eqm. now rewrite eqm_mod by lia. }
      rewrite ES. cbn [bind]. set (sg := if t =? 2 then 1 else _).
      assert (Ng : gj <> []) by (intros ->; rewrite (zrange_split 1 (r + 1) 1) in Hf by lia; rewrite zrange_nil in Hf by lia; discriminate).
      match goal with |- returns (match gj with nil => _ | _ :: _ => ?B end) _ => replace (match gj with nil => _ | _ :: _ => B end) with B by (destruct gj; [congruence|reflexivity]) end.
      eapply returns_mono.
      * apply (for_den cls_cubical t (product_all (map (fun p => data (snd p)) gj)) _ (fun pairs g => sg * fold_right Z.mul 1 (map snd pairs) * v1 * v2 * g (l1 ++ concat (map fst pairs) ++ l2)) tt); [|exact Hz].
        intros pairs F1 z1 _ Hz1. eapply (add_term_den cls_cubical ok_cubical dt t); eauto; [exact (proj1 Hz1)|eexists; reflexivity].
      * intros z2 Hz2. eapply den_ext; [|exact Hz2]. intros g Hgg. cbn beta. rewrite HHC_app by assumption. unfold T1C.
        specialize (Hg (fun v => g (l1 ++ v ++ l2))). unfold TC. rewrite <- Hg. unfold PA.
        rewrite (sumf_ext _ (fun pairs => (sg * v1 * v2) * (fold_right Z.mul 1 (map snd pairs) * g (l1 ++ concat (map fst pairs) ++ l2)))) by (intros; match goal with |- ?s * ?f * ?a * ?b * ?h = _ => change (s * f * a * b * h = s * a * b * (f * h)); generalize s f h; intros; ring end). rewrite sumf_scal. set (S0 := sumf _ _). unfold sg.
        destruct (Z.eqb_spec t 2) as [->|].
        -- unfold csg. rewrite (sgn_eqm2 (_ + _)), (sgn_eqm2 (tdeg cube_dim l1 * d)). apply eqm_eq. ring.
        -- apply eqm_eq. ring.
    + apply returns_ok. eapply den_ext; [|exact Hz]. intros g Hg. cbn beta. rewrite HHC_app by assumption. unfold T1C, TC. rewrite Hres. apply eqm_eq. ring.
  - intros z Hz. eapply den_ext; [|exact Hz]. intros g Hg. cbn beta. rewrite Z.add_0_l.
    apply ev_eqm. intros k v Hk. destruct (Kx _ _ Hk) as [Ho Lk]. assert (Nk : k <> []) by now apply (onto_ne r).
    rewrite (den_ev _ _ _ _ _ _ Dp (adm_any (HHC r coord d g k))). apply eqm_eq. apply ev_ext. intros K v' HK. destruct (Ky _ _ HK) as [Ln _].
    destruct (split_at K (coord - 1)) as (l1 & s & l2 & -> & E1); [lia|]. rewrite SdC_app, PhiC_app by exact E1. rewrite <- SC_scal.
    replace (Z.to_nat (r + d - 1)) with (length k - 1)%nat by (unfold zlen in *; lia). replace (zlen k - r) with d by lia.
    rewrite !SC_sum. apply ev_ext. intros u e' Hu. apply HHC_app; [exact E1|]. eapply len_sf; eauto.
Qed.
Lemma bil_actC dt t r d n e coord cv : 0 <= t -> dt_ok dt t -> 1 <= r -> 1 <= coord <= n ->
  bilop cls_surj cls_cubical cls_cubical t cv tt tt (surj_cell r d) (kdegC n e) (PhiC r coord) (fun x y => surj_call_cubical dt x y coord).
Proof.
  intros Ht Hdt Hr Hc x y Wx Tx Ax Kx Wy Ty Ay Ky. unfold surj_call_cubical.
  destruct (dempty (data x) || dempty (data y)) eqn:E0.
  - eapply returns_mono; [apply (zero_den cls_cubical ok_cubical dt t); auto|]. intros z Hz. rewrite Ay in Hz. eapply den_ext; [|exact Hz]. intros g _. apply eqm_eq.
    apply orb_true_iff in E0. destruct E0 as [E0|E0].
    + destruct (data x); [reflexivity|discriminate].
    + destruct (data y); [|discriminate]. symmetry. apply ev_zero. reflexivity.
  - apply orb_false_iff in E0. destruct E0 as [E1 E2]. assert (Nx : data x <> []) by (destruct (data x); [discriminate|congruence]). assert (Ny : data y <> []) by (destruct (data y); [discriminate|congruence]).
    unfold call_check. rewrite (surj_degree_ok r d) by assumption. rewrite (surj_arity_ok r) by (try assumption; intros k v Hin; apply (Kx _ _ Hin)). cbn [bind].
    unfold cub_arity. rewrite (tensor_arity_ok n) by (assumption || (intros k v Hin; exact (proj1 (Ky _ _ Hin)))).
    destruct (Z.ltb_spec n coord); [lia|]. rewrite Tx, Ty, Z.eqb_refl. cbn [negb bind fst snd]. now apply (body_denC dt t r d n e).
Qed.
