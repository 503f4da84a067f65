(** * The join is associative up to sign (C106) *)
From Coq Require Import Setoid Morphisms.
From Verif Require Import PyBase Dict FreeModule Symmetric Simplicial Cubical Utils Surjection Eqm Spec SpecChain SpecOperad SpecSurj SpecAction SpecCube SpecCubAction SpecTensor FreeModuleFacts FreeModuleLaws ListFacts
  ClassFacts LinearFacts BilFacts SymmetricFacts CycleFacts SymmetricLaws RingFacts Tensor TensorAct LoopFacts AW SimplicialFacts SimplicialDiag SimplicialLaws SurjFacts SurjBoundary SurjLaws
  SurjCompose SurjCompose2 SurjCompose3 SurjCompose4 SurjLaws6 ActFacts ActSign ActCore ActCode ActLaws OperadAct BEDiag ReprLaws CubicalFacts CubicalDiag CubicalJoin CubicalLaws CubActFacts CubActCore CubActCode CubActLaws IndepLaws TensLaws.

Lemma jj_two G b w : jj G b (2 :: w) = 0. Proof. destruct b; reflexivity. Qed.
Lemma sgn_par2 a b c : a = b + 2 * c -> sgn a = sgn b.
Proof. intros ->. rewrite sgn_add, sgn_mul_even by reflexivity. ring. Qed.
Lemma jj_assoc a : forall b c G, zlen a = zlen b -> zlen b = zlen c ->
  jj (fun v => jj G v c) a b = - sgn (cube_dim a) * jj (fun w => jj G a w) b c.
Proof.
  induction a as [|x a IH]; intros b c G L1 L2.
  - destruct b as [|y b]; [|rewrite zlen_nil, zlen_cons in L1; pose proof (zlen_nonneg b); lia]. cbn [jj]. ring.
  - destruct b as [|y b]; [rewrite zlen_nil, zlen_cons in L1; pose proof (zlen_nonneg a); lia|]. destruct c as [|z c]; [rewrite zlen_nil, zlen_cons in L2; pose proof (zlen_nonneg b); lia|].
    rewrite !zlen_cons in L1, L2. assert (La : zlen a = zlen b) by lia. assert (Lb : zlen b = zlen c) by lia.
    destruct (Z.eqb_spec z 2) as [->|Nz].
    { rewrite (jj_two _ (y :: b)). rewrite (jj_ext_all _ (fun _ => 0)) by (intros v; apply jj_two). rewrite jj_zero. ring. }
    destruct (Z.eqb_spec y 2) as [->|Ny].
    { rewrite (jj_two _ (x :: a)). rewrite (jj_2n _ b z c Nz). rewrite (jj_ext_all _ (fun _ => 0)) by (intros v; apply jj_two). rewrite jj_zero. ring. }
    rewrite (jj_nn (fun w => jj G (x :: a) w) y b z c Ny Nz). rewrite jj_two. rewrite cube_dim_cons.
    destruct (Z.eqb_spec x 2) as [->|Nx].
    + rewrite (jj_2n _ a y b Ny). rewrite (jj_ext_all (fun v => jj G (2 :: v) (z :: c)) (fun v => -1 * jj (fun u => G (2 :: u)) v c)) by (intros v; rewrite jj_2n by exact Nz; ring).
      rewrite (jj_ext_all (fun v => jj G (2 :: a) (y :: v)) (fun w => -1 * jj (fun u => G (2 :: u)) a w)) by (intros v; rewrite jj_2n by exact Ny; ring).
      rewrite !jj_scal, (IH b c _ La Lb). rewrite sgn_S'. set (X := jj _ b c). change (jj (jj (fun u => G (2 :: u)) a) b c) with X. ring.
    + rewrite (jj_nn _ x a y b Nx Ny). rewrite (jj_2n G b z c Nz).
      rewrite (jj_in (fun v => jj G (x :: v) (z :: c)) (fun v => jj (fun u => G (x :: u)) v c) a b La).
      2:{ intros v Dv. rewrite (jj_nn _ x v z c Nx Nz). destruct (e0_cases v) as [[E _]|[_ ->]]; [contradiction|ring]. }
      rewrite (jj_ext_all (fun v => jj G (x :: a) (y :: v)) (fun w => (e0 a * delta x y) * G (2 :: w) + 1 * jj (fun u => G (x :: u)) a w)) by (intros v; rewrite (jj_nn _ x a y v Nx Ny); ring).
      rewrite jj_lin, (IH b c _ La Lb). destruct (e0_cases a) as [[E ->]|[_ ->]].
      * rewrite E. change (sgn (0 + 0)) with 1. change (sgn 0) with 1. set (X := jj (fun w => jj (fun u => G (x :: u)) a w) b c). change (jj (jj (fun u => G (x :: u)) a) b c) with X. ring.
      * replace (sgn (0 + cube_dim a)) with (sgn (cube_dim a)) by reflexivity. set (X := jj (fun w => jj (fun u => G (x :: u)) a w) b c). change (jj (jj (fun u => G (x :: u)) a) b c) with X. ring.
Qed.
(** the values of [jj] have known length and dimension *)
Lemma jj_in2 G G' c1 c2 : zlen c1 = zlen c2 -> (forall v, zlen v = zlen c1 -> cube_dim v = cube_dim c1 + cube_dim c2 + 1 -> G v = G' v) -> jj G c1 c2 = jj G' c1 c2.
Proof. intros L E. rewrite <- !join2_jj. apply ev_ext. intros v e Hin. apply join2_len in Hin; [|exact L]. now apply E. Qed.
Definition allN (N : Z) (k : list (list Z)) : Prop := forall c, In c k -> zlen c = N.
Lemma allN_cons N c k : allN N (c :: k) -> zlen c = N /\ allN N k. Proof. intros H. split; [apply H; now left|intros c' Hc; apply H; now right]. Qed.
Lemma Jn_cons G c k b : Jn G (c :: k) b = jj (Jn G k) b c. Proof. cbn [Jn]. apply join2_jj. Qed.
Lemma Jn_app G k l b : Jn G (k ++ l) b = Jn (Jn G l) k b.
Proof. revert b. induction k as [|c k IH]; intros b; cbn [Jn app]; [reflexivity|]. apply ev_ext. intros v e _. apply IH. Qed.
Lemma Jn_in N : forall k b G G', zlen b = N -> allN N k ->
  (forall v, zlen v = N -> cube_dim v = cube_dim b + cube_degree k + zlen k -> G v = G' v) -> Jn G k b = Jn G' k b.
Proof.
  induction k as [|c k IH]; intros b G G' Lb Hk E; cbn [Jn].
  - apply E; [exact Lb|]. change (cube_degree []) with 0. change (zlen (@nil (list Z))) with 0. lia.
  - destruct (allN_cons _ _ _ Hk) as [Lc Hk']. apply ev_ext. intros v e Hin. apply join2_len in Hin; [|congruence]. destruct Hin as [Lv Dv]. apply IH; [congruence|exact Hk'|].
    intros w Lw Dw. apply E; [exact Lw|]. rewrite Dw, Dv, zlen_cons. rewrite !cdeg in *. rewrite tdeg_cons. lia.
Qed.
Lemma Jn_scal n G k : forall b, Jn (fun v => n * G v) k b = n * Jn G k b.
Proof. induction k as [|c k IH]; intros b; cbn [Jn]; [reflexivity|]. rewrite <- ev_scal. apply ev_ext. intros v e _. apply IH. Qed.
Lemma Jn_ev {B} (G : list Z -> B -> Z) (D : dict B) k : forall b, Jn (fun v => ev (G v) D) k b = ev (fun u => Jn (fun v => G v u) k b) D.
Proof. induction k as [|c k IH]; intros b; cbn [Jn]; [reflexivity|]. rewrite ev_exch. apply ev_ext. intros v e _. apply IH. Qed.
Lemma Jn_jj (G : list Z -> list Z -> Z) k b c1 c2 : Jn (fun v => jj (G v) c1 c2) k b = jj (fun u => Jn (fun v => G v u) k b) c1 c2.
Proof.
  revert b. induction k as [|c k IH]; intros b; cbn [Jn]; [reflexivity|]. rewrite (ev_ext _ (fun w => jj (fun u => Jn (fun v => G v u) k w) c1 c2)) by (intros w e _; apply IH).
  rewrite <- join2_jj. rewrite ev_exch. apply ev_ext. intros w e _. now rewrite join2_jj.
Qed.
Lemma Jn_split N : forall k b c G, zlen b = N -> zlen c = N -> allN N k ->
  Jn G (c :: k) b = sgn (zlen k * (cube_dim b + 1)) * Jn (fun v => jj G b v) k c.
Proof.
  induction k as [|c' k IH]; intros b c G Lb Lc Hk.
  - rewrite Jn_cons. cbn [Jn]. change (zlen (@nil (list Z))) with 0; rewrite Z.mul_0_l. change (sgn 0) with 1. rewrite (jj_ext_all (Jn G []) G) by reflexivity. ring.
  - destruct (allN_cons _ _ _ Hk) as [Lc' Hk']. rewrite Jn_cons.
    rewrite (jj_in2 (Jn G (c' :: k)) (fun v => sgn (zlen k * (cube_dim b + cube_dim c + 1 + 1)) * Jn (fun w => jj G v w) k c') b c ltac:(congruence)).
    2:{ intros v Lv Dv. rewrite (IH v c' G ltac:(congruence) Lc' Hk'). now rewrite Dv. }
    rewrite jj_scal. rewrite (IH c c' (fun v => jj G b v) Lc Lc' Hk').
    rewrite (Jn_in N k c' (fun v => jj (fun v0 => jj G b v0) c v) (fun v => (- sgn (cube_dim b)) * jj (fun u => jj G u v) b c) Lc' Hk').
    2:{ intros v Lv _. rewrite (jj_assoc b c v G ltac:(congruence) ltac:(congruence)). pose proof (sgn_sq (cube_dim b)) as S2. replace (- sgn (cube_dim b) * (- sgn (cube_dim b) * jj (fun w => jj G b w) c v)) with ((sgn (cube_dim b) * sgn (cube_dim b)) * jj (fun w => jj G b w) c v) by ring. rewrite S2. ring. }
    rewrite Jn_scal. rewrite (Jn_jj (fun v u => jj G u v)). rewrite zlen_cons.
    set (X := jj _ b c). rewrite !Z.mul_assoc. f_equal. replace (- sgn (cube_dim b)) with (sgn (1 + cube_dim b)) by (rewrite sgn_S'; reflexivity). rewrite <- !sgn_add.
    apply (sgn_par2 _ _ (- (cube_dim b + 1))). replace (zlen k * (cube_dim b + cube_dim c + 1 + 1)) with (zlen k * (cube_dim b + 1) + zlen k * (cube_dim c + 1)) by ring.
    ring.
Qed.
Definition kN (N n d : Z) (k : list (list Z)) : Prop := zlen k = n /\ tdeg cube_dim k = d /\ allN N k.
Lemma kpred_kN N n d : kpred (kN N n d). 
Proof.
  apply kpred_eq. intros k. unfold kN. destruct (Z.eq_dec (zlen k) n) as [L|L]; [|right; now intros (? & _)]. destruct (Z.eq_dec (tdeg cube_dim k) d) as [D|D]; [|right; now intros (_ & ? & _)].
  destruct (forallb (fun c => zlen c =? N) k) eqn:F.
  - left. split; [exact L|]. split; [exact D|]. intros c Hc. rewrite forallb_forall in F. now apply Z.eqb_eq, F.
  - right. intros (_ & _ & H). apply not_true_iff_false in F. apply F. apply forallb_forall. intros c Hc. apply Z.eqb_eq, H, Hc.
Qed.
Lemma kN_kdeg N n d k : kN N n d k -> kdegC n d k. Proof. intros (L & D & _). now split. Qed.
Lemma kN_even N n d k : kN N n d k -> even_cubes k.
Proof. intros (L & D & H) c Hc. rewrite (H c Hc). destruct k as [|c' k]; [destruct Hc|]. symmetry. apply H. now left. Qed.
Lemma DJ_Jn g c k : DJ g (c :: k) = Jn (fun b => g [b]) k c. Proof. unfold DJ. apply joins_Jn. Qed.
Lemma joinsN_in N : forall c k b e, allN N (c :: k) -> In (b, e) (SpecCube.joins (c :: k)) -> zlen b = N /\ cube_dim b = tdeg cube_dim (c :: k) + zlen k.
Proof.
  intros c k b e H. unfold SpecCube.joins. destruct (allN_cons _ _ _ H) as [Lc Hk].
  assert (G : forall acc D, (forall b e, In (b, e) acc -> zlen b = N /\ cube_dim b = D) -> forall b e, In (b, e) (fold_left (fun acc c' => flat_map (fun '(b, e) => map (fun '(b', e') => (b', e * e')) (join2 b c')) acc) k acc) -> zlen b = N /\ cube_dim b = D + tdeg cube_dim k + zlen k).
  { clear H. induction k as [|c' k IH]; intros acc D HA b0 e0 Hin; cbn [fold_left] in Hin.
    - destruct (HA _ _ Hin) as [? ->]. split; [assumption|]. change (tdeg cube_dim []) with 0. change (zlen (@nil (list Z))) with 0. lia.
    - destruct (allN_cons _ _ _ Hk) as [Lc' Hk']. rewrite tdeg_cons, zlen_cons. apply (IH Hk' _ (D + cube_dim c' + 1)) in Hin; [destruct Hin as [? ->]; split; [assumption|lia]|].
      intros b1 e1 H1. apply in_flat_map in H1. destruct H1 as ([b2 e2] & H2 & H1). apply in_map_iff in H1. destruct H1 as ([b3 e3] & [= <- _] & H3). destruct (HA _ _ H2) as [L2 D2]. apply join2_len in H3; [|congruence]. destruct H3 as [? D3]. split; [congruence|lia]. }
  intros Hin. apply (G [(c, 1)] (cube_dim c)) in Hin; [destruct Hin as [? ->]; split; [assumption|rewrite tdeg_cons; lia]|]. intros b1 e1 [[= <- _]|[]]. now split.
Qed.
Lemma rep_DJN N n d : 1 <= n -> rep (kN N n d) (kN N 1 (d + n - 1)) DJ.
Proof.
  intros Hn k (L & D & H). destruct k as [|c k]; [rewrite zlen_nil in L; lia|]. exists (map (fun '(b, e) => ([b], e)) (SpecCube.joins (c :: k))). split.
  - intros k' v Hin. apply in_map_iff in Hin. destruct Hin as ([b e] & [= <- <-] & Hin). apply (joinsN_in N) in Hin; [|exact H]. destruct Hin as [Lb Db]. split; [reflexivity|]. split.
    + rewrite tdeg_cons. change (tdeg cube_dim []) with 0. rewrite zlen_cons in L. lia.
    + intros c' [<-|[]]. exact Lb.
  - intros g. unfold DJ, ev. rewrite sumf_map. apply sumf_ext. intros [b e] _. reflexivity.
Qed.
Lemma linop_joinN dt t N n d : 0 <= t -> dt_ok dt t -> 1 <= n -> linop cls_cubical cls_cubical t tt tt (kN N n d) (kN N 1 (d + n - 1)) DJ (cub_join dt).
Proof.
  intros Ht Hdt Hn. apply (linop_intro cls_cubical cls_cubical ok_cubical); auto using kpred_kN.
  - apply rep_local. now apply rep_DJN.
  - apply (rep_zero _ _ _ (rep_DJN N n d Hn)).
  - intros x Wx Tx _ Kx. apply (join_den dt t n d); auto; intros k v Hin; [eapply kN_kdeg|eapply kN_even]; apply (Kx _ _ Hin).
Qed.
Lemma allN_app N k l : allN N (k ++ l) <-> allN N k /\ allN N l.
Proof. split; [intros H; split; intros c Hc; apply H, in_app_iff; auto|intros [H1 H2] c Hc; apply in_app_iff in Hc; destruct Hc; auto]. Qed.
Lemma bil_tensorN dt t N n d n' d' : 0 <= t -> bilop cls_cubical cls_cubical cls_cubical t tt tt tt (kN N n d) (kN N n' d') (fun g k l => g (k ++ l)) (cub_tensor dt).
Proof.
  intros Ht x y Wx Tx Ax Kx Wy Ty Ay Ky. apply (bil_tensor cls_cubical ok_cubical cub_ok cube_dim dt t n d n' d' Ht x y Wx Tx Ax (fun k v H => kN_kdeg _ _ _ _ (Kx k v H)) Wy Ty Ay (fun k v H => kN_kdeg _ _ _ _ (Ky k v H))).
Qed.
Lemma rep_tensorN N n d n' d' : rep2 (kN N n d) (kN N n' d') (kN N (n + n') (d + d')) (fun g k l => g (k ++ l)).
Proof.
  intros k l (L1 & D1 & A1) (L2 & D2 & A2). exists [(k ++ l, 1)]. split.
  - intros w v [[= <- _]|[]]. split; [rewrite zlen_app; lia|]. split; [rewrite tdeg_app; lia|]. now apply allN_app.
  - intros g. rewrite ev_cons, ev_nil. ring.
Qed.
(** a bilinear operation followed by a linear one *)
Lemma bilop_lin {K1 A1 K2 A2 K A K' A'} `{KO1 : KeyOk K1} `{KO2 : KeyOk K2} `{KO : KeyOk K} `{KO' : KeyOk K'} (c1 : pycls K1) (c2 : pycls K2) (c : pycls K) (c' : pycls K') (Hc1 : cls_ok c1) (Hc : cls_ok c) (Hc' : cls_ok c')
  t (a1 : A1) (a2 : A2) (a : A) (a' : A') P1 P2 Q Q' Phi D f l : 0 <= t -> kpred Q -> bilop c1 c2 c t a1 a2 a P1 P2 Phi f -> rep2 P1 P2 Q Phi -> linop c c' t a a' Q Q' D l -> admop c c' Q Q' D ->
  bilop c1 c2 c' t a1 a2 a' P1 P2 (fun g k l => Phi (D g) k l) (fun x y => let! z := f x y in l z).
Proof.
  intros Ht KQ Bf R Ll HA x y Wx Tx Ax Kx Wy Ty Ay Ky.
  pose proof (linop_bilR c1 c2 c Hc t a1 a2 a P1 P2 Q Phi f Ht KQ Bf (rep2_local2 _ _ _ _ R) (rep2_zero _ _ _ _ R) y Wy Ty Ay Ky) as L1.
  eapply returns_mono; [apply (linop_comp c1 c c' Hc1 Hc Hc' t a1 a a' P1 Q Q' _ D _ l Ht KQ L1 Ll (DBR_local P1 P2 Q Phi (rep2_local2 _ _ _ _ R) y Ky) HA x Wx Tx Ax Kx)|].
  intros z [Dz _]. exact Dz.
Qed.
Lemma kN_iff N n d (x : cubc) : keys_in (fun k => zlen k = n /\ cube_degree k = d /\ forall c, In c k -> zlen c = N) x -> keys_in (kN N n d) x.
Proof. intros H k v Hin. destruct (H _ _ Hin) as (L & D & E). split; [exact L|]. split; [now rewrite <- cdeg|exact E]. Qed.
Lemma DJ_app N n n' d d' k l g : 1 <= n -> 1 <= n' -> kN N n d k -> kN N n' d' l ->
  DJ g (k ++ l) = DJ (fun u => DJ (fun v => sgn ((n' - 1) * (d + n)) * DJ g (u ++ v)) l) k.
Proof.
  intros Hn Hn' (L & D & A1) (L' & D' & A2). destruct k as [|c k]; [rewrite zlen_nil in L; lia|]. destruct l as [|c' l]; [rewrite zlen_nil in L'; lia|].
  rewrite zlen_cons in L, L'. cbn [app]. rewrite !DJ_Jn, Jn_app. destruct (allN_cons _ _ _ A1) as [Lc Hk]. destruct (allN_cons _ _ _ A2) as [Lc' Hl].
  apply (Jn_in N); [exact Lc|exact Hk|]. intros v Lv Dv. rewrite (Jn_split N l v c' _ Lv Lc' Hl). rewrite DJ_Jn, Jn_scal. f_equal.
  - apply f_equal. rewrite Dv, cdeg. rewrite tdeg_cons in D. f_equal; lia.
  - apply (Jn_in N); [exact Lc'|exact Hl|]. intros w _ _. cbn [app]. symmetry. apply DJ_pair.
Qed.
(** #C106_join# Joining the factors of x (x) y is, up to the sign (-1)^((m - 1)(|x| + n)), joining the join of x with the join of y. *)
Lemma C106_join_l (dt N n d m e : Z) (x y : cubc) :
  wf cls_cubical x -> wf cls_cubical y -> torsion y = torsion x -> dt_ok dt (torsion x) -> 1 <= n -> 1 <= m ->
  keys_in (fun k => zlen k = n /\ cube_degree k = d /\ forall c, In c k -> zlen c = N) x ->
  keys_in (fun k => zlen k = m /\ cube_degree k = e /\ forall c, In c k -> zlen c = N) y ->
  same (let! z := cub_tensor dt x y in cub_join dt z)
       (let! u := cub_join dt x in let! v := cub_join dt y in let! z := cub_tensor dt u v in let! w := cub_join dt z in
        scale dt cls_cubical (sgn ((m - 1) * (d + n))) w).
Proof.
  intros Wx Wy Ty Hdt Hn Hm Kx Ky. apply kN_iff in Kx, Ky. pose proof (proj1 Wx) as Ht.
  pose proof (linop_joinN dt (torsion x) N 2 (d + n - 1 + (e + m - 1)) Ht Hdt ltac:(lia)) as J2.
  pose proof (linop_after_scale cls_cubical cls_cubical ok_cubical dt (torsion x) tt tt _ _ _ _ (sgn ((m - 1) * (d + n))) Ht Hdt (kpred_kN _ _ _) J2) as J3.
  refine (bil_morphism cls_cubical cls_cubical cls_cubical cls_cubical cls_cubical cls_cubical ok_cubical ok_cubical ok_cubical ok_cubical ok_cubical (torsion x) tt tt tt tt tt tt
    (kN N n d) (kN N m e) (kN N (n + m) (d + e)) (kN N 1 (d + n - 1)) (kN N 1 (e + m - 1)) _ (fun _ => True) DJ DJ DJ (fun g k l => g (k ++ l)) (fun g k l => sgn ((m - 1) * (d + n)) * DJ g (k ++ l))
    (cub_join dt) (cub_join dt) (cub_join dt) (cub_tensor dt) (fun u v => let! z := cub_tensor dt u v in let! w := cub_join dt z in scale dt cls_cubical (sgn ((m - 1) * (d + n))) w) x y Ht (kpred_kN _ _ _) (kpred_kN _ _ _) (kpred_kN _ _ _)
    (linop_joinN dt _ N n d Ht Hdt Hn) (rep_DJN N n d Hn) (linop_joinN dt _ N m e Ht Hdt Hm) (rep_DJN N m e Hm) (bil_tensorN dt _ N n d m e Ht) (rep_tensorN N n d m e)
    (linop_joinN dt _ N (n + m) (d + e) Ht Hdt ltac:(lia)) (cub_admop _ _ _ _) _ _ _ _ Wx eq_refl (cub_attr x) Kx Wy Ty (cub_attr y) Ky).
  - refine (bilop_lin cls_cubical cls_cubical cls_cubical cls_cubical ok_cubical ok_cubical ok_cubical (torsion x) tt tt tt tt _ _ _ _ (fun g k l => g (k ++ l)) _ (cub_tensor dt) _ Ht (kpred_kN _ _ _) (bil_tensorN dt _ N 1 _ 1 _ Ht) (rep_tensorN N 1 _ 1 _) J3 (cub_admop _ _ _ _)).
  - intros g _. split; intros k _ _; apply admP_keyeq; intros k' _ [=].
  - intros g k _ _. apply admP_keyeq. intros k' _ [=].
  - intros g k l _ Hk Hl _ _. apply eqm_eq. cbn beta. apply (DJ_app N n m d e k l g Hn Hm Hk Hl).
Qed.
Lemma len_one {B} (k : list B) : zlen k = 1 -> exists c, k = [c].
Proof. destruct k as [|c [|c' k]]; [discriminate|now exists c|]. rewrite !zlen_cons. pose proof (zlen_nonneg k). lia. Qed.
(** #C106_associative# The binary join of elements of arity one is associative up to the sign -(-1)^|x|. *)
Lemma C106_associative_l (dt N d e f : Z) (x y z : cubc) :
  wf cls_cubical x -> wf cls_cubical y -> wf cls_cubical z -> torsion y = torsion x -> torsion z = torsion x -> dt_ok dt (torsion x) ->
  keys_in (fun k => zlen k = 1 /\ cube_degree k = d /\ forall c, In c k -> zlen c = N) x ->
  keys_in (fun k => zlen k = 1 /\ cube_degree k = e /\ forall c, In c k -> zlen c = N) y ->
  keys_in (fun k => zlen k = 1 /\ cube_degree k = f /\ forall c, In c k -> zlen c = N) z ->
  let join u v := let! w := cub_tensor dt u v in cub_join dt w in
  same (let! p := join x y in join p z) (let! q := join y z in let! r := join x q in scale dt cls_cubical (- sgn d) r).
Proof.
  intros Wx Wy Wz Ty Tz Hdt Kx Ky Kz. apply kN_iff in Kx, Ky, Kz. pose proof (proj1 Wx) as Ht. cbn zeta.
  assert (B : forall a b, bilop cls_cubical cls_cubical cls_cubical (torsion x) tt tt tt (kN N 1 a) (kN N 1 b) (fun g k l => DJ g (k ++ l)) (fun u v => let! w := cub_tensor dt u v in cub_join dt w)).
  { intros a b. refine (bilop_lin cls_cubical cls_cubical cls_cubical cls_cubical ok_cubical ok_cubical ok_cubical (torsion x) tt tt tt tt _ _ _ _ (fun g k l => g (k ++ l)) DJ (cub_tensor dt) (cub_join dt) Ht (kpred_kN N 2 (a + b)) (bil_tensorN dt _ N 1 a 1 b Ht) (rep_tensorN N 1 a 1 b) (linop_joinN dt _ N 2 (a + b) Ht Hdt ltac:(lia)) (cub_admop _ _ _ _)). }
  assert (B' : forall a b, bilop cls_cubical cls_cubical cls_cubical (torsion x) tt tt tt (kN N 1 a) (kN N 1 b) (fun g k l => - sgn d * DJ g (k ++ l)) (fun u v => let! w := (let! w := cub_tensor dt u v in cub_join dt w) in scale dt cls_cubical (- sgn d) w)).
  { intros a b u v Wu Tu Au Ku Wv Tv Av Kv. eapply returns_bind; [exact (B a b u v Wu Tu Au Ku Wv Tv Av Kv)|]. intros w Dw. eapply returns_mono; [apply (scale_den cls_cubical ok_cubical dt (torsion x) Ht Hdt tt _ (- sgn d) w Dw)|].
    intros r Dr. eapply den_ext; [|exact Dr]. intros g _. apply eqm_eq. cbn beta. rewrite <- ev_scal. apply ev_ext. intros k q _. now rewrite <- ev_scal. }
  assert (R : forall a b, rep2 (kN N 1 a) (kN N 1 b) (kN N 1 (a + b + 1)) (fun g k l => DJ g (k ++ l))).
  { intros a b k l (L1 & D1 & A1) (L2 & D2 & A2). destruct (rep_DJN N 2 (a + b) ltac:(lia) (k ++ l)) as (w & Hw & Ew).
    { split; [rewrite zlen_app; lia|]. split; [rewrite tdeg_app; lia|]. now apply allN_app. }
    exists w. split; [|exact Ew]. intros k' v Hv. replace (a + b + 1) with (a + b + 2 - 1) by lia. apply (Hw _ _ Hv). }
  assert (A : forall P1 P2 Q Phi, adm2 cls_cubical cls_cubical cls_cubical P1 P2 Q Phi). { intros P1 P2 Q Phi g _. split; intros k _ _; apply admP_keyeq; intros k' _ [=]. }
  refine (bilop_assoc cls_cubical cls_cubical cls_cubical cls_cubical cls_cubical cls_cubical ok_cubical ok_cubical ok_cubical (torsion x) tt tt tt tt tt tt
    (kN N 1 d) (kN N 1 e) (kN N 1 f) (kN N 1 (d + e + 1)) (kN N 1 (e + f + 1)) (kN N 1 (d + e + f + 2)) _ _ _ _ _ _ _ _ x y z Ht (kpred_kN _ _ _) (kpred_kN _ _ _) (B _ _) (R _ _) (B _ _) (A _ _ _ _) (B _ _) (R _ _) (B' d (e + f + 1)) (A _ _ _ _) _
    Wx eq_refl (cub_attr x) Kx Wy Ty (cub_attr y) Ky Wz Tz (cub_attr z) Kz).
  intros g k1 k2 k3 _ (L1 & D1 & A1) (L2 & D2 & A2) (L3 & D3 & A3) _ _ _. cbn beta.
  destruct (len_one k1 L1) as [c1 ->], (len_one k2 L2) as [c2 ->], (len_one k3 L3) as [c3 ->].
  cbn [app]. rewrite !DJ_pair. rewrite (jj_ext_all _ (fun v => jj (fun b => g [b]) v c3)) by (intros; apply DJ_pair).
  rewrite jj_assoc by (rewrite ?(A1 c1), ?(A2 c2), ?(A3 c3) by (now left); reflexivity). rewrite tdeg_cons in D1. change (tdeg cube_dim []) with 0 in D1. replace (cube_dim c1) with d by lia.
  rewrite jj_scal. apply eqm_eq. apply f_equal. apply jj_ext_all. intros v. symmetry. apply DJ_pair.
Qed.
(** #C106_example# *)
Example C106_example_l :
  let x : cubc := mkElt [([[2; 0; 0; 0; 0]; [0; 1; 1; 1; 1]], 2)] 0 tt in
  let y : cubc := mkElt [([[0; 0; 0; 0; 0]; [1; 1; 1; 1; 1]], 1)] 0 tt in
  wf cls_cubical x /\ wf cls_cubical y /\
  keys_in (fun k => zlen k = 2 /\ cube_degree k = 1 /\ forall c, In c k -> zlen c = 5) x /\
  exists u v w, cub_join 0 x = Ok u /\ cub_join 0 y = Ok v /\ (let! z := cub_tensor 0 u v in cub_join 0 z) = Ok w /\ ~ is_zero w.
Proof.
  cbv zeta. split; [now apply wfb_wf|]. split; [now apply wfb_wf|]. split.
  - intros k v [[= <- <-]|[]]. split; [reflexivity|]. split; [reflexivity|]. intros c [<-|[<-|[]]]; reflexivity.
  - eexists. eexists. eexists. split; [vm_compute; reflexivity|]. split; [vm_compute; reflexivity|]. split; [vm_compute; reflexivity|discriminate].
Qed.
