(** * Naturality: the operations on chains and cochains commute with maps of the vertices (C85) *)
From Coq Require Import Setoid Morphisms.
From Verif Require Import PyBase Dict FreeModule Symmetric Simplicial Utils Surjection Eqm Spec SpecChain SpecOperad SpecSurj SpecAction SpecCochain SpecCup SpecSimpCup SpecSquares SpecCupAlg SpecNat FreeModuleFacts FreeModuleLaws ListFacts
  ClassFacts LinearFacts BilFacts SymmetricFacts CycleFacts SymmetricLaws RingFacts Tensor TensorAct KoszulFacts LoopFacts AW SimplicialFacts SimplicialDiag SimplicialLaws SurjFacts SurjBoundary SurjLaws ActFacts ActSign ActCore ActCode ActLaws SurjMay SurjCompose SteenrodAct SimpCupLaws SqHtpy SqCartan SqAct SqLaws CupAlgLaws.

(** ** Formal sums and values *)
Notation key := (list (list Z)).
Lemma coef_sum (g : key -> Z) (L : list (key * Z)) (D : list key) : NoDup D -> (forall p, In p L -> In (fst p) D) -> ev g L = sumf (fun k => coef L k * g k) D.
Proof.
  intros Nd. induction L as [|[k v] L IH]; intros HD.
  - symmetry. apply sumf_0. intros k _. unfold coef. cbn. ring.
  - rewrite ev_cons, IH by (intros p Hp; apply HD; now right). clear IH.
    rewrite (sumf_ext (fun k0 => coef ((k, v) :: L) k0 * g k0) (fun k0 => (if list_eq_dec (list_eq_dec Z.eq_dec) k k0 then v * g k else 0) + coef L k0 * g k0)).
    2:{ intros k0 _. unfold coef. cbn [map fst snd]. change (zsum (?a :: ?l)) with (a + zsum l). destruct (list_eq_dec (list_eq_dec Z.eq_dec) k k0) as [<-|N]; [rewrite keqb_refl; ring|]. destruct (keqb k k0) eqn:E; [apply keqb_eq in E; contradiction|ring]. }
    rewrite sumf_add. f_equal. specialize (HD (k, v) ltac:(now left)). cbn [fst] in HD. clear -Nd HD. induction Nd as [|k0 D N0 Nd IH]; [destruct HD|]. rewrite sumf_cons. destruct (list_eq_dec (list_eq_dec Z.eq_dec) k k0) as [<-|N].
    + rewrite sumf_0; [ring|]. intros k1 H1. destruct (list_eq_dec (list_eq_dec Z.eq_dec) k k1); [congruence|reflexivity].
    + rewrite <- IH; [ring|]. destruct HD; [congruence|auto].
Qed.
Lemma rep_ev (y : simp) L g : wf cls_simplicial y -> represents cls_simplicial y L -> adm cls_simplicial g -> eqm (torsion y) (ev g (data y)) (ev g L).
Proof.
  intros Wy R [_ Hg]. set (D := nodup (list_eq_dec (list_eq_dec Z.eq_dec)) (dkeys (data y) ++ dkeys L)).
  assert (HD : forall p, In p (data y) \/ In p L -> In (fst p) D) by (intros p Hp; apply nodup_In, in_or_app; destruct Hp; [left|right]; now apply in_map).
  assert (N : NoDup D) by apply NoDup_nodup. transitivity (sumf (fun k => coef (data y) k * g k) D); [apply eqm_eq, (coef_sum g (data y) D N); auto|]. transitivity (sumf (fun k => coef L k * g k) D); [|apply eqm_eq; symmetry; apply (coef_sum g L D N); auto]. apply sumf_eqm. intros k _.
  assert (Hb : bad cls_simplicial k = Ok (existsb spx_is_degenerate k)) by reflexivity. destruct (existsb spx_is_degenerate k); [rewrite (Hg k Hb), !Z.mul_0_r; reflexivity|].
  assert (E : eqm (torsion y) (coef (data y) k) (coef L k)); [|now rewrite E]. specialize (R k Hb). rewrite (coef_ev (data y)), dget_ind; [exact R|]. apply (proj2 Wy).
Qed.
Definition anyk (k : list (list Z)) : Prop := True.
Lemma kpred_anyk : kpred anyk. Proof. apply kpred_eq. intros k. now left. Qed.
Section Nat.
Variable f : Z -> Z.
Definition im (g : key -> Z) (k : key) : Z := g (relabel f k).
Lemma deg_map s : spx_is_degenerate s = true -> spx_is_degenerate (map f s) = true.
Proof.
  intros Hs. destruct s as [|v s]; [reflexivity|]. destruct (deg_split (v :: s) ltac:(discriminate) Hs) as (l1 & w & l2 & E). rewrite E, map_app. cbn [map]. apply dup_deg.
Qed.
Lemma adm_im g : adm cls_simplicial g -> adm cls_simplicial (im g).
Proof.
  intros [_ Hg]. split; [intros k k' E; apply keqb_eq in E; now subst|]. intros k Hb. apply Hg. injection Hb as Hb. cbn [bad cls_simplicial]. f_equal. apply existsb_exists in Hb. destruct Hb as (s & Hs & D). apply existsb_exists. exists (map f s). split; [now apply in_map|now apply deg_map].
Qed.
Lemma ev_im (x : simp) g : ev g (extend (fun k => [(relabel f k, 1)]) x) = ev (im g) (data x).
Proof. rewrite ev_extend. apply ev_ext_all. intros k. rewrite ev_cons, ev_nil. unfold im. ring. Qed.
Lemma im_den x y : is_image f x y -> den cls_simplicial (torsion x) tt (fun g => ev (im g) (data x)) y.
Proof.
  intros (Wy & Ty & R). rewrite <- Ty. split; [reflexivity|]. split; [apply s_attr'|]. split; [apply Wy|]. intros g Hg. rewrite (rep_ev y _ g Wy R Hg). apply eqm_eq. apply ev_im.
Qed.
Lemma den_im x y : 0 <= torsion x -> den cls_simplicial (torsion x) tt (fun g => ev (im g) (data x)) y -> is_image f x y.
Proof.
  intros Ht Dy. destruct (den_gives cls_simplicial ok_simplicial (torsion x) tt _ (Ok y) (extend (fun k => [(relabel f k, 1)]) x) Ht (returns_ok _ _ Dy)) as (z & [= <-] & W & T & _ & R).
  - intros g _. apply eqm_eq. symmetry. apply ev_im.
  - split; [exact W|]. split; [exact T|exact R].
Qed.
Lemma den_im2 t F (x' y' : simp) : 0 <= t -> den cls_simplicial t tt F x' -> den cls_simplicial t tt (fun g => F (im g)) y' -> is_image f x' y'.
Proof.
  intros Ht Dx Dy. pose proof Dx as (Tx & _). subst t. apply den_im; [exact Ht|]. eapply den_ext; [|exact Dy]. intros g Hg. cbn beta. symmetry. apply (den_ev cls_simplicial _ tt _ x' _ Dx (adm_im g Hg)).
Qed.
Definition nat_keys (P : key -> Prop) : Prop := forall k, P k -> P (relabel f k).
Lemma im_keys P x y : kpred P -> nat_keys P -> wf cls_simplicial x -> keys_in P x -> is_image f x y -> keys_in P y.
Proof.
  intros KP NP Wx Kx I. apply (den_keys cls_simplicial ok_simplicial (torsion x) tt _ y P (proj1 Wx) KP (im_den x y I)). intros g _ H0. apply eqm_eq. apply ev_zero. intros k v Hk. apply H0, NP. eapply Kx; eauto.
Qed.
Lemma nat_linop (P Q : key -> Prop) D (op : simp -> res simp) (x y : simp) : kpred P -> nat_keys P -> linop cls_simplicial cls_simplicial (torsion x) tt tt P Q D op -> admop cls_simplicial cls_simplicial P Q D ->
  (forall g k, P k -> D g (relabel f k) = D (im g) k) -> wf cls_simplicial x -> keys_in P x -> is_image f x y -> exists x' y', op x = Ok x' /\ op y = Ok y' /\ is_image f x' y'.
Proof.
  intros KP NP L A N Wx Kx I. pose proof (proj1 Wx) as Ht. pose proof (im_keys P x y KP NP Wx Kx I) as Ky. pose proof I as (Wy & Ty & _).
  destruct (L x Wx eq_refl (s_attr' x) Kx) as (x' & Ex & Dx & _). destruct (L y Wy Ty (s_attr' y) Ky) as (y' & Ey & Dy & _). exists x', y'. split; [exact Ex|]. split; [exact Ey|].
  assert (Tx' : torsion x' = torsion x) by exact (proj1 Dx). apply den_im; [change (0 <= torsion x'); rewrite Tx'; exact Ht|]. change (den cls_simplicial (torsion x') tt (fun g => ev (im g) (data x')) y'). rewrite Tx'. eapply den_ext; [|exact Dy]. intros g Hg. cbn beta.
  rewrite (den_ev cls_simplicial _ tt _ x' _ Dx (adm_im g Hg)).
  rewrite (den_ev_on cls_simplicial ok_simplicial (torsion x) tt _ y P (D g) (map (relabel f) (dkeys (data x))) KP (im_den x y I) Ky (A g (adm_admP cls_simplicial Q g Hg))).
  - apply eqm_eq. apply ev_ext. intros k v Hk. apply N. eapply Kx; eauto.
  - intros h Eh. apply eqm_eq. apply ev_ext. intros k v Hk. unfold im. apply Eh; [apply NP; eapply Kx; eauto|]. apply in_map. now apply (in_map fst) in Hk.
Qed.
(** ** The operators commute with relabelling *)
Lemma dim_map s : spx_dim (map f s) = spx_dim s. Proof. unfold spx_dim. now rewrite zlen_map. Qed.
Lemma tdeg_rel k : tdeg spx_dim (relabel f k) = tdeg spx_dim k.
Proof. induction k as [|s k IH]; [reflexivity|]. cbn [relabel map]. rewrite !tdeg_cons, dim_map. change (map (map f) k) with (relabel f k). now rewrite IH. Qed.
Lemma nat_kdeg n e : nat_keys (kdegS n e). Proof. intros k [L T]. split; [unfold relabel; now rewrite zlen_map|now rewrite tdeg_rel]. Qed.
Lemma nat_fdS g s : fdS g (map f s) = fdS (fun s' => g (map f s')) s.
Proof. revert g. induction s as [|v s IH]; intros g; [reflexivity|]. cbn [map]. rewrite !fdS_cons, IH. reflexivity. Qed.
Lemma nat_tDS g k : tDS g (relabel f k) = tDS (im g) k.
Proof.
  revert g. induction k as [|s k IH]; intros g; [reflexivity|]. cbn [relabel map]. change (map (map f) k) with (relabel f k). rewrite !tD_cons, dim_map, IH. rewrite nat_fdS. reflexivity.
Qed.
Lemma nat_aw (H : list Z -> list Z -> Z) s : aw H (map f s) = aw (fun a b => H (map f a) (map f b)) s.
Proof. revert H. induction s as [|v s IH]; intros H; [reflexivity|]. cbn [map]. rewrite !aw_cons, IH. reflexivity. Qed.
Lemma nat_S t G s : AW.S t G (map f s) = AW.S t (fun u => G (relabel f u)) s.
Proof. revert G s. induction t as [|t IH]; intros G s; [reflexivity|]. cbn [AW.S]. rewrite nat_aw. apply aw_ext. intros l1 a l2 _. rewrite IH. reflexivity. Qed.
Lemma rel_app a b : relabel f (a ++ b) = relabel f a ++ relabel f b. Proof. apply map_app. Qed.
Lemma nat_at_pos j F k : at_pos j F (relabel f k) = at_pos j (fun l1 s l2 => F (relabel f l1) (map f s) (relabel f l2)) k.
Proof.
  revert j F. induction k as [|s k IH]; intros j F; [reflexivity|]. destruct (Z_lt_dec j 0) as [L|L].
  - unfold at_pos. rewrite !sumf_0; [reflexivity| |]; intros [[l1 b] l2] _; pose proof (zlen_nonneg l1); destruct (Z.eqb_spec (zlen l1) j); (lia || reflexivity).
  - destruct (Z.lt_ge_cases j (zlen (s :: k))) as [L'|L'].
    + destruct (split_at (s :: k) j ltac:(lia)) as (l1 & b & l2 & -> & E). rewrite rel_app. cbn [relabel map]. rewrite !at_pos_app; [reflexivity|exact E|unfold relabel; now rewrite zlen_map].
    + rewrite !at_pos_none; [reflexivity|exact L'|unfold relabel; rewrite zlen_map; exact L'].
Qed.
Lemma nat_Sd t coord g k : Sd t coord g (relabel f k) = Sd t coord (im g) k.
Proof.
  unfold Sd. rewrite nat_at_pos. unfold at_pos. apply sumf_ext. intros [[l1 s] l2] _. destruct (zlen l1 =? coord - 1); [|reflexivity]. rewrite nat_S. apply S_ext. intros u. unfold im. now rewrite !rel_app.
Qed.
Lemma joined_rel i k u : joined i (combine k (relabel f u)) = map f (joined i (combine k u)).
Proof.
  revert u. induction k as [|a k IH]; intros [|b u]; try reflexivity. cbn [relabel map combine]. change (map (map f) u) with (relabel f u). rewrite !joined_cons, IH, map_app. destruct (a =? i); reflexivity.
Qed.
Lemma wt_rel k u : wt (combine k (relabel f u)) = wt (combine k u).
Proof. revert u. induction k as [|a k IH]; intros [|b u]; try reflexivity. cbn [relabel map combine]. change (map (map f) u) with (relabel f u). rewrite !wt_cons, IH, dim_map. reflexivity. Qed.
Lemma nat_Phi r coord g w k : Phi r coord g w (relabel f k) = Phi r coord (im g) w k.
Proof.
  rewrite !Phi_at, nat_at_pos. unfold at_pos. apply sumf_ext. intros [[l1 s] l2] _. destruct (zlen l1 =? coord - 1); [|reflexivity]. rewrite nat_S, tdeg_rel. f_equal. apply S_ext. intros u. unfold T1. rewrite wt_rel. f_equal.
  unfold im. rewrite !rel_app. f_equal. f_equal. f_equal. unfold joins, relabel. rewrite map_map. apply map_ext. intros i. apply joined_rel.
Qed.
Lemma lab_rel p k j : lab p (relabel f k) j = map f (lab p k j).
Proof. unfold lab, znth, relabel. exact (map_nth (map f) k [] (Z.to_nat (posn p j - 1))). Qed.
Lemma nat_kact g p k : kact spx_dim g p (relabel f k) = kact spx_dim (im g) p k.
Proof.
  unfold kact. f_equal.
  - f_equal. apply kinv_ext. intros j _. now rewrite lab_rel, dim_map.
  - unfold im. f_equal. unfold placef, relabel. rewrite map_map. apply map_ext. intros j. apply lab_rel.
Qed.
Lemma pull_deg m a : cochain m a -> cochain m (pull_back f a).
Proof. intros [H1 H2]. split; [intros l1 v l2; unfold pull_back; rewrite map_app; apply H1|]. intros s Hs. apply H2. now rewrite zlen_map. Qed.
Lemma pair_im a b k : im (simp_pair a b) k = simp_pair (pull_back f a) (pull_back f b) k.
Proof. unfold im. destruct k as [|x [|y [|z k]]]; reflexivity. Qed.
Lemma nat_cupf a b s : cupf (pull_back f a) (pull_back f b) s = cupf a b (map f s).
Proof. unfold cupf. rewrite nat_aw. reflexivity. Qed.
Lemma nat_Sqv k m a s : Sqv k m (pull_back f a) s = Sqv k m a (map f s).
Proof.
  unfold Sqv. destruct (m - k <? 0); [reflexivity|]. unfold sq0, U. change [map f s] with (relabel f [s]). apply FpS_ext; [lia|]. intros w _. rewrite nat_Phi. unfold Phi. apply ev_ext_all. intros K. symmetry. apply pair_im.
Qed.
End Nat.
(** #C85_image# Every chain has an image under every map f of vertices, unique up to
    ==; images compose, and the identity map changes nothing. *)
Lemma C85_image_l (f g : Z -> Z) (x : simp) : wf cls_simplicial x ->
  (exists y, is_image f x y) /\ (forall y y', is_image f x y -> is_image f x y' -> same (Ok y) (Ok y')) /\
  (forall y z, is_image f x y -> is_image g y z -> is_image (fun v => g (f v)) x z) /\ is_image (fun v => v) x x.
Proof.
  intros Wx. pose proof (proj1 Wx) as Ht. assert (Hdt : dt_ok 0 (torsion x)) by (split; [lia|now left]). split; [|split; [|split]].
  - destruct (zero_den cls_simplicial ok_simplicial 0 (torsion x) x Ht Hdt eq_refl) as (z & Ez & Dz).
    destruct (for_den cls_simplicial (torsion x) (data x) (fun y kv => add_term 0 cls_simplicial x y (relabel f (fst kv)) (snd kv)) (fun kv g => snd kv * g (relabel f (fst kv))) (attr x)) with (F := fun _ : key -> Z => 0) (y := z) as (y & Ey & Dy).
    + intros [k v] F y _ Dy. apply (add_term_den cls_simplicial ok_simplicial 0 (torsion x) Ht Hdt); auto. exists (existsb spx_is_degenerate (relabel f k)). reflexivity.
    + exact Dz.
    + exists y. apply den_im; [exact Ht|]. rewrite <- (s_attr' x). eapply den_ext; [|exact Dy]. intros h _. apply eqm_eq. reflexivity.
  - intros y y' I I'. eapply (same_den cls_simplicial ok_simplicial (torsion x) tt); [exact Ht|apply returns_ok, im_den; exact I|apply returns_ok, im_den; exact I'|]. intros h _. reflexivity.
  - intros y z I I'. apply den_im; [exact Ht|]. pose proof (im_den g y z I') as Dz. pose proof I as (_ & Ty & _). rewrite Ty in Dz. eapply den_ext; [|exact Dz]. intros h Hh. cbn beta. rewrite (den_ev cls_simplicial _ tt _ y _ (im_den f x y I) (adm_im g h Hh)). apply eqm_eq. apply ev_ext_all. intros k. unfold im, relabel. rewrite map_map. f_equal. apply map_ext. intros s. apply map_map.
  - apply den_im; [exact Ht|]. rewrite <- (s_attr' x). eapply den_ext; [|apply (den_self cls_simplicial x Wx)]. intros h _. apply eqm_eq. apply ev_ext_all. intros k. unfold im, relabel. f_equal. rewrite (map_ext (map (fun v => v)) (fun s => s)); [symmetry; apply map_id|]. intros s. apply map_id.
Qed.
(** #C85_linear# Images of sums and multiples are the sums and multiples of the images. *)
Lemma C85_linear_l (dt n : Z) (f : Z -> Z) (x x' y y' : simp) : wf cls_simplicial x -> wf cls_simplicial x' -> torsion x' = torsion x -> dt_ok dt (torsion x) ->
  is_image f x y -> is_image f x' y' ->
  exists s s' m m', add dt cls_simplicial x x' = Ok s /\ add dt cls_simplicial y y' = Ok s' /\ is_image f s s' /\
    scale dt cls_simplicial n x = Ok m /\ scale dt cls_simplicial n y = Ok m' /\ is_image f m m'.
Proof.
  intros Wx Wx' Tx' Hdt I I'. pose proof (proj1 Wx) as Ht. pose proof (im_den f x y I) as Dy. pose proof (im_den f x' y' I') as Dy'. rewrite Tx' in Dy'.
  pose proof (den_self cls_simplicial x Wx) as Dx. pose proof (den_self cls_simplicial x' Wx') as Dx'. rewrite Tx' in Dx'. rewrite (s_attr' x) in Dx. rewrite (s_attr' x') in Dx'.
  destruct (add_den cls_simplicial ok_simplicial dt (torsion x) Ht Hdt tt tt _ _ x x' Dx Dx') as (s & Es & Ds). destruct (add_den cls_simplicial ok_simplicial dt (torsion x) Ht Hdt tt tt _ _ y y' Dy Dy') as (s' & Es' & Ds').
  destruct (scale_den cls_simplicial ok_simplicial dt (torsion x) Ht Hdt tt _ n x Dx) as (m & Em & Dm). destruct (scale_den cls_simplicial ok_simplicial dt (torsion x) Ht Hdt tt _ n y Dy) as (m' & Em' & Dm').
  exists s, s', m, m'. split; [exact Es|]. split; [exact Es'|]. split; [|split; [exact Em|split; [exact Em'|]]].
  - exact (den_im2 f (torsion x) _ s s' Ht Ds Ds').
  - exact (den_im2 f (torsion x) _ m m' Ht Dm Dm').
Qed.
(** #C85_boundary# The boundary of the image is the image of the boundary. *)
Lemma C85_boundary_l (dt : Z) (f : Z -> Z) (x y : simp) : wf cls_simplicial x -> dt_ok dt (torsion x) -> is_image f x y ->
  exists bx by', simp_boundary dt x = Ok bx /\ simp_boundary dt y = Ok by' /\ is_image f bx by'.
Proof.
  intros Wx Hdt I. pose proof (proj1 Wx) as Ht. apply (nat_linop f anyk anyk tDS); auto.
  - apply kpred_anyk.
  - intros k _. exact Logic.I.
  - exact (linop_bnd cls_simplicial sck fbS spx_dim dt (simp_boundary dt) (fun t x => simp_boundary_den dt t x) (torsion x) _ _ Ht Hdt kpred_anyk (fun k k' v _ _ => Logic.I)).
  - exact (adm_tD cls_simplicial spx_is_degenerate sbad fbS spx_dim fdS_bad anyk anyk (fun k k' v _ _ => Logic.I)).
  - intros g k _. apply nat_tDS.
  - intros k v _. exact Logic.I.
Qed.
(** #C85_diagonal# The iterated diagonal of the image is the image of the iterated diagonal,
    for every number of iterations and every coordinate (extended by 0: the code refuses the
    zero element, and the image may be zero). *)
Lemma C85_diagonal_l (dt n e times coord : Z) (f : Z -> Z) (x y : simp) : wf cls_simplicial x -> dt_ok dt (torsion x) -> 1 <= coord <= n -> 0 <= times ->
  keys_in (fun k => zlen k = n /\ total_degree k = e) x -> is_image f x y ->
  exists dx dy, extended1 dt cls_simplicial (fun z => simp_iterated_diagonal dt z times coord) x = Ok dx /\
    extended1 dt cls_simplicial (fun z => simp_iterated_diagonal dt z times coord) y = Ok dy /\ is_image f dx dy.
Proof.
  intros Wx Hdt Hc Htm Kx I. pose proof (proj1 Wx) as Ht. apply (nat_linop f (kdegS n e) (kdegS (n + times) e) (Sd (Z.to_nat times) coord)); auto.
  - apply kpred_kdegS.
  - apply nat_kdeg.
  - exact (linop_diag dt (torsion x) n e times coord Ht Hdt Hc Htm).
  - pose proof (adm_Sd n e (Z.to_nat times) coord Hc) as A. now rewrite Z2Nat.id in A by lia.
  - intros g k _. apply nat_Sd.
Qed.
(** #C85_symmetric# The action of the symmetric ring commutes with images. *)
Lemma C85_symmetric_l (dt n : Z) (f : Z -> Z) (a : ring) (x y : simp) : 1 <= n -> wf cls_ring a -> wf cls_simplicial x -> torsion a = torsion x -> dt_ok dt (torsion x) ->
  keys_in (fun k => perm n (kval k)) a -> keys_in (fun k => zlen k = n) x -> is_image f x y ->
  exists ax ay, extended dt cls_simplicial (simp_act dt) a x = Ok ax /\ extended dt cls_simplicial (simp_act dt) a y = Ok ay /\ is_image f ax ay.
Proof.
  intros Hn Wa Wx Ta Hdt Ka Kx I. pose proof (proj1 Wx) as Ht. rewrite simp_act_tact. apply (nat_linop f (kar n) (kar n) (DBL (Pact spx_dim) a) (fun z => extended dt cls_simplicial (tact cls_simplicial spx_dim dt) a z)); auto.
  - apply kpred_kar.
  - intros k Hk. unfold kar, relabel in *. now rewrite zlen_map.
  - exact (linop_act cls_simplicial spx_is_degenerate sbad sck spx_dim dt n (torsion x) a Hn Ht Hdt Wa Ta Ka).
  - exact (DBL_admop cls_ring cls_simplicial cls_simplicial _ _ _ (Pact spx_dim) (adm_act cls_simplicial spx_is_degenerate sbad spx_dim n ltac:(lia)) a Ka Wa).
  - intros g k Hk. unfold DBL. apply ev_ext_all. intros p. apply nat_kact.
Qed.
(** #C85_surjection# The action of every element of the surjection operad, hence every
    cup-i product and every Steenrod operation that the code computes, commutes with images. *)
Lemma C85_surjection_l (dt r d n e coord : Z) (f : Z -> Z) (u : surj) (x y : simp) :
  1 <= r -> 1 <= coord <= n -> wf cls_surj u -> wf cls_simplicial x -> torsion x = torsion u -> dt_ok dt (torsion u) -> attr u = MS ->
  keys_in (surj_cell r d) u -> keys_in (fun k => zlen k = n /\ total_degree k = e) x -> is_image f x y ->
  exists ux uy, surj_call_simplicial dt u x coord = Ok ux /\ surj_call_simplicial dt u y coord = Ok uy /\ is_image f ux uy.
Proof.
  intros Hr Hc Wu Wx Tx Hdt Au Ku Kx I. pose proof (proj1 Wx) as Ht. rewrite <- Tx in Hdt. apply (nat_linop f (kdegS n e) (kdegS (n + r - 1) (e + d)) (DBL (Phi r coord) u) (fun z => surj_call_simplicial dt u z coord)); auto.
  - apply kpred_kdegS.
  - apply nat_kdeg.
  - exact (linop_bilL cls_surj cls_simplicial cls_simplicial ok_simplicial (torsion x) MS tt tt _ _ _ _ _ Ht (kpred_kdegS (n + r - 1) (e + d)) (bil_act dt (torsion x) r d n e coord Ht Hdt Hr Hc)
      (rep2_local2 _ _ _ _ (rep_Phi r d n e coord Hr)) (rep2_zero _ _ _ _ (rep_Phi r d n e coord Hr)) u Wu (eq_sym Tx) Au Ku).
  - exact (DBL_admop cls_surj cls_simplicial cls_simplicial _ _ _ (Phi r coord) (adm_Phi r d n e coord Hr) u Ku Wu).
  - intros g k _. unfold DBL. apply ev_ext_all. intros w. apply nat_Phi.
Qed.
(** #C85_one_reduced# So does the quotient by the tensors with a 1-dimensional factor. *)
Lemma C85_one_reduced_l (dt : Z) (f : Z -> Z) (x y : simp) : wf cls_simplicial x -> dt_ok dt (torsion x) -> is_image f x y ->
  exists rx ry, simp_one_reduced dt x = Ok rx /\ simp_one_reduced dt y = Ok ry /\ is_image f rx ry.
Proof.
  intros Wx Hdt I. pose proof (proj1 Wx) as Ht. apply (nat_linop f (fun _ => True) (fun _ => True) (fun g k => if forallb (fun spx => negb (spx_dim spx =? 1)) k then g k else 0)); auto.
  - apply kpred_anyk.
  - intros k _. exact Logic.I.
  - exact (linop_red dt (torsion x) Ht Hdt).
  - exact adm_red.
  - intros g k _. assert (E : forallb (fun spx => negb (spx_dim spx =? 1)) (relabel f k) = forallb (fun spx => negb (spx_dim spx =? 1)) k); [|rewrite E; reflexivity].
    induction k as [|s k IH]; [reflexivity|]. cbn [relabel map forallb]. change (map (map f) k) with (relabel f k). now rewrite IH, dim_map.
  - intros k v _. exact Logic.I.
Qed.
(** #C85_cohomology# The induced map on cochains preserves degree, coboundary, the cup
    product over every Z/t and Z, and the Steenrod squares, all on the nose. *)
Lemma C85_cohomology_l (dt t m n k : Z) (dc : conv) (f : Z -> Z) (a b ab sa : list Z -> Z) : 0 <= t -> dt_ok dt t -> 0 <= m -> 0 <= n -> cochain m a -> cochain n b ->
  cochain m (pull_back f a) /\ (forall s, simp_coboundary (pull_back f a) s = pull_back f (simp_coboundary a) s) /\
  (cup_is dt t a b ab -> cup_is dt t (pull_back f a) (pull_back f b) (pull_back f ab)) /\
  (dt_ok dt 2 -> is_square dt dc k m a sa -> is_square dt dc k m (pull_back f a) (pull_back f sa)).
Proof.
  intros Ht Hdt Hm Hn Ha Hb. pose proof (pull_deg f m a Ha) as Pa. pose proof (pull_deg f n b Hb) as Pb. split; [exact Pa|]. split; [|split].
  - intros s. unfold pull_back at 2. rewrite !cob_fdS. rewrite nat_fdS. reflexivity.
  - intros H. apply (cup_is_iff dt t a b a b) in H; auto using neq_refl; [|now apply (nm_co m)|now apply (nm_co n)].
    apply (cup_is_iff dt t (pull_back f a) (pull_back f b) (pull_back f a) (pull_back f b)); auto using neq_refl; [now apply (nm_co m)|now apply (nm_co n)|].
    intros s Ns. rewrite nat_cupf. unfold pull_back. apply H. destruct s; [congruence|discriminate].
  - intros Hd2 H s Ns. assert (Ns' : map f s <> []) by (destruct s; [congruence|discriminate]). specialize (H (map f s) Ns').
    apply (square_val dt dc k m a (map f s) Hm Ha Hd2 Ns') in H.
    destruct (square_val dt dc k m (pull_back f a) s Hm Pa Hd2 Ns) as [(v & S & x & y & E1 & E2 & E3 & E4) U]. exists S, x, y. repeat apply conj; auto.
    change (eqm 2 (simp_value (simp_pair (pull_back f a) (pull_back f a)) y) v) in E4. change (eqm 2 (simp_value (simp_pair (pull_back f a) (pull_back f a)) y) (sa (map f s))). rewrite E4. rewrite (U v ltac:(exists S, x, y; auto)). rewrite nat_Sqv. now symmetry.
Qed.
(** #C85_example# A map that identifies two vertices of a triangulated circle: one edge
    becomes degenerate, the others are relabelled. *)
Example C85_example_l :
  let f := fun v => if v =? 3 then 0 else v in
  let x := mkElt [([[0; 1]], 1); ([[1; 2]], 1); ([[2; 3]], 1); ([[0; 3]], -1)] 0 tt in
  let y := mkElt [([[0; 1]], 1); ([[1; 2]], 1); ([[2; 0]], 1)] 0 tt in
  wf cls_simplicial x /\ dt_ok 0 0 /\ is_image f x y /\ keys_in (fun k => zlen k = 1 /\ total_degree k = 1) x.
Proof.
  intros f x y. assert (Wx : wf cls_simplicial x) by (apply wfb_wf; reflexivity). assert (Wy : wf cls_simplicial y) by (apply wfb_wf; reflexivity). split; [exact Wx|]. split; [split; [lia|now left]|]. split.
  - apply den_im; [cbn; lia|]. eapply den_ext; [|apply (den_self cls_simplicial y Wy)]. intros g [_ Hg]. apply eqm_eq. cbn [data x y]. rewrite !ev_cons, !ev_nil. unfold im, relabel, f. cbn. rewrite (Hg [[0; 0]] eq_refl). ring.
  - intros k v Hk. cbn in Hk. destruct Hk as [[= <- <-] | [[= <- <-] | [[= <- <-] | [[= <- <-] | []]]]]; split; reflexivity.
Qed.
