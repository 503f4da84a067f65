(** * Steenrod operations on cochains (C61, C66, C68) *)
From Coq Require Import Setoid Morphisms Znumtheory.
From Verif Require Import PyBase Dict FreeModule Symmetric Simplicial Utils Surjection BarrattEccles Eqm Spec SpecChain SpecOperad SpecSurj SpecAction SpecCochain FreeModuleFacts FreeModuleLaws ListFacts
  ClassFacts LinearFacts BilFacts SymmetricFacts CycleFacts SymmetricLaws RingFacts Tensor TensorAct KoszulFacts LoopFacts AW SimplicialFacts SimplicialDiag SimplicialLaws BEDiag MayFacts BELaws3 SurjFacts SurjBoundary SurjLaws SurjAct SurjMay
  SteenrodLaws ActFacts ActSign ActCore ActCode ActLaws EquivAct SteenrodAct.

Lemma eval_boundary dt p m X alpha c0 d e (y S : surj) (c : simp) : 0 <= m -> simplicial_set X -> cocycle p m X alpha -> p = 2 \/ Z.even p = false -> 2 <= p -> dt_ok dt p ->
  den cls_surj p MS (FpS MS p d) y -> den cls_surj p MS (fun g => c0 * FpS MS p d g) S ->
  wf cls_simplicial c -> torsion c = p -> keys_in (fun k => exists s, k = [s] /\ X s /\ zlen s - 1 = e) c ->
  exists bc z, simp_boundary dt c = Ok bc /\ surj_call_simplicial dt S bc 1 = Ok z /\ evaluate alpha z mod p = 0.
Proof.
  intros Hm HX Ha Hp2 Hp1 Hdt Dy DS Wc Tc Kc. assert (Ht : 0 <= p) by lia. set (G := on_tensor alpha). pose proof (adm_on p m X alpha Hm Ha) as AG. fold G in AG.
  assert (Kc' : keys_in (kdegS 1 e) c).
  { intros k v Hk. destruct (Kc _ _ Hk) as (s & -> & _ & Es). split; [reflexivity|]. rewrite tdeg_cons. change (tdeg spx_dim []) with 0. unfold spx_dim. lia. }
  assert (KS : keys_in (surj_cell p (Z.of_nat d)) S).
  { apply (den_keys cls_surj ok_surj p MS _ S _ Ht (kpred_cell p (Z.of_nat d)) DS). intros g _ H0. apply eqm_eq.
    destruct (FpS_list MS p d ltac:(lia)) as (L & L1 & L2). rewrite L2, ev_zero; [ring|]. intros k v Hin. apply H0. exact (proj1 (L1 _ _ Hin)). }
  destruct (linop_bnd cls_simplicial sck fbS spx_dim dt (simp_boundary dt) (fun t x => simp_boundary_den dt t x) p _ _ Ht Hdt (kpred_kdegS _ _) (tb_kdeg fbS spx_dim dim_fbS 1 e) c Wc Tc (s_attr' c) Kc') as (bc & Eb & Db & Kb).
  destruct (bil_act dt p p (Z.of_nat d) 1 (e - 1) 1 Ht Hdt ltac:(lia) ltac:(lia) S bc (den_wf _ _ _ _ _ Ht DS) (proj1 DS) (proj1 (proj2 DS)) KS (den_wf _ _ _ _ _ Ht Db) (proj1 Db) (s_attr' bc) Kb) as (z & Ez & Dz).
  exists bc, z. split; [exact Eb|]. split; [exact Ez|]. 
  assert (E : eqm p (evaluate alpha z) 0); [|destruct E as [w Ew]; rewrite Z.sub_0_r in Ew; rewrite Ew; apply Z.mod_mul; lia].
  change (evaluate alpha z) with (ev G (data z)). rewrite (den_ev cls_simplicial p tt _ z G Dz AG).
  assert (Bd : forall k d' K, surj_cell p d' k -> adj k = true -> Phi p 1 G k K = 0).
  { intros k d' K [Ho _] Ak. unfold Phi. apply ev_zero. intros w v Hin. apply AG. cbn [bad cls_simplicial]. f_equal. refine (acts_bad p 1 k K w v Ho _ (or_introl Ak) Hin). apply (onto_ne p); [lia|exact Ho]. }
  transitivity (ev (fun k => ev (fun K => tDS (fun K' => Phi p 1 G k K') K) (data c)) (data S)).
  { apply ev_eqm. intros k v Hk. destruct (KS _ _ Hk) as [Ho Lk].
    assert (Gk : bad cls_surj k = Ok false) by (pose proof (den_wf _ _ _ _ _ Ht DS) as (_ & _ & W); now apply (W _ _ Hk)).
    destruct (adm_Phi p (Z.of_nat d) 1 (e - 1) 1 ltac:(lia) G (adm_admP _ _ _ AG)) as [_ B].
    pose proof (rep_tD fbS spx_dim (kdegS 1 e) (kdegS 1 (e - 1)) (tb_kdeg fbS spx_dim dim_fbS 1 e)) as R. 
    destruct (local_list _ _ _ (data c) (rep_local _ _ _ R) Kc') as (l & Hl1 & Hl2).
    apply (den_ev_on cls_simplicial ok_simplicial p tt _ bc (kdegS 1 (e - 1)) (fun K => Phi p 1 G k K) l (kpred_kdegS _ _) Db Kb); [apply B; [split; assumption|exact Gk]|].
    intros h Hh. apply eqm_eq. apply Hl2. intros k' Hk'. apply Hh; auto. }
  rewrite (ev_exch (fun k K => tDS (fun K' => Phi p 1 G k K') K)). rewrite (ev_eqm p _ (fun _ => 0)); [apply eqm_eq; apply ev_zero; reflexivity|].
  intros K v HK. destruct (Kc _ _ HK) as (s & -> & Xs & _).
  assert (Ns : spx_is_degenerate s = false). { destruct Wc as (_ & _ & W). destruct (W _ _ HK) as [_ W2]. cbn in W2. injection W2 as W2. now rewrite orb_false_r in W2. }
  pose proof (chain_part p m X alpha Hm HX Ha ltac:(lia) Hp2 Hp1 d y s Dy Ns Xs) as CP. fold G in CP. set (F := fun k => tDS (fun K => Phi p 1 G k K) [s]) in *.
  assert (AF : admP cls_surj (surj_cell p (Z.of_nat d)) F).
  { apply admP_keyeq. intros k Hk Hb. change (bad cls_surj k) with (surj_bad k) in Hb. rewrite (surj_bad_onto p) in Hb by (try lia; apply Hk). injection Hb as Hb. unfold F.
    rewrite (tD_ext_all fbS spx_dim _ (fun _ => 0 * 0)) by (intros; now apply (Bd k (Z.of_nat d))). rewrite tD_scal. ring. }
  transitivity (c0 * FpS MS p d F).
  - destruct (FpS_list MS p d ltac:(lia)) as (L & L1 & L2).
    apply (den_ev_on cls_surj ok_surj p MS _ S (surj_cell p (Z.of_nat d)) F (dkeys L) (kpred_cell p (Z.of_nat d)) DS KS AF).
    intros h Hh. apply eqm_eq. rewrite !L2. f_equal. apply ev_ext. intros k v' Hin. apply Hh; [exact (proj1 (L1 _ _ Hin))|]. now apply (in_map fst) in Hin.
  - rewrite <- (psiS_ev MS p d p y F) by (lia || assumption). rewrite CP. apply eqm_eq. ring.
Qed.
(** #C66_cocycle# Let [alpha] be a cocycle modulo [p] of degree [m] on a
    simplicial set [X] ([p] two or odd), and let [S] be
    may_steenrod_structure(p, d) with torsion [p].  The cochain that sends a
    simplex c to the value of the p-th tensor power of [alpha] on S(c) is again
    a cocycle modulo [p]: it vanishes on boundaries. *)
Lemma C66_cocycle_l (dt p m d e : Z) (dc : conv) (X : list Z -> Prop) (alpha : list Z -> Z) (c : simp) :
  p = 2 \/ (3 <= p /\ Z.even p = false) -> dt_ok dt p -> 0 <= m -> 0 <= d -> simplicial_set X -> cocycle p m X alpha ->
  wf cls_simplicial c -> torsion c = p -> keys_in (fun k => exists s, k = [s] /\ X s /\ zlen s - 1 = e) c ->
  exists S bc z, surj_may_steenrod dt dc p d (Some p) (Some MS) = Ok S /\ simp_boundary dt c = Ok bc /\ surj_call_simplicial dt S bc 1 = Ok z /\
    evaluate alpha z mod p = 0.
Proof.
  intros Hp Hdt Hm Hd HX Ha Wc Tc Kc. assert (Hp1 : 2 <= p) by lia. assert (Hp2 : p = 2 \/ Z.even p = false) by tauto.
  assert (Ep : p = match Some p with Some t => if t =? 0 then dt else t | None => dt end) by (cbv beta iota; destruct (Z.eqb_spec p 0); [lia|reflexivity]).
  destruct (mayS_ok dt dc MS p (Z.to_nat d) (Some p) (Some MS) p Ep eq_refl (or_intror eq_refl) Hp1 ltac:(lia) ltac:(lia) Hdt) as (y & Ey & Dy). rewrite Z2Nat.id in Ey by lia.
  assert (Dy' : den cls_surj p MS (fun g => 1 * FpS MS p (Z.to_nat d) g) y) by (eapply den_ext; [|exact Dy]; intros; apply eqm_eq; ring).
  destruct (eval_boundary dt p m X alpha 1 (Z.to_nat d) e y y c Hm HX Ha Hp2 Hp1 Hdt Dy Dy' Wc Tc Kc) as (bc & z & Eb & Ez & E). exists y, bc, z. auto.
Qed.
Lemma op_den dt dc p s q b S : p = 2 \/ (3 <= p /\ Z.even p = false) -> dt_ok dt p -> surj_steenrod_operation dt dc p s q b (Some MS) = Ok S ->
  S = mkElt [] p dc \/ exists c0 d y, Z.of_nat d = (if p =? 2 then s - q else (2 * s - q) * (p - 1) - (if b then 1 else 0)) /\ den cls_surj p MS (FpS MS p d) y /\ den cls_surj p MS (fun g => c0 * FpS MS p d g) S.
Proof.
  intros Hp Hdt. assert (Hp1 : 2 <= p) by lia. unfold surj_steenrod_operation.
  assert (N : surj_new dt dc [] (Some p) None = Ok (mkElt [] p dc)) by (unfold surj_new, new, pref; cbn; unfold reduce; destruct (p =? 0); reflexivity).
  assert (Ep : p = match Some p with Some t => if t =? 0 then dt else t | None => dt end) by (cbv beta iota; destruct (Z.eqb_spec p 0); [lia|reflexivity]).
  assert (Q : forall D c0, 0 <= D -> (let! e := surj_may_steenrod dt dc p D (Some p) (Some MS) in scale dt cls_surj c0 e) = Ok S ->
     exists c0 d y, Z.of_nat d = D /\ den cls_surj p MS (FpS MS p d) y /\ den cls_surj p MS (fun g => c0 * FpS MS p d g) S).
  { intros D c0 HD E. destruct (mayS_ok dt dc MS p (Z.to_nat D) (Some p) (Some MS) p Ep eq_refl (or_intror eq_refl) Hp1 ltac:(lia) ltac:(lia) Hdt) as (y & Ey & Dy). rewrite Z2Nat.id in Ey by lia.
    rewrite Ey in E. cbn [bind] in E. exists c0, (Z.to_nat D), y. split; [lia|]. split; [exact Dy|].
    destruct (scale_den cls_surj ok_surj dt p ltac:(lia) Hdt MS _ c0 y Dy) as (S' & ES & DS). rewrite E in ES. injection ES as <-. exact DS. }
  destruct (Z.eqb_spec p 2) as [->|N2].
  - destruct b; cbn [andb]; [discriminate|]. destruct (Z.ltb_spec (s - q) 0); [rewrite N; intros [= <-]; now left|]. intros E. right. now apply (Q (s - q) 1).
  - cbn [andb]. destruct (steenrod_coeff p s q) as [c0|]; cbn [bind]; [|discriminate]. set (D := (2 * s - q) * (p - 1) - (if b then 1 else 0)) in *.
    destruct (Z.ltb_spec D 0); [rewrite N; intros [= <-]; now left|]. intros E. right. now apply (Q D c0).
Qed.
(** #C66_operation# The same for every element returned by steenrod_operation:
    P_s and beta P_s send cocycles to cocycles, on the nose. *)
Lemma C66_operation_l (dt p m s q e : Z) (b : bool) (dc : conv) (X : list Z -> Prop) (alpha : list Z -> Z) (S : surj) (c : simp) :
  p = 2 \/ (3 <= p /\ Z.even p = false) -> dt_ok dt p -> 0 <= m -> simplicial_set X -> cocycle p m X alpha ->
  surj_steenrod_operation dt dc p s q b (Some MS) = Ok S ->
  wf cls_simplicial c -> torsion c = p -> keys_in (fun k => exists s, k = [s] /\ X s /\ zlen s - 1 = e) c ->
  exists bc z, simp_boundary dt c = Ok bc /\ surj_call_simplicial dt S bc 1 = Ok z /\ evaluate alpha z mod p = 0.
Proof.
  intros Hp Hdt Hm HX Ha ES Wc Tc Kc. assert (Hp1 : 2 <= p) by lia. assert (Hp2 : p = 2 \/ Z.even p = false) by tauto.
  destruct (op_den dt dc p s q b S Hp Hdt ES) as [->|(c0 & d & y & _ & Dy & DS)].
  - destruct (simp_boundary_den dt p c ltac:(lia) Hdt Wc Tc) as (bc & Eb & _). exists bc. unfold surj_call_simplicial. cbn [data dempty orb]. rewrite zero_data. eexists. split; [exact Eb|]. split; [reflexivity|]. reflexivity.
  - exact (eval_boundary dt p m X alpha c0 d e y S c Hm HX Ha Hp2 Hp1 Hdt Dy DS Wc Tc Kc).
Qed.
Lemma kpred_ss (P : list (list Z) -> Prop) : (forall k, P k \/ ~ P k) -> kpred P.
Proof. intros D. split; [exact D|]. intros k k' E HP. apply keqb_eq in E. now subst. Qed.
Lemma dec_factors p q (k : list (list Z)) : (zlen k = p /\ (forall u, In u k -> zlen u - 1 = - q)) \/ ~ (zlen k = p /\ (forall u, In u k -> zlen u - 1 = - q)).
Proof.
  destruct (Z.eq_dec (zlen k) p) as [E|N]; [|right; tauto]. destruct (forallb (fun u => zlen u - 1 =? - q) k) eqn:F.
  - left. split; [exact E|]. intros u Hu. rewrite forallb_forall in F. now apply Z.eqb_eq, F.
  - right. intros [_ Hk]. assert (T : forallb (fun u => zlen u - 1 =? - q) k = true); [|congruence]. apply forallb_forall. intros u Hu. now apply Z.eqb_eq, Hk.
Qed.
Lemma zset_one l : zlen (zset l) = 1 <-> exists a, l <> [] /\ forall b, In b l -> b = a.
Proof.
  unfold zset. split.
  - intros E. destruct (nodup Z.eq_dec l) as [|a [|a' r]] eqn:F; [discriminate| |rewrite !zlen_cons in E; pose proof (zlen_nonneg r); lia].
    exists a. split; [intros ->; discriminate|]. intros b Hb. apply (nodup_In Z.eq_dec) in Hb. rewrite F in Hb. destruct Hb as [<-|[]]. reflexivity.
  - intros (a & N & Ha). change (zlen (zset l) = 1). rewrite (zset_const l a N Ha). reflexivity.
Qed.
Lemma tdeg_const c k : (forall b, In b k -> spx_dim b = c) -> tdeg spx_dim k = c * zlen k.
Proof. induction k as [|b k IH]; intros Hk; [change (tdeg spx_dim []) with 0; change (zlen (@nil (list Z))) with 0; ring|]. rewrite tdeg_cons, zlen_cons, IH by (intros; apply Hk; now right). rewrite (Hk b) by now left. ring. Qed.
Lemma homogeneous_iff p q k : 1 <= p -> zlen k = p -> tdeg spx_dim k = - q * p -> (zlen (zset (map spx_dim k)) =? 1) = forallb (fun s => zlen s - 1 =? - q) k.
Proof.
  intros Hp Lk Dk. apply eq_true_iff_eq. rewrite Z.eqb_eq, zset_one, forallb_forall. split.
  - intros (a & _ & Ha) b Hb. apply Z.eqb_eq. assert (Ha' : forall c, In c k -> spx_dim c = a) by (intros c Hc; apply Ha; now apply in_map). rewrite (tdeg_const a k Ha') in Dk. 
    pose proof (Ha' b Hb). unfold spx_dim in *. nia.
  - intros Hk. exists (- q). split; [intros E; apply map_eq_nil in E; subst k; change (zlen (@nil (list Z))) with 0 in Lk; lia|]. intros b Hb. apply in_map_iff in Hb. destruct Hb as (c & <- & Hc). now apply Z.eqb_eq, Hk.
Qed.
Lemma filter_wf (f : list (list Z) -> bool) (x : simp) t : wf cls_simplicial x -> torsion x = t -> wf cls_simplicial (mkElt (filter (fun kv => f (fst kv)) (data x)) t tt).
Proof.
  intros (Ht & Hd & Hx) Tx. subst t. split; [exact Ht|]. split.
  - cbn [data]. unfold dkeys in *. clear Hx. induction (data x) as [|[k v] d IH]; [exact I|]. cbn [map kdistinct fst] in Hd. destruct Hd as [H1 H2].
    cbn [filter fst]. destruct (f k); [|now apply IH]. cbn [map fst kdistinct]. split; [|now apply IH].
    intros k' Hk'. apply H1. apply in_map_iff in Hk'. destruct Hk' as (p & <- & Hp). apply filter_In in Hp. now apply in_map.
  - intros k v Hin. cbn [data] in Hin. apply filter_In in Hin. now apply Hx.
Qed.
Lemma filter_homogeneous_ok dt t (x : simp) (f : list (list Z) -> bool) : wf cls_simplicial x -> torsion x = t -> dt_ok dt t ->
  (forall k v, In (k, v) (data x) -> (zlen (zset (map spx_dim k)) =? 1) = f k) ->
  same (filter_homogeneous dt cls_simplicial spx_dim x) (Ok (mkElt (filter (fun kv => f (fst kv)) (data x)) t tt)).
Proof.
  intros Wx Tx Hdt Hf. assert (Ht : 0 <= t) by (rewrite <- Tx; apply Wx). pose proof (filter_wf f x t Wx Tx) as Wy. unfold filter_homogeneous.
  rewrite (filter_ext_in _ (fun kv => f (fst kv)) (data x)) by (intros [k v] Hin; now apply (Hf k v)).
  eapply (same_den cls_simplicial ok_simplicial t tt); [exact Ht| |apply returns_ok, (den_self cls_simplicial _ Wy)|intros; reflexivity].
  rewrite <- (s_attr' x). apply (create_den cls_simplicial ok_simplicial dt t x); auto; [apply Wy|]. intros k _. eexists. reflexivity.
Qed.
Lemma chain_core (dt p s q n : Z) (b : bool) (dc : conv) (S : surj) :
  p = 2 \/ (3 <= p /\ Z.even p = false) -> dt_ok dt p -> surj_steenrod_operation dt dc p s q b (Some MS) = Ok S ->
  n = (if p =? 2 then - (q + s) else - (q + 2 * s * (p - 1) - (if b then 1 else 0))) ->
  exists el r z, simp_standard_element dt n 1 (Some p) = Ok el /\ surj_call_simplicial dt S el 1 = Ok r /\
    steenrod_chain_simplex dt dc p s q b = Ok z /\ wf cls_simplicial z /\ torsion z = p /\
    keys_in (fun k => zlen k = p /\ forall u, In u k -> zlen u - 1 = - q) z /\
    same (Ok z) (Ok (mkElt (filter (fun kv => forallb (fun u => zlen u - 1 =? - q) (fst kv)) (data r)) p tt)) /\
    den cls_simplicial p tt (fun g => ev g (filter (fun kv => zlen (zset (map spx_dim (fst kv))) =? 1) (data r))) z /\
    keys_in (fun k => zlen k = p /\ tdeg spx_dim k = - q * p) r.
Proof.
  intros Hp Hdt ES En. assert (Ht : 0 <= p) by lia. assert (Hp1 : 2 <= p) by lia. unfold steenrod_chain_simplex. rewrite ES. cbn [bind].
  replace (- (if p =? 2 then q + s else q + 2 * s * (p - 1) - (if b then 1 else 0))) with n by (rewrite En; destruct (p =? 2); ring).
  destruct (new_den cls_simplicial ok_simplicial dt p (Some p) tt [(repeat (zrange 0 (n + 1)) (Z.to_nat 1), 1)] eq_refl Ht) as (el & Ee & De); [split; [intros ? []|exact I]|intros k _; eexists; reflexivity|].
  change (simp_standard_element dt n 1 (Some p) = Ok el) in Ee. rewrite Ee. cbn [bind].
  assert (R : exists r, surj_call_simplicial dt S el 1 = Ok r /\ wf cls_simplicial r /\ torsion r = p /\ keys_in (fun k => zlen k = p /\ tdeg spx_dim k = - q * p) r).
  { assert (Z0 : data S = [] \/ data el = [] -> exists r, surj_call_simplicial dt S el 1 = Ok r /\ wf cls_simplicial r /\ torsion r = p /\ keys_in (fun k => zlen k = p /\ tdeg spx_dim k = - q * p) r).
    { intros HZ. unfold surj_call_simplicial. assert (E0 : dempty (data S) || dempty (data el) = true) by (destruct HZ as [-> | ->]; [reflexivity|apply orb_true_r]). rewrite E0.
      destruct (zero_den cls_simplicial ok_simplicial dt p el Ht Hdt (proj1 De)) as (r & Er & Dr). exists r. split; [exact Er|]. split; [exact (den_wf _ _ _ _ _ Ht Dr)|]. split; [exact (proj1 Dr)|].
      rewrite zero_data in Er. injection Er as <-. intros k v []. }
    destruct (op_den dt dc p s q b S Hp Hdt ES) as [->|(c0 & d & y & Ed & Dy & DS)]; [apply Z0; now left|].
    destruct (data el) as [|e0 el'] eqn:Eel; [apply Z0; now right|].
    destruct (Z.ltb_spec n 0) as [Nn|Nn].
    { exfalso. assert (K0 : keys_in (fun k => k = [[]]) el).
      { apply (den_keys cls_simplicial ok_simplicial p tt _ el _ Ht (kpred_ss _ (fun k => match list_eq_dec (list_eq_dec Z.eq_dec) k [[]] with left e => or_introl e | right n => or_intror n end)) De). intros g _ H0. apply eqm_eq. rewrite ev_cons, ev_nil. rewrite zrange_nil by lia. change (repeat [] (Z.to_nat 1)) with [@nil Z]. rewrite H0; [ring|reflexivity]. }
      destruct e0 as [k v]. assert (Hin : In (k, v) (data el)) by (rewrite Eel; now left). pose proof (K0 _ _ Hin) as ->. destruct (den_wf _ _ _ _ _ Ht De) as (_ & _ & W). destruct (W _ _ Hin) as [_ W2]. discriminate W2. }
    assert (KS : keys_in (surj_cell p (Z.of_nat d)) S).
    { apply (den_keys cls_surj ok_surj p MS _ S _ Ht (kpred_cell p (Z.of_nat d)) DS). intros g _ H0. apply eqm_eq.
      destruct (FpS_list MS p d ltac:(lia)) as (L & L1 & L2). rewrite L2, ev_zero; [ring|]. intros k v Hin. apply H0. exact (proj1 (L1 _ _ Hin)). }
    assert (Ke : keys_in (kdegS 1 n) el).
    { apply (den_keys cls_simplicial ok_simplicial p tt _ el _ Ht (kpred_kdegS 1 n) De). intros g _ H0. apply eqm_eq. rewrite ev_cons, ev_nil, H0; [ring|]. cbn [repeat Z.to_nat Pos.to_nat Pos.iter_op]. change (Pos.to_nat 1) with 1%nat. cbn [repeat]. split; [reflexivity|].
      rewrite tdeg_cons. change (tdeg spx_dim []) with 0. unfold spx_dim. rewrite zlen_zrange. lia. }
    destruct (linop_bilR cls_surj cls_simplicial cls_simplicial ok_simplicial p MS tt tt _ _ _ _ _ Ht (kpred_kdegS (1 + p - 1) (n + Z.of_nat d)) (bil_act dt p p (Z.of_nat d) 1 n 1 Ht Hdt ltac:(lia) ltac:(lia))
      (rep2_local2 _ _ _ _ (rep_Phi p (Z.of_nat d) 1 n 1 ltac:(lia))) (rep2_zero _ _ _ _ (rep_Phi p (Z.of_nat d) 1 n 1 ltac:(lia))) el (den_wf _ _ _ _ _ Ht De) (proj1 De) (s_attr' el) Ke S (den_wf _ _ _ _ _ Ht DS) (proj1 DS) (proj1 (proj2 DS)) KS) as (r & Er & Dr & Kr).
    exists r. split; [exact Er|]. split; [exact (den_wf _ _ _ _ _ Ht Dr)|]. split; [exact (proj1 Dr)|].
    intros k v Hk. destruct (Kr _ _ Hk) as [L1 L2]. split; [lia|]. rewrite L2, Ed, En. destruct (p =? 2) eqn:E2; [apply Z.eqb_eq in E2; subst p; ring|]. ring. }
  destruct R as (r & Er & Wr & Tr & Kr). rewrite Er. cbn [bind].
  pose proof (filter_homogeneous_ok dt p r (fun k => forallb (fun u => zlen u - 1 =? - q) k) Wr Tr Hdt) as SF.
  specialize (SF ltac:(intros k v Hk; destruct (Kr _ _ Hk) as [L1 L2]; apply (homogeneous_iff p); [lia|exact L1|exact L2])).
  destruct (filter_homogeneous dt cls_simplicial spx_dim r) as [z|] eqn:Ez; [|destruct SF as (? & ? & ? & _); discriminate].
  assert (Dz : den cls_simplicial p tt (fun g => ev g (filter (fun kv => zlen (zset (map spx_dim (fst kv))) =? 1) (data r))) z).
  { destruct (create_den cls_simplicial ok_simplicial dt p r (filter (fun kv => zlen (zset (map spx_dim (fst kv))) =? 1) (data r)) Ht Hdt Tr) as (z' & Ez' & Dz'); [exact (proj1 (proj2 (filter_wf (fun k => zlen (zset (map spx_dim k)) =? 1) r p Wr Tr)))|intros k _; eexists; reflexivity|].
    change (filter_homogeneous dt cls_simplicial spx_dim r = Ok z') in Ez'. rewrite Ez in Ez'. injection Ez' as <-. rewrite (s_attr' r) in Dz'. exact Dz'. }
  exists el, r, z. split; [reflexivity|]. split; [exact Er|]. split; [reflexivity|]. split; [exact (den_wf _ _ _ _ _ Ht Dz)|]. split; [exact (proj1 Dz)|]. split; [|split; [exact SF|split; [exact Dz|exact Kr]]]. 
  apply (den_keys cls_simplicial ok_simplicial p tt _ z _ Ht (kpred_ss _ (dec_factors p q)) Dz). intros g _ H0. apply eqm_eq. apply ev_zero. intros k v Hk. apply filter_In in Hk. destruct Hk as [Hk Hh]. cbn [fst] in Hh.
  apply H0. destruct (Kr _ _ Hk) as [L1 L2]. rewrite (homogeneous_iff p q k) in Hh by (assumption || lia). split; [exact L1|]. intros u Hu. rewrite forallb_forall in Hh. now apply Z.eqb_eq, Hh.
Qed.
(** #C61_chain# steenrod_chain(p, s, q) is the part of op(standard simplex)
    on the products of [p] simplices of dimension -q; here op =
    steenrod_operation(p, s, q) and the simplex has dimension -q - s for
    p = 2 and -q - 2s(p - 1) + b for odd [p] (zero when this is negative). *)
Lemma C61_chain_l (dt p s q n : Z) (b : bool) (dc : conv) (S : surj) :
  p = 2 \/ (3 <= p /\ Z.even p = false) -> dt_ok dt p -> surj_steenrod_operation dt dc p s q b (Some MS) = Ok S ->
  n = (if p =? 2 then - (q + s) else - (q + 2 * s * (p - 1) - (if b then 1 else 0))) ->
  exists el r z, simp_standard_element dt n 1 (Some p) = Ok el /\ surj_call_simplicial dt S el 1 = Ok r /\
    steenrod_chain_simplex dt dc p s q b = Ok z /\ wf cls_simplicial z /\ torsion z = p /\
    keys_in (fun k => zlen k = p /\ forall u, In u k -> zlen u - 1 = - q) z /\
    same (Ok z) (Ok (mkElt (filter (fun kv => forallb (fun u => zlen u - 1 =? - q) (fst kv)) (data r)) p tt)).
Proof.
  intros Hp Hdt ES En. destruct (chain_core dt p s q n b dc S Hp Hdt ES En) as (el & r & z & H1 & H2 & H3 & H4 & H5 & H6 & H7 & _). exists el, r, z. repeat (split; [assumption|]). assumption.
Qed.


(** #C61_evaluate# A cochain of degree -q has the same value on
    steenrod_chain(p, s, q) and on op(standard simplex), so steenrod_chain
    determines the operation on cochains of that degree. *)
Lemma C61_evaluate_l (dt p s q n : Z) (b : bool) (dc : conv) (S : surj) (el r z : simp) (alpha : list Z -> Z) :
  p = 2 \/ (3 <= p /\ Z.even p = false) -> dt_ok dt p -> surj_steenrod_operation dt dc p s q b (Some MS) = Ok S ->
  n = (if p =? 2 then - (q + s) else - (q + 2 * s * (p - 1) - (if b then 1 else 0))) ->
  simp_standard_element dt n 1 (Some p) = Ok el -> surj_call_simplicial dt S el 1 = Ok r -> steenrod_chain_simplex dt dc p s q b = Ok z ->
  q <= 0 -> cochain (- q) alpha -> (evaluate alpha z - evaluate alpha r) mod p = 0.
Proof.
  intros Hp Hdt ES En Ee Er Ez Hq [A1 A2]. destruct (chain_core dt p s q n b dc S Hp Hdt ES En) as (el' & r' & z' & Ee' & Er' & Ez' & Wz & Tz & _ & _ & Dz & Kr).
  rewrite Ee in Ee'. injection Ee' as <-. rewrite Er in Er'. injection Er' as <-. rewrite Ez in Ez'. injection Ez' as <-.
  assert (E : eqm p (evaluate alpha z - evaluate alpha r) 0); [|destruct E as [w Ew]; rewrite Z.sub_0_r in Ew; rewrite Ew; apply Z.mod_mul; lia].
  change (evaluate alpha z) with (ev (on_tensor alpha) (data z)). change (evaluate alpha r) with (ev (on_tensor alpha) (data r)).
  assert (Co : cocycle p (- q) (fun _ => False) alpha) by (split; [split; assumption|intros u []]).
  rewrite (den_ev cls_simplicial p tt _ z _ Dz (adm_on p (- q) _ alpha ltac:(lia) Co)). apply eqm_eq. unfold ev. rewrite sumf_filter, <- sumf_sub. apply sumf_0. intros [k v] Hk. cbn [fst snd].
  destruct (Kr _ _ Hk) as [L1 L2]. rewrite (homogeneous_iff p q k) by (assumption || lia). destruct (forallb _ k) eqn:F; [ring|].
  assert (E : exists u, In u k /\ (zlen u - 1 =? - q) = false).
  { clear -F. induction k as [|u k IH]; [discriminate|]. cbn in F. apply andb_false_iff in F. destruct F as [F|F]; [exists u; split; [now left|exact F]|]. destruct (IH F) as (c & ? & ?). exists c. split; [now right|assumption]. }
  destruct E as (u & Hin & Hu). apply Z.eqb_neq in Hu. rewrite (on_dim p (- q) _ alpha Co u) by assumption. ring.
Qed.
(** #C61_example# The documented example, an example at the prime 3, and a
    negative dimension. *)
Example C61_example_l :
  steenrod_chain_simplex 0 BF 2 (-1) (-2) false = Ok (mkElt [([[0; 2; 3]; [0; 1; 2]], 1); ([[0; 1; 3]; [1; 2; 3]], 1)] 2 tt) /\
  (exists z, steenrod_chain_simplex 0 BF 3 0 (-1) false = Ok z /\ data z = [([[0; 1]; [0; 1]; [0; 1]], 2)]) /\
  steenrod_chain_simplex 0 BF 2 3 (-2) false = Ok (mkElt [] 2 tt).
Proof. split; [vm_compute; reflexivity|]. split; [eexists; split; vm_compute; reflexivity|vm_compute; reflexivity]. Qed.
(** #C66_example# The hypotheses hold for the degree 1 cocycle (a,b) -> b - a
    modulo 2 on all simplices; its square is not zero, and vanishes on the
    boundary of a tetrahedron. *)
Example C66_example_l :
  let alpha := fun s => match s with [a; b] => (b - a) mod 2 | _ => 0 end in
  simplicial_set (fun _ => True) /\ cocycle 2 1 (fun _ => True) alpha /\
  (exists S y z, surj_may_steenrod 0 BF 2 0 (Some 2) (Some MS) = Ok S /\ simp_standard_element 0 2 1 (Some 2) = Ok y /\ surj_call_simplicial 0 S y 1 = Ok z /\ evaluate alpha z = 1) /\
  (exists S y by' z, surj_may_steenrod 0 BF 2 0 (Some 2) (Some MS) = Ok S /\ simp_standard_element 0 3 1 (Some 2) = Ok y /\ simp_boundary 0 y = Ok by' /\ surj_call_simplicial 0 S by' 1 = Ok z /\ evaluate alpha z = 2).
Proof.
  intros alpha. split; [split; auto|]. split; [|split].
  - split; [split|].
    + intros [|a [|b l1]] v [|c l2]; cbn; try reflexivity. rewrite Z.sub_diag. reflexivity. all: destruct l1; reflexivity.
    + intros [|a [|b [|c s]]] N; try reflexivity. exfalso. apply N. reflexivity.
    + intros s _ Ls. destruct s as [|a [|b [|c [|e s]]]]; try discriminate.
      2:{ exfalso. rewrite !zlen_cons in Ls. pose proof (zlen_nonneg s). lia. }
      unfold faces, cuts. cbn [map app fst snd zsum fold_right]. cbn. 
      pose proof (Z.mod_pos_bound (c - b) 2 ltac:(lia)). pose proof (Z.mod_pos_bound (c - a) 2 ltac:(lia)). pose proof (Z.mod_pos_bound (b - a) 2 ltac:(lia)).
      pose proof (Z.div_mod (c - b) 2 ltac:(lia)). pose proof (Z.div_mod (c - a) 2 ltac:(lia)). pose proof (Z.div_mod (b - a) 2 ltac:(lia)).
      change (sgn (zlen [])) with 1. change (sgn (zlen [a])) with (-1). change (sgn (zlen [a; b])) with 1.
      replace (1 * ((c - b) mod 2) + (-1 * ((c - a) mod 2) + (1 * ((b - a) mod 2) + 0))) with (((c - a) / 2 - (c - b) / 2 - (b - a) / 2) * 2) by lia. apply Z.mod_mul. lia.
  - do 3 eexists. split; [vm_compute; reflexivity|]. split; [vm_compute; reflexivity|]. split; [vm_compute; reflexivity|]. vm_compute. reflexivity.
  - do 4 eexists. split; [vm_compute; reflexivity|]. split; [vm_compute; reflexivity|]. split; [vm_compute; reflexivity|]. split; [vm_compute; reflexivity|]. vm_compute. reflexivity.
Qed.
