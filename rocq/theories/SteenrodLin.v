(** * Values of Steenrod operations on cycles (proof library for C74) *)
From Coq Require Import Setoid Morphisms Znumtheory.
From Verif Require Import PyBase Dict FreeModule Symmetric Simplicial Utils Surjection BarrattEccles Eqm Spec SpecChain SpecOperad SpecSurj SpecAction SpecCochain FreeModuleFacts FreeModuleLaws ListFacts
  ClassFacts LinearFacts BilFacts SymmetricFacts CycleFacts SymmetricLaws RingFacts Tensor TensorAct KoszulFacts LoopFacts AW SimplicialFacts SimplicialDiag SimplicialLaws BEOrbit BEDiag MayFacts BELaws3 SurjFacts SurjBoundary SurjLaws SurjAct SurjMay
  SteenrodLaws ActFacts ActSign ActCore ActCode ActLaws EquivAct SteenrodAct StnLaws SteenrodWords.

(** ** words in two letters and their rotations *)
Lemma sumf_single {A} (f : A -> Z) l a : NoDup l -> In a l -> (forall x, In x l -> x <> a -> f x = 0) -> sumf f l = f a.
Proof.
  induction l as [|b l IH]; intros ND Hin Hf; [destruct Hin|]. inversion ND as [|? ? Nb ND']; subst. rewrite sumf_cons. destruct Hin as [->|Hin].
  - rewrite sumf_0; [ring|]. intros x Hx. apply Hf; [now right|]. intros ->. contradiction.
  - rewrite IH; auto; [|intros; apply Hf; auto; now right]. rewrite (Hf b); [ring|now left|]. intros ->. contradiction.
Qed.
Lemma sumf_znth {A} (f : A -> Z) d l : sumf f l = sumf (fun j => f (znth d l j)) (zrange 0 (zlen l)).
Proof.
  induction l as [|b l IH]; [reflexivity|]. rewrite sumf_cons, IH. rewrite zlen_cons. rewrite (sumf_zrange_S _ (zlen l)) by apply zlen_nonneg. f_equal.
  apply sumf_ext. intros j Hj. apply in_zrange in Hj. unfold znth. replace (Z.to_nat (j + 1)) with (Datatypes.S (Z.to_nat j)) by lia. reflexivity.
Qed.
Fixpoint words (n : nat) : list (list (list Z)) := match n with O => [[]] | Datatypes.S n => map (cons [0]) (words n) ++ map (cons [1]) (words n) end.
Lemma words_in n : forall w, In w (words n) <-> okw w /\ length w = n.
Proof.
  induction n as [|n IH]; intros w; cbn [words].
  - split; [intros [<-|[]]; split; [intros ? []|reflexivity]|]. intros [_ L]. left. destruct w; [reflexivity|discriminate].
  - rewrite in_app_iff, !in_map_iff. split.
    + intros [(v & <- & Hv)|(v & <- & Hv)]; apply IH in Hv; destruct Hv as [Ho L]; (split; [|cbn; lia]); intros b [<-|Hb]; auto.
    + intros [Ho L]. destruct w as [|b w]; [discriminate|]. assert (Hw : In w (words n)) by (apply IH; split; [intros c' Hc; apply Ho; now right|cbn in L; lia]).
      destruct (Ho b) as [-> | ->]; [now left| |]; [left|right]; exists w; auto.
Qed.
Lemma words_nodup n : NoDup (words n).
Proof.
  induction n as [|n IH]; cbn [words]; [repeat constructor; intros []|]. apply NoDup_app_intro.
  - apply FinFun.Injective_map_NoDup; [intros ? ? [= ->]; reflexivity|exact IH].
  - apply FinFun.Injective_map_NoDup; [intros ? ? [= ->]; reflexivity|exact IH].
  - intros w H1 H2. apply in_map_iff in H1, H2. destruct H1 as (? & <- & _), H2 as (? & [=] & _).
Qed.
Lemma placef_pmul n a b w : 0 <= n -> perm n a -> perm n b -> zlen w = n -> placef a (placef b w) = placef (pmul a b) w.
Proof.
  intros Hn Ha Hb Lw. set (t := placef (pmul a b) w).
  pose proof (kact_pmul (fun _ => 0) n (fun u => if list_eq_dec (list_eq_dec Z.eq_dec) u t then 1 else 0) a b w Hn Ha Hb Lw) as E. unfold kact in E. rewrite !kinv_const in E.
  change (0 * 0) with 0 in E. rewrite !Z.mul_0_l, sgn_0 in E. fold t in E. destruct (list_eq_dec _ (placef a _) t) as [H1|H1]; [exact H1|]. destruct (list_eq_dec _ t t); [discriminate|congruence].
Qed.
Section Rot.
Variables (p : Z) (q : list (list Z) -> Z).
Hypothesis Hp : prime p.
Notation R j w := (placef (rot p (- j)) w).
Hypothesis Hq : forall w, okw w -> zlen w = p -> eqm p (sumf (fun j => q (R j w)) (zrange 0 p)) 0.
Definition cnt (w : list (list Z)) : Z := sumf (fun l => if isu l then 0 else 1) w.
Lemma Hp1' : 2 <= p. Proof. pose proof (prime_ge_2 p Hp). lia. Qed.
Lemma rot_ok j w : okw w -> zlen w = p -> okw (placef (rot p j) w) /\ zlen (placef (rot p j) w) = p.
Proof. pose proof Hp1'. intros Ho Lw. apply (placef_ok p); auto. apply perm_rot. lia. Qed.
Lemma rot_inv j w : zlen w = p -> placef (rot p j) (placef (rot p (- j)) w) = w.
Proof.
  pose proof Hp1'. intros Lw. rewrite (placef_pmul p) by (try apply perm_rot; lia). rewrite rot_add by lia. replace (j + - j) with 0 by ring. rewrite rot_0. unfold placef. rewrite zlen_zrange.
  replace (Z.max 0 (p + 1 - 1) + 1) with (p + 1) by lia. apply map_lab; [apply NoDup_zrange|]. rewrite zrange_length. unfold zlen in Lw. lia.
Qed.
Lemma rot_head j w : 0 <= j < p -> exists v, R j w = znth [] w j :: v.
Proof.
  pose proof Hp1'. intros Hj. unfold placef. rewrite rot_len by lia. rewrite zrange_cons by lia. cbn [map]. eexists. f_equal. unfold lab. f_equal.
  assert (E : image (rot p (- j)) (j + 1) = 1) by (rewrite image_rot by lia; replace (j + 1 - 1 + - j) with 0 by ring; rewrite Z.mod_0_l by lia; reflexivity).
  rewrite <- E at 1. rewrite (posn_image p) by (try apply perm_rot; lia). ring.
Qed.
Lemma cnt_rot j w : zlen w = p -> cnt (placef (rot p j) w) = cnt w.
Proof. pose proof Hp1'. intros Lw. unfold cnt. apply sumf_perm. apply (placef_perm p); [lia|apply perm_rot; lia|exact Lw]. Qed.
Lemma sum_flip w : okw w -> zlen w = p -> eqm p (sumf (fun j => q (placef (rot p j) w)) (zrange 0 p)) 0.
Proof.
  pose proof Hp1'. intros Ho Lw. etransitivity; [|exact (Hq w Ho Lw)]. apply eqm_eq. transitivity (sumf (fun j => q (R j w)) (map (fun j => (- j) mod p) (zrange 0 p))).
  - rewrite sumf_map. apply sumf_ext. intros j Hj. apply in_zrange in Hj. f_equal. f_equal. destruct (Z.eq_dec j 0) as [->|N]; [f_equal; rewrite Z.mod_0_l by lia; reflexivity|].
    replace ((- j) mod p) with (p - j) by (apply Z.mod_unique with (-1); lia). replace (- (p - j)) with (j - p) by ring. rewrite <- (rot_period p (j - p)) by lia. f_equal. ring.
  - apply sumf_perm. apply NoDup_Permutation.
    + apply NoDup_map_inj; [|apply NoDup_zrange]. intros x y Hx Hy E. apply in_zrange in Hx, Hy. assert (E2 : (x - y) mod p = 0) by (replace (x - y) with (- y - - x) by ring; rewrite Zminus_mod, E, Z.sub_diag; apply Z.mod_0_l; lia).
      apply Z.mod_divide in E2; [|lia]. destruct E2 as [z Ez]. assert (z = 0) by (destruct (Z.lt_trichotomy z 0) as [?|[?|?]]; nia). subst z. lia.
    + apply NoDup_zrange.
    + intros x. rewrite in_map_iff. split.
      * intros (y & <- & _). apply in_zrange. apply Z.mod_pos_bound. lia.
      * intros Hx. apply in_zrange in Hx. exists ((- x) mod p). split; [|apply in_zrange; apply Z.mod_pos_bound; lia]. rewrite <- (Z.sub_0_l ((- x) mod p)), Zminus_mod_idemp_r. replace (0 - - x) with x by ring. apply Z.mod_small. lia.
Qed.
Notation W := (words (Z.to_nat p)).
Lemma W_in w : In w W <-> okw w /\ zlen w = p.
Proof. pose proof Hp1'. rewrite words_in. unfold zlen. split; intros [? ?]; (split; [assumption|lia]). Qed.
Lemma W_rot j : Permutation (map (fun w => R j w) W) W.
Proof.
  pose proof Hp1'. apply NoDup_Permutation; [|apply words_nodup|].
  - apply NoDup_map_inj; [|apply words_nodup]. intros x y Hx Hy E. apply W_in in Hx, Hy. rewrite <- (rot_inv j x), <- (rot_inv j y) by tauto. now rewrite E.
  - intros w. rewrite in_map_iff. split.
    + intros (v & <- & Hv). apply W_in in Hv. apply W_in. now apply rot_ok.
    + intros Hw. apply W_in in Hw. exists (placef (rot p j) w). split; [|apply W_in; now apply rot_ok]. replace j with (- - j) at 2 by ring. now apply rot_inv.
Qed.
Definition SN (n : Z) : Z := sumf (fun w => if cnt w =? n then q w else 0) W.
Definition hd1 (w : list (list Z)) : Z := match w with l :: _ => if isu l then 0 else 1 | [] => 0 end.
Lemma SN_mul n : eqm p (n * SN n) 0.
Proof.
  pose proof Hp1'. unfold SN. rewrite <- sumf_scal.
  transitivity (sumf (fun w => sumf (fun j => (if cnt w =? n then q w else 0) * hd1 (R j w)) (zrange 0 p)) W).
  { apply eqm_eq. apply sumf_ext. intros w Hw. apply W_in in Hw. rewrite sumf_scal. destruct (Z.eqb_spec (cnt w) n) as [<-|]; [|ring]. rewrite Z.mul_comm. f_equal. unfold cnt. rewrite (sumf_znth _ []), (proj2 Hw).
    apply sumf_ext. intros j Hj. apply in_zrange in Hj. destruct (rot_head j w Hj) as [v ->]. reflexivity. }
  rewrite sumf_exch.
  transitivity (sumf (fun j => sumf (fun w => (if cnt w =? n then q (placef (rot p j) w) else 0) * hd1 w) W) (zrange 0 p)).
  { apply eqm_eq. apply sumf_ext. intros j _. symmetry. etransitivity; [symmetry; apply (sumf_perm _ _ _ (W_rot j))|]. rewrite sumf_map. apply sumf_ext. intros w Hw. apply W_in in Hw. rewrite cnt_rot by tauto. now rewrite rot_inv by tauto. }
  rewrite sumf_exch. rewrite (sumf_eqm p _ (fun _ => 0)); [apply eqm_eq; now apply sumf_0|]. intros w Hw. apply W_in in Hw. rewrite sumf_scal_r. destruct (cnt w =? n); [|apply eqm_eq; rewrite sumf_0 by reflexivity; ring].
  rewrite sum_flip by tauto. apply eqm_eq. ring.
Qed.
Lemma SN_mid n : 1 <= n < p -> eqm p (SN n) 0.
Proof.
  intros Hn. destruct (SN_mul n) as [z Ez]. rewrite Z.sub_0_r in Ez. assert (D : (p | n * SN n)) by (exists z; exact Ez). apply prime_mult in D; [|exact Hp]. destruct D as [D|[y Ey]].
  - apply Z.divide_pos_le in D; lia.
  - exists y. lia.
Qed.
Lemma cnt_range w : 0 <= cnt w <= zlen w.
Proof. unfold cnt. induction w as [|l w IH]; [split; [reflexivity|discriminate]|]. rewrite sumf_cons, zlen_cons. destruct (isu l); lia. Qed.
Lemma cnt_0 w : okw w -> cnt w = 0 -> w = repeat [0] (length w).
Proof.
  induction w as [|l w IH]; intros Ho E; [reflexivity|]. unfold cnt in *. rewrite sumf_cons in E. pose proof (cnt_range w) as C. unfold cnt in C. cbn [length repeat]. destruct (Ho l) as [-> | ->]; [now left| |].
  - f_equal. apply IH; [intros b Hb; apply Ho; now right|exact E].
  - change (isu [1]) with false in E. cbv iota in E. lia.
Qed.
Lemma cnt_full w : okw w -> cnt w = zlen w -> w = repeat [1] (length w).
Proof.
  induction w as [|l w IH]; intros Ho E; [reflexivity|]. unfold cnt in *. rewrite sumf_cons, zlen_cons in E. pose proof (cnt_range w) as C. unfold cnt in C. cbn [length repeat]. destruct (Ho l) as [-> | ->]; [now left| |].
  - change (isu [0]) with true in E. cbv iota in E. lia.
  - change (isu [1]) with false in E. cbv iota in E. f_equal. apply IH; [intros b Hb; apply Ho; now right|lia].
Qed.
Lemma cnt_rep a n : cnt (repeat [a] n) = if isu [a] then 0 else Z.of_nat n.
Proof. induction n as [|n IH]; [cbn [repeat]; unfold cnt; rewrite sumf_nil; now destruct (isu [a])|]. cbn [repeat]. unfold cnt in *. rewrite sumf_cons, IH. destruct (isu [a]); lia. Qed.
Lemma okw_rep a n : a = 0 \/ a = 1 -> okw (repeat [a] n).
Proof. intros Ha b Hb. apply repeat_spec in Hb. destruct Ha as [-> | ->]; auto. Qed.
Lemma zlen_rep {B} (a : B) : zlen (repeat a (Z.to_nat p)) = p.
Proof. pose proof Hp1'. unfold zlen. rewrite repeat_length. lia. Qed.
Lemma SN_0 : SN 0 = q (repeat [0] (Z.to_nat p)).
Proof.
  unfold SN. rewrite (sumf_single _ _ (repeat [0] (Z.to_nat p))).
  - now rewrite cnt_rep.
  - apply words_nodup.
  - apply W_in. split; [apply okw_rep; auto|apply zlen_rep].
  - intros w Hw N. apply W_in in Hw. destruct (Z.eqb_spec (cnt w) 0) as [E|]; [|reflexivity]. exfalso. apply N. rewrite (cnt_0 w) by tauto. f_equal. unfold zlen in Hw. lia.
Qed.
Lemma SN_p : SN p = q (repeat [1] (Z.to_nat p)).
Proof.
  pose proof Hp1'. unfold SN. rewrite (sumf_single _ _ (repeat [1] (Z.to_nat p))).
  - rewrite cnt_rep. change (isu [1]) with false. cbv iota. rewrite Z2Nat.id by lia. now rewrite Z.eqb_refl.
  - apply words_nodup.
  - apply W_in. split; [apply okw_rep; auto|apply zlen_rep].
  - intros w Hw N. apply W_in in Hw. destruct (Z.eqb_spec (cnt w) p) as [E|]; [|reflexivity]. exfalso. apply N. rewrite (cnt_full w) by (try tauto; lia). f_equal. unfold zlen in Hw. lia.
Qed.
Lemma words_sum : eqm p (sumf q W) (q (repeat [0] (Z.to_nat p)) + q (repeat [1] (Z.to_nat p))).
Proof.
  pose proof Hp1'. transitivity (sumf SN (zrange 0 (p + 1))).
  - apply eqm_eq. unfold SN. rewrite sumf_exch. apply sumf_ext. intros w Hw. apply W_in in Hw. rewrite (sumf_single _ _ (cnt w)); [now rewrite Z.eqb_refl|apply NoDup_zrange|apply in_zrange; pose proof (cnt_range w); lia|].
    intros x _ N. destruct (Z.eqb_spec (cnt w) x); [congruence|reflexivity].
  - rewrite sumf_zrange_snoc by lia. rewrite (zrange_cons 0 p) by lia. rewrite sumf_cons, SN_0, SN_p. rewrite (sumf_eqm p _ (fun _ => 0)); [|intros n Hn; apply in_zrange in Hn; apply SN_mid; lia]. rewrite sumf_0 by reflexivity. apply eqm_eq. ring.
Qed.
End Rot.

Section Cyc.
Variables (dt p e : Z) (X : list Z -> Prop) (c bc : simp).
Hypothesis Hp1 : 2 <= p.
Hypothesis Hp2 : p = 2 \/ Z.even p = false.
Hypothesis Hdt : dt_ok dt p.
Hypothesis HX : simplicial_set X.
Hypothesis Wc : wf cls_simplicial c.
Hypothesis Tc : torsion c = p.
Hypothesis Kc : keys_in (fun k => exists s, k = [s] /\ X s /\ zlen s - 1 = e) c.
Hypothesis Eb : simp_boundary dt c = Ok bc.
Hypothesis Zb : data bc = [].
Definition QQ (d : nat) (G : list (list Z) -> Z) : Z := FpS MS p d (fun k => ev (fun K => Phi p 1 G k K) (data c)).
Lemma key_c K v : In (K, v) (data c) -> exists s, K = [s] /\ X s /\ s <> [] /\ spx_is_degenerate s = false.
Proof.
  intros HK. destruct (Kc _ _ HK) as (s & -> & Xs & _). exists s.
  assert (Ns : spx_is_degenerate s = false). { destruct Wc as (_ & _ & W). destruct (W _ _ HK) as [_ W2]. cbn in W2. injection W2 as W2. now rewrite orb_false_r in W2. }
  repeat split; auto. intros ->. discriminate.
Qed.
Lemma QQ_eqm d G G' : (forall K, zlen K = p -> (forall b, In b K -> X b) -> eqm p (G K) (G' K)) -> eqm p (QQ d G) (QQ d G').
Proof.
  intros E. unfold QQ. destruct (FpS_list MS p d ltac:(lia)) as (T & T1 & T2). rewrite !T2. apply ev_eqm. intros k v Hk. destruct (T1 _ _ Hk) as [Ck _].
  apply ev_eqm. intros K v' HK. destruct (key_c _ _ HK) as (s & -> & Xs & Ns & _). unfold Phi. apply ev_eqm. intros w v'' Hw. apply E.
  - apply (Phi_len p ltac:(lia) Hp1 (Z.of_nat d) k s w v'' Ck Hw).
  - apply (X_acts X p _ k s w v'' HX ltac:(lia) (proj1 Ck) Ns Xs Hw).
Qed.
Lemma QQ_ext d G G' : (forall K, zlen K = p -> G K = G' K) -> QQ d G = QQ d G'.
Proof.
  intros E. unfold QQ. destruct (FpS_list MS p d ltac:(lia)) as (T & T1 & T2). rewrite !T2. apply ev_ext. intros k v Hk. destruct (T1 _ _ Hk) as [Ck _].
  apply ev_ext. intros K v' HK. destruct (key_c _ _ HK) as (s & -> & Xs & Ns & _). unfold Phi. apply ev_ext. intros w v'' Hw. apply E.
  apply (Phi_len p ltac:(lia) Hp1 (Z.of_nat d) k s w v'' Ck Hw).
Qed.
Lemma QQ_ev {W} d (f : W -> list (list Z) -> Z) (L : dict W) : QQ d (fun K => ev (fun w => f w K) L) = ev (fun w => QQ d (f w)) L.
Proof.
  unfold QQ. destruct (FpS_list MS p d ltac:(lia)) as (T & T1 & T2). rewrite T2. rewrite (ev_ext (fun w => FpS MS p d _) (fun w => ev (fun k => ev (fun K => Phi p 1 (f w) k K) (data c)) T)) by (intros; apply T2).
  rewrite <- (ev_exch (fun k w => ev (fun K => Phi p 1 (f w) k K) (data c))). apply ev_ext. intros k v _.
  rewrite <- (ev_exch (fun K w => Phi p 1 (f w) k K)). apply ev_ext. intros K v' _. unfold Phi. apply (ev_exch (fun w' w => f w w')).
Qed.
Lemma QQ_sumf {W} d (f : W -> list (list Z) -> Z) (L : list W) : QQ d (fun K => sumf (fun w => f w K) L) = sumf (fun w => QQ d (f w)) L.
Proof.
  pose proof (QQ_ev d f (map (fun w => (w, 1)) L)) as E. unfold ev in E. rewrite sumf_map in E. cbn [fst snd] in E.
  rewrite (sumf_ext (fun w => QQ d (f w)) (fun b => 1 * QQ d (f b))) by (intros; ring). rewrite <- E. apply QQ_ext. intros K _. rewrite sumf_map. apply sumf_ext. intros. cbn [fst snd]. ring.
Qed.
Lemma QQ_scal d a G : QQ d (fun K => a * G K) = a * QQ d G.
Proof.
  transitivity (QQ d (fun K => ev (fun _ : unit => G K) [(tt, a)])); [apply QQ_ext; intros K _; rewrite ev_cons, ev_nil; ring|].
  rewrite (QQ_ev d (fun _ : unit => G)). rewrite ev_cons, ev_nil. apply Z.add_0_r.
Qed.
Lemma Bd G k d' K : adm cls_simplicial G -> surj_cell p d' k -> adj k = true -> Phi p 1 G k K = 0.
Proof.
  intros AG [Ho _] Ak. unfold Phi. apply ev_zero. intros w v Hin. apply AG. cbn [bad cls_simplicial]. f_equal. refine (acts_bad p 1 k K w v Ho _ (or_introl Ak) Hin). apply (onto_ne p); [lia|exact Ho].
Qed.
Lemma bnd_part G d k : adm cls_simplicial G -> surj_cell p d k -> eqm p (ev (fun K => tDS (fun K' => Phi p 1 G k K') K) (data c)) 0.
Proof.
  intros AG Ck. assert (Ht : 0 <= p) by lia. destruct (adj k) eqn:Ak.
  - apply eqm_eq. apply ev_zero. intros K v _. rewrite (tD_ext_all fbS spx_dim _ (fun _ => 0 * 0)) by (intros; now rewrite (Bd G k d)). rewrite tD_scal. ring.
  - assert (Kc' : keys_in (kdegS 1 e) c).
    { intros K v Hk. destruct (Kc _ _ Hk) as (s & -> & _ & Es). split; [reflexivity|]. rewrite tdeg_cons. change (tdeg spx_dim []) with 0. unfold spx_dim. lia. }
    destruct (linop_bnd cls_simplicial sck fbS spx_dim dt (simp_boundary dt) (fun t x => simp_boundary_den dt t x) p _ _ Ht Hdt (kpred_kdegS _ _) (tb_kdeg fbS spx_dim dim_fbS 1 e) c Wc Tc (s_attr' c) Kc') as (bc' & Eb' & Db & Kb).
    rewrite Eb in Eb'. injection Eb' as <-.
    destruct (adm_Phi p d 1 (e - 1) 1 ltac:(lia) G (adm_admP _ _ _ AG)) as [_ B].
    pose proof (rep_tD fbS spx_dim (kdegS 1 e) (kdegS 1 (e - 1)) (tb_kdeg fbS spx_dim dim_fbS 1 e)) as R. 
    destruct (local_list _ _ _ (data c) (rep_local _ _ _ R) Kc') as (l & Hl1 & Hl2).
    assert (Gk : bad cls_surj k = Ok false) by (change (bad cls_surj k) with (surj_bad k); rewrite (surj_bad_onto p) by (try lia; apply Ck); now rewrite Ak).
    pose proof (den_ev_on cls_simplicial ok_simplicial p tt _ bc (kdegS 1 (e - 1)) (fun K => Phi p 1 G k K) l (kpred_kdegS _ _) Db Kb) as E.
    rewrite Zb, ev_nil in E. symmetry. apply E; [apply B; assumption|]. intros h Hh. apply eqm_eq. apply Hl2. intros k' Hk'. apply Hh; auto.
Qed.
Lemma QQ_step d G : adm cls_simplicial G -> eqm p (QQ d (tDS G)) (FpS MS p d (sd MS (fun k => ev (fun K => Phi p 1 G k K) (data c)))).
Proof.
  intros AG. unfold QQ. destruct (FpS_list MS p d ltac:(lia)) as (T & T1 & T2). rewrite !T2. apply ev_eqm. intros k v Hk. destruct (T1 _ _ Hk) as [Ck _].
  destruct (rep_sd MS _ _ (sface_cell p (Z.of_nat d)) k Ck) as (L & L1 & L2). rewrite L2.
  rewrite (ev_ext _ (fun K => ev (fun k' => Phi p 1 G k' K) L + sgn (Z.of_nat d) * tDS (fun K' => Phi p 1 G k K') K)).
  - rewrite ev_add, ev_scal. rewrite (bnd_part G (Z.of_nat d) k AG Ck). rewrite (ev_exch (fun K k' => Phi p 1 G k' K)). apply eqm_eq. ring.
  - intros K v' HK. destruct (key_c _ _ HK) as (s & -> & Xs & Ns & _). rewrite <- L2. apply (Phi_chain p (Z.of_nat d) 1 G k [] s []); auto; lia.
Qed.
Lemma QQ_0 G : adm cls_simplicial G -> eqm p (QQ 0 (tDS G)) 0.
Proof.
  intros AG. rewrite QQ_step by exact AG. apply eqm_eq. destruct (FpS_list MS p 0 ltac:(lia)) as (T & T1 & T2). rewrite T2. apply ev_zero. intros k v Hk. destruct (T1 _ _ Hk) as [Ck _].
  destruct (rep_sd MS _ _ (sface_cell p (Z.of_nat 0)) k Ck) as (L & L1 & L2). rewrite L2. apply ev_zero. intros k' v' Hk'. exfalso. destruct (L1 _ _ Hk') as [Ho Lk]. apply (onto_long p) in Ho; lia.
Qed.
Lemma QQ_chain d G : adm cls_simplicial G -> eqm p (QQ (Datatypes.S d) (tDS G)) (RA p (Datatypes.S d) (fun r => QQ d (fun K => kact spx_dim G r K))).
Proof.
  intros AG. rewrite QQ_step by exact AG. rewrite FpS_boundary; [|lia|].
  - apply eqm_eq. apply RA_ext; [lia|]. intros r Hr. apply FpS_ext; [lia|]. intros k [Ck _]. rewrite <- ev_scal. apply ev_ext. intros K v HK. destruct (key_c _ _ HK) as (s & -> & _). apply Phi_equiv; [lia|exact Hr|apply Ck].
  - intros k Ck Ak. apply ev_zero. intros K v _. now apply (Bd G k (Z.of_nat d)).
Qed.

(** ** a word of cochains *)
Lemma tau_adm (val : list Z -> list Z -> Z) w : (forall l b, In l w -> spx_is_degenerate b = true -> val l b = 0) -> adm cls_simplicial (fun K => tau val w K).
Proof.
  intros Hv. split; [intros k k' E; now apply keqb_eq in E; subst|]. intros K Hk. injection Hk as Hk. revert K Hk. induction w as [|l w IH]; intros [|b K] Hk; try reflexivity; [discriminate|].
  cbn [existsb] in Hk. cbn [tau]. apply orb_true_iff in Hk. destruct Hk as [Hk|Hk]; [rewrite Hv by (auto; now left); ring|]. rewrite IH; [ring| |exact Hk]. intros; apply Hv; auto; now right.
Qed.

(** ** coboundaries have value zero *)
Lemma kact_QQ d val dg r w : (forall l b, eqm 2 (dg l) (spx_dim b) \/ val l b = 0) -> perm p r -> zlen w = p ->
  QQ d (fun K => kact spx_dim (fun K' => tau val w K') r K) = kact dg (fun w' => QQ d (fun K => tau val w' K)) (pinv r) w.
Proof.
  intros Hv Hr Lw. rewrite (QQ_ext d _ (fun K => sgn (kinv (pinv r) (fun j => dg (lab (pinv r) w j))) * tau val (placef (pinv r) w) K)).
  - now rewrite QQ_scal.
  - intros K LK. rewrite (tau_kact val dg Hv p) by (auto; lia). reflexivity.
Qed.
Lemma rot_sign c' j w : (forall l, In l w -> c' l = c' [1]) -> 0 <= j -> zlen w = p ->
  eqm p (sgn (kinv (pinv (rot p j)) (fun i => c' (lab (pinv (rot p j)) w i)))) 1.
Proof.
  intros Hw Hj Lw. assert (Pr : perm p (rot p j)) by (apply perm_rot; lia). assert (Pq : perm p (pinv (rot p j))) by (apply perm_pinv; [lia|exact Pr]).
  rewrite (kinv_ext _ _ (fun _ => c' [1])).
  2:{ intros i Hi. apply Hw. unfold lab, znth. apply nth_In. destruct (posn_index _ _ Hi) as (_ & R & _). rewrite (perm_len p) in R by (assumption || lia). unfold zlen in *. lia. }
  rewrite kinv_const. destruct Hp2 as [E|Ho].
  - rewrite E. destruct (sgn_cases (c' [1] * c' [1] * inversions (pinv (rot 2 j)))) as [-> | ->]; [reflexivity|]. exists (-1). reflexivity.
  - apply eqm_eq. assert (E : psgn (pinv (rot p j)) = 1).
    { transitivity (psgn (pinv (rot p j)) * psgn (rot p j)); [rewrite (psgn_rot p j) by (auto; lia); ring|]. rewrite <- (psgn_pmul p) by (auto; lia). rewrite (pinv_l p) by (auto; lia). apply psgn_id; lia. }
    unfold psgn in E. set (m := c' [1]). destruct (Z.even m) eqn:Em; [rewrite <- Z.mul_assoc; now rewrite sgn_mul_even|]. rewrite <- E. apply sgn_eqm.
    destruct (Z.Even_or_Odd m) as [[q Eq]|[q Eq]]; [rewrite Eq, Z.even_mul in Em; discriminate|]. exists ((2 * q * q + 2 * q) * inversions (pinv (rot p j))). rewrite Eq. ring.
Qed.
Section Cob.
Variables (m : Z) (beta : list Z -> Z).
Hypothesis Hm : 1 <= m.
Hypothesis Hbeta : cochain (m - 1) beta.
Definition bval (l b : list Z) : Z := if isu l then beta b else fdS beta b.
Lemma beta_deg b : spx_is_degenerate b = true -> beta b = 0.
Proof. apply (alpha_deg p (m - 1) (fun _ => False) beta); [lia|]. split; [exact Hbeta|]. intros ? []. Qed.
Lemma bval_deg l b : spx_is_degenerate b = true -> bval l b = 0.
Proof. intros D. unfold bval. destruct (isu l); [now apply beta_deg|]. apply fdS_bad; [exact beta_deg|exact D]. Qed.
Lemma bval_dim l b : eqm 2 (dgw m l) (spx_dim b) \/ bval l b = 0.
Proof.
  unfold bval, dgw. destruct (isu l).
  - destruct (Z.eq_dec (spx_dim b) (m - 1)) as [->|N]; [left; exists (1 - m); ring|]. right. apply (proj2 Hbeta). exact N.
  - destruct (Z.eq_dec (spx_dim b) m) as [->|N]; [left; exists (- m); ring|]. right. apply ev_zero. intros b' v Hb. apply (proj2 Hbeta). apply dim_fbS in Hb. unfold spx_dim in *. lia.
Qed.
Lemma bval_d l b : l = [0] \/ l = [1] -> fdS (bval l) b = fd fbw (fun l' => bval l' b) l.
Proof.
  intros [-> | ->].
  - unfold fd at 2. change (fbw [0]) with [([1], 1)]. rewrite ev_cons, ev_nil. change (bval [1] b) with (fdS beta b). change (fdS (bval [0]) b) with (fdS beta b). ring.
  - change (fdS (bval [1]) b) with (fdS (fdS beta) b). now rewrite fdS_fdS.
Qed.
Definition qb (d : nat) (w : list (list Z)) : Z := QQ d (fun K => tau bval w K).
Lemma qb_D d w : okw w -> zlen w = p -> tD fbw (dgw m) (qb d) w = QQ d (tDS (fun K => tau bval w K)).
Proof.
  intros Ho Lw. unfold tD at 1. unfold qb. rewrite <- (QQ_ev d (fun w' K => tau bval w' K)). apply QQ_ext. intros K LK.
  symmetry. apply (tau_tD bval fbw (dgw m) bval_dim); [unfold zlen in *; lia|]. intros l b Hl. apply bval_d, Ho, Hl.
Qed.
Lemma tau_on (f : list Z -> Z) w : forall K, (forall l, In l w -> forall b, bval l b = f b) -> length w = length K -> tau bval w K = on_tensor f K.
Proof.
  induction w as [|l w IH]; intros [|b K] Hl L; try discriminate; [reflexivity|]. cbn [tau]. change (on_tensor f (b :: K)) with (f b * on_tensor f K). rewrite IH; [|intros; apply Hl; now right|cbn in L; lia].
  now rewrite Hl by now left.
Qed.
Lemma ones_ok : okw (repeat [1] (Z.to_nat p)) /\ zlen (repeat [1] (Z.to_nat p)) = p.
Proof. split; [|unfold zlen; rewrite repeat_length; lia]. intros b Hb. apply repeat_spec in Hb. now right. Qed.
Lemma QQ_coboundary d : eqm p (QQ d (on_tensor (fdS beta))) 0.
Proof.
  destruct (resolve p m Hp1 qb) with (d := d) as (r & x & E1 & _ & E3).
  - intros w Ho Lw. rewrite qb_D by assumption. apply QQ_0. apply tau_adm. intros; now apply bval_deg.
  - intros d' w Ho Lw. rewrite qb_D by assumption. rewrite QQ_chain by (apply tau_adm; intros; now apply bval_deg). apply eqm_eq. unfold AA. apply RA_ext; [lia|]. intros r Hr. apply kact_QQ; [apply bval_dim|exact Hr|exact Lw].
  - destruct ones_ok as [Ho Lw]. set (w := repeat [1] (Z.to_nat p)) in *.
    assert (Hw : forall l, In l w -> l = [1]) by (intros l Hl; now apply repeat_spec in Hl).
    assert (EQ0 : QQ d (on_tensor (fdS beta)) = qb d w).
    { apply QQ_ext. intros K LK. symmetry. apply tau_on; [|unfold zlen in *; lia]. intros l Hl b. now rewrite (Hw l Hl). }
    rewrite EQ0. pose proof (E1 w Ho Lw) as E. cbn beta in E.
    assert (D0 : tD fbw (dgw m) r w = 0).
    { clear -Hw. revert r. induction w as [|l w IH]; intros r; [reflexivity|]. rewrite tD_cons. rewrite IH by (intros; apply Hw; now right). rewrite (Hw l) by now left. unfold fd. change (fbw [1]) with (@nil (list Z * Z)). rewrite ev_nil. ring. }
    rewrite D0, Z.sub_0_r in E. rewrite E. destruct E3 as [-> |(d' & r' & ->)]; [reflexivity|].
    transitivity (RA p d' (fun _ => r' w)); [|apply RA_const; lia]. unfold AA. apply RA_eqm; [lia|lia|]. intros j Hj. unfold kact. rewrite rot_sign; [|intros l Hl; now rewrite (Hw l Hl)|exact Hj|exact Lw].
    assert (Pq : perm p (pinv (rot p j))) by (apply perm_pinv; [lia|]; apply perm_rot; lia).
    assert (Ew : placef (pinv (rot p j)) w = w); [|rewrite Ew; apply eqm_eq; ring].
    pose proof (placef_len p (pinv (rot p j)) w ltac:(lia) Pq) as L1. pose proof (placef_perm p (pinv (rot p j)) w ltac:(lia) Pq Lw) as P1.
    unfold w at 2. assert (L2 : Z.to_nat p = length (placef (pinv (rot p j)) w)) by (unfold zlen in L1; lia). rewrite L2. apply Forall_eq_repeat, Forall_forall. intros b Hb. symmetry. apply Hw. exact (Permutation_in b P1 Hb).
Qed.
End Cob.

(** ** additivity *)
Section Add.
Variables (m : Z) (alpha beta : list Z -> Z).
Hypothesis Hpr : prime p.
Hypothesis Hm : 0 <= m.
Hypothesis Ha : cocycle p m X alpha.
Hypothesis Hb : cocycle p m X beta.
Definition aval (l b : list Z) : Z := if isu l then alpha b else beta b.
Lemma aval_co l : cocycle p m X (aval l). Proof. unfold aval. destruct (isu l); [exact Ha|exact Hb]. Qed.
Lemma aval_dim l b : eqm 2 ((fun _ => m) l) (spx_dim b) \/ aval l b = 0.
Proof. destruct (Z.eq_dec (spx_dim b) m) as [->|N]; [left; reflexivity|]. right. apply (proj2 (proj1 (aval_co l))). exact N. Qed.
Lemma tau_aval_adm w : adm cls_simplicial (fun K => tau aval w K).
Proof. apply tau_adm. intros l b _. apply (alpha_deg p m X (aval l) Hm (aval_co l)). Qed.
Lemma tau_aval_d w : forall K, (forall b, In b K -> X b) -> eqm p (tDS (fun K' => tau aval w K') K) 0.
Proof.
  induction w as [|l w IH]; intros [|b K] HK; [reflexivity| |reflexivity|].
  - apply eqm_eq. rewrite tD_cons. rewrite (fd_ext_all fbS _ (fun b' => 0 * 0)) by reflexivity. rewrite fd_scal. rewrite (tD_ext_all fbS spx_dim _ (fun _ => 0 * 0)) by reflexivity. rewrite tD_scal. ring.
  - rewrite tD_cons. rewrite (fd_ext_all fbS _ (fun b' => tau aval w K * aval l b')) by (intros; cbn [tau]; ring). rewrite fd_scal, (alpha_cocycle p m X (aval l) (aval_co l)) by (try lia; apply HK; now left).
    rewrite (tD_ext_all fbS spx_dim _ (fun k' => aval l b * tau aval w k')) by reflexivity. rewrite tD_scal, IH by (intros; apply HK; now right). apply eqm_eq. ring.
Qed.
Definition qa (d : nat) (w : list (list Z)) : Z := QQ d (fun K => tau aval w K).
Lemma pinv_rot j : pinv (rot p j) = rot p (- j).
Proof.
  assert (P1 : perm p (rot p j)) by (apply perm_rot; lia). apply (pmul_cancel_l p (rot p j)); auto using perm_pinv; [lia|apply perm_pinv; [lia|exact P1]|apply perm_rot; lia|].
  rewrite (pinv_r p) by (auto; lia). rewrite rot_add by lia. replace (j + - j) with 0 by ring. now rewrite rot_0.
Qed.
Lemma qa_RA d w : zlen w = p -> eqm p (RA p (Datatypes.S d) (fun r => qa d (placef (pinv r) w))) 0.
Proof.
  intros Lw. transitivity (QQ (Datatypes.S d) (tDS (fun K => tau aval w K))).
  - symmetry. rewrite QQ_chain by apply tau_aval_adm. apply RA_eqm; [lia|lia|]. intros j Hj. rewrite (kact_QQ d aval (fun _ => m)); [|apply aval_dim|apply perm_rot; lia|exact Lw].
    unfold kact. rewrite (rot_sign (fun _ => m) j w) by (auto; reflexivity). apply eqm_eq. unfold qa. ring.
  - rewrite (QQ_eqm _ _ (fun _ => 0 * 0)); [rewrite QQ_scal; apply eqm_eq; ring|]. intros K _ HK. now apply tau_aval_d.
Qed.
Lemma qa_sum d w : okw w -> zlen w = p -> eqm p (sumf (fun j => qa d (placef (rot p (- j)) w)) (zrange 0 p)) 0.
Proof.
  intros Ho Lw. destruct (Nat.even (Datatypes.S d)) eqn:Ed.
  - pose proof (qa_RA d w Lw) as E. unfold RA in E. rewrite Ed in E. rewrite <- E at 2. apply eqm_eq. apply sumf_ext. intros j _. now rewrite pinv_rot.
  - assert (St : forall v, zlen v = p -> eqm p (qa d (placef (rot p (-1)) v)) (qa d (placef (rot p 0) v))).
    { intros v Lv. pose proof (qa_RA d v Lv) as E. unfold RA in E. rewrite Ed, !pinv_rot in E. change (- (0)) with 0 in E. change (Z.opp 1) with (-1) in E. destruct E as [z E]. exists z. rewrite <- E. ring. }
    assert (It : forall j : nat, eqm p (qa d (placef (rot p (- Z.of_nat j)) w)) (qa d (placef (rot p 0) w))).
    { induction j as [|j IH]; [reflexivity|]. rewrite <- IH. rewrite Nat2Z.inj_succ. replace (- Z.succ (Z.of_nat j)) with (-1 + - Z.of_nat j) by lia. rewrite <- rot_add by lia.
      rewrite <- (placef_pmul p) by (try apply perm_rot; lia). rewrite St by (apply (placef_len p); [lia|apply perm_rot; lia]). rewrite (placef_pmul p) by (try apply perm_rot; lia). rewrite rot_add by lia. reflexivity. }
    rewrite (sumf_eqm p _ (fun _ => qa d (placef (rot p 0) w) * 1)).
    + rewrite sumf_scal, sumf_1, zlen_zrange. exists (qa d (placef (rot p 0) w)). rewrite Z.max_r by lia. ring.
    + intros j Hj. apply in_zrange in Hj. rewrite <- (Z2Nat.id j) by lia. rewrite It. apply eqm_eq. ring.
Qed.
Lemma on_sum K : on_tensor (fun b => alpha b + beta b) K = sumf (fun w => tau aval w K) (words (length K)).
Proof.
  induction K as [|b K IH]; [reflexivity|]. change (on_tensor (fun b => alpha b + beta b) (b :: K)) with ((alpha b + beta b) * on_tensor (fun b => alpha b + beta b) K). rewrite IH.
  cbn [length words]. rewrite sumf_app, !sumf_map. rewrite (sumf_ext (fun a => tau aval ([0] :: a) (b :: K)) (fun w => alpha b * tau aval w K)) by reflexivity. rewrite (sumf_ext (fun a => tau aval ([1] :: a) (b :: K)) (fun w => beta b * tau aval w K)) by reflexivity.
  rewrite !sumf_scal. ring.
Qed.
Lemma tau_rep a K : tau aval (repeat [a] (length K)) K = on_tensor (aval [a]) K.
Proof. induction K as [|b K IH]; [reflexivity|]. cbn [length repeat tau]. rewrite IH. reflexivity. Qed.
Lemma QQ_add d : eqm p (QQ d (on_tensor (fun b => alpha b + beta b))) (QQ d (on_tensor alpha) + QQ d (on_tensor beta)).
Proof.
  assert (L : forall K : list (list Z), zlen K = p -> Z.to_nat p = length K) by (intros K LK; unfold zlen in LK; lia).
  rewrite (QQ_ext d (on_tensor (fun b => alpha b + beta b)) (fun K => sumf (fun w => tau aval w K) (words (Z.to_nat p)))) by (intros K LK; rewrite (L K LK); apply on_sum).
  rewrite QQ_sumf. rewrite (words_sum p (qa d) Hpr (qa_sum d)). apply eqm_eq. f_equal; apply QQ_ext; intros K LK; rewrite (L K LK), tau_rep; reflexivity.
Qed.
End Add.
(** ** the values computed by the code *)
Lemma QQ_eval m alpha c0 d (S : surj) : 0 <= m -> cochain m alpha -> den cls_surj p MS (fun g => c0 * FpS MS p d g) S ->
  exists z, surj_call_simplicial dt S c 1 = Ok z /\ eqm p (evaluate alpha z) (c0 * QQ d (on_tensor alpha)).
Proof.
  intros Hm Hal DS. assert (Ht : 0 <= p) by lia. set (G := on_tensor alpha).
  assert (AG : adm cls_simplicial G) by (apply (adm_on p m (fun _ => False) alpha Hm); split; [exact Hal|intros ? []]).
  assert (Kc' : keys_in (kdegS 1 e) c).
  { intros k v Hk. destruct (Kc _ _ Hk) as (s & -> & _ & Es). split; [reflexivity|]. rewrite tdeg_cons. change (tdeg spx_dim []) with 0. unfold spx_dim. lia. }
  assert (KS : keys_in (surj_cell p (Z.of_nat d)) S).
  { apply (den_keys cls_surj ok_surj p MS _ S _ Ht (kpred_cell p (Z.of_nat d)) DS). intros g _ H0. apply eqm_eq.
    destruct (FpS_list MS p d ltac:(lia)) as (L & L1 & L2). rewrite L2, ev_zero; [ring|]. intros k v Hin. apply H0. exact (proj1 (L1 _ _ Hin)). }
  destruct (bil_act dt p p (Z.of_nat d) 1 e 1 Ht Hdt ltac:(lia) ltac:(lia) S c (den_wf _ _ _ _ _ Ht DS) (proj1 DS) (proj1 (proj2 DS)) KS Wc Tc (s_attr' c) Kc') as (z & Ez & Dz).
  exists z. split; [exact Ez|]. change (evaluate alpha z) with (ev G (data z)). rewrite (den_ev cls_simplicial p tt _ z G Dz AG).
  set (F := fun k => ev (fun K => Phi p 1 G k K) (data c)).
  assert (AF : admP cls_surj (surj_cell p (Z.of_nat d)) F).
  { apply admP_keyeq. intros k Hk Hb. change (bad cls_surj k) with (surj_bad k) in Hb. rewrite (surj_bad_onto p) in Hb by (try lia; apply Hk). injection Hb as Hb. unfold F. apply ev_zero. intros K v _. now apply (Bd G k (Z.of_nat d)). }
  destruct (FpS_list MS p d ltac:(lia)) as (L & L1 & L2).
  apply (den_ev_on cls_surj ok_surj p MS _ S (surj_cell p (Z.of_nat d)) F (dkeys L) (kpred_cell p (Z.of_nat d)) DS KS AF).
  intros h Hh. apply eqm_eq. rewrite !L2. f_equal. apply ev_ext. intros k v' Hin. apply Hh; [exact (proj1 (L1 _ _ Hin))|]. now apply (in_map fst) in Hin.
Qed.
End Cyc.
