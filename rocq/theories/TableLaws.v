(** * Property theorems of the table reduction morphism. *)
From Coq Require Import Setoid Morphisms.
From Verif Require Import PyBase Dict FreeModule Symmetric Simplicial Utils Surjection BarrattEccles Eqm Spec SpecChain SpecOperad SpecSurj FreeModuleFacts FreeModuleLaws ListFacts
  ClassFacts LinearFacts BilFacts SymmetricFacts CycleFacts SymmetricLaws RingFacts RingLaws TensorAct LoopFacts ActGeneric BEFacts BEOrbit BELaws EZ BECompose SurjFacts SurjBoundary SurjLaws SurjAct SurjCompose SurjCompose2 SurjCompose3 SurjCompose4 SurjLaws6
  TableFacts TableFacts2 TableFacts3.

Lemma rws_sim n k : be_simplex n k -> rws (fun c => 1 <= c <= n) k.
Proof. intros H r Hr. split; [eapply perm_nodup; eauto|]. intros c. apply (perm_in n r c). auto. Qed.
Lemma TL_cell n d k w : 1 <= n -> be_cell n d k -> In w (TL k) -> surj_cell n d w.
Proof.
  intros Hn [Hs Hl] Hw. pose proof (rws_sim n k Hs) as R. assert (O : onto n w) by (intros c; apply (TL_in _ _ R w Hw c)). split; [exact O|].
  pose proof (TL_nc _ _ R w Hw) as E. rewrite (onto_nc n) in E by (auto; lia). lia.
Qed.
Lemma TL_onto n k w : be_simplex n k -> In w (TL k) -> onto n w.
Proof. intros Hs Hw c. apply (TL_in _ _ (rws_sim n k Hs) w Hw c). Qed.
Definition ones (l : list (list Z)) : dict (list Z) := map (fun w => (w, 1)) l.
Lemma ev_ones g l : ev g (ones l) = sumf g l.
Proof. unfold ev, ones. rewrite sumf_map. apply sumf_ext. intros w _; cbn [fst snd]; apply Z.mul_1_l. Qed.
Lemma rep_TT (P : bkey -> Prop) (Q : list Z -> Prop) : (forall k w, P k -> In w (TL k) -> Q w) -> rep P Q TT.
Proof.
  intros H k Hk. exists (ones (TL k)). split; [|intros g; now rewrite ev_ones]. intros w v Hin. apply in_map_iff in Hin. destruct Hin as (w' & [= <- <-] & Hin). eauto.
Qed.
Lemma bad_adj n w : 1 <= n -> onto n w -> adj w = true -> bad cls_surj w = Ok true.
Proof. intros Hn O Ha. change (bad cls_surj w) with (surj_bad w). rewrite (surj_bad_onto n) by auto. now rewrite Ha. Qed.
Lemma adm_TT n (P : bkey -> Prop) (Q : list Z -> Prop) : 1 <= n -> (forall k, P k -> be_simplex n k) -> (forall k w, P k -> In w (TL k) -> Q w) -> admop cls_be cls_surj P Q TT.
Proof.
  intros Hn HP HQ g [_ Hg]. apply admP_keyeq. intros k Pk Hb. rewrite be_bad in Hb. injection Hb as Hb. destruct k as [|r k]; [reflexivity|].
  set (h := fun w => if (adj w) then 0 else g w). 
  transitivity (TT h (r :: k)).
  - apply TT_ext. intros w Hw. unfold h. destruct (adj w) eqn:Ea; [|reflexivity]. apply Hg; [eauto|]. eapply bad_adj; eauto. eapply TL_onto; eauto.
  - apply (TT_rep _ _ (rws_sim n _ (HP _ Pk))); [apply rep_row_repeats, bdup_repeats, Hb|]. intros w Hw. unfold h. now rewrite Hw.
Qed.
Lemma linop_table dt t n (P : bkey -> Prop) (Q : list Z -> Prop) : 1 <= n -> 0 <= t -> dt_ok dt t -> kpred Q -> (forall k, P k -> be_simplex n k) -> (forall k w, P k -> In w (TL k) -> Q w) ->
  linop cls_be cls_surj t tt BF P Q TT (be_table_reduction dt).
Proof.
  intros Hn Ht Hdt KQ HP HQ. pose proof (rep_TT P Q HQ) as R. apply (linop_intro cls_be cls_surj ok_surj); auto.
  - now apply rep_local.
  - apply (rep_zero _ _ _ R).
  - intros x Wx Tx _ Kx. apply (table_den dt t n); auto. intros k v Hin. apply HP. eapply Kx; eauto.
Qed.
Lemma TT_eqm t g h k : (forall w, eqm t (g w) (h w)) -> eqm t (TT g k) (TT h k).
Proof. intros E. apply sumf_eqm. auto. Qed.

(** ** C39 *)
(** #C39_table_formula# The table reduction of a sequence of permutations is
    the sum, with coefficients 1, of the words that can be read off the table. *)
Lemma C39_table_formula_l (dt n : Z) (x : bee) : 1 <= n -> wf cls_be x -> dt_ok dt (torsion x) -> keys_in (be_simplex n) x ->
  gives cls_surj (be_table_reduction dt x) (torsion x) BF (extend (fun k => map (fun w => (w, 1)) (table_words [] k)) x).
Proof.
  intros Hn Wx Hdt Kx. pose proof (proj1 Wx) as Ht. eapply (den_gives cls_surj ok_surj); [exact Ht|apply (table_den dt (torsion x) n); auto|].
  intros g _. cbn beta. rewrite ev_extend. apply eqm_eq. apply ev_ext. intros k v _. fold (ones (table_words [] k)). rewrite ev_ones, tw_TL. rewrite (map_ext (fl []) (fun l => l)) by apply fl_nil. now rewrite map_id.
Qed.
(** #C39_table_degree# The result is in the Berger-Fresse convention and has the
    arity and the degree of the argument. *)
Lemma C39_table_degree_l (dt n d : Z) (x : bee) : 1 <= n -> wf cls_be x -> dt_ok dt (torsion x) -> keys_in (be_cell n d) x ->
  exists y, be_table_reduction dt x = Ok y /\ wf cls_surj y /\ torsion y = torsion x /\ attr y = BF /\ keys_in (surj_cell n d) y.
Proof.
  intros Hn Wx Hdt Kx. pose proof (proj1 Wx) as Ht.
  destruct (linop_table dt (torsion x) n (be_cell n d) (surj_cell n d) Hn Ht Hdt (kpred_cell n d) (fun k H => proj1 H) (fun k w H => TL_cell n d k w Hn H) x Wx eq_refl (be_attr x) Kx) as (y & E & Dy & Ky).
  exists y. split; [exact E|]. split; [eapply den_wf; eauto|]. split; [exact (proj1 Dy)|]. split; [apply Dy|exact Ky].
Qed.
(** #C39_linear# Table reduction is additive. *)
Lemma C39_linear_l (dt n : Z) (x y : bee) : 1 <= n -> wf cls_be x -> wf cls_be y -> torsion y = torsion x -> dt_ok dt (torsion x) -> keys_in (be_simplex n) x -> keys_in (be_simplex n) y ->
  same (let! s := add dt cls_be x y in be_table_reduction dt s) (let! u := be_table_reduction dt x in let! v := be_table_reduction dt y in add dt cls_surj u v).
Proof.
  intros Hn Wx Wy Ty Hdt Kx Ky. pose proof (proj1 Wx) as Ht.
  eapply (linop_add cls_be cls_surj ok_be ok_surj dt (torsion x) tt BF (be_simplex n) (onto n) TT); eauto using be_attr, kpred_bsim.
  - apply (linop_table dt _ n); auto using kpred_onto. intros k w; apply TL_onto.
  - apply (adm_TT n); auto. intros k w; apply TL_onto.
Qed.
(** #C39_chain_map# The table reduction of the boundary is the boundary of the
    table reduction. *)
Lemma C39_chain_map_l (dt n : Z) (x : bee) : 1 <= n -> wf cls_be x -> dt_ok dt (torsion x) -> keys_in (be_simplex n) x ->
  same (let! dx := be_boundary dt x in be_table_reduction dt dx) (let! y := be_table_reduction dt x in surj_boundary dt y).
Proof.
  intros Hn Wx Hdt Kx. pose proof (proj1 Wx) as Ht.
  assert (LT : linop cls_be cls_surj (torsion x) tt BF (be_simplex n) (onto n) TT (be_table_reduction dt)) by (apply (linop_table dt _ n); auto using kpred_onto; intros k w; apply TL_onto).
  refine (linop_same cls_be cls_surj ok_surj (torsion x) tt BF (be_simplex n) (onto n) (onto n) _ _ _ _ x Ht
    (linop_comp cls_be cls_be cls_surj ok_be ok_be ok_surj (torsion x) tt tt BF (be_simplex n) (be_simplex n) (onto n) fdB TT _ _ Ht (kpred_bsim n) (linop_beb dt _ _ _ Ht Hdt (kpred_bsim n) (face_sim n)) LT
       (rep_local _ _ _ (rep_fdB _ _ (face_sim n))) _)
    (linop_comp cls_be cls_surj cls_surj ok_be ok_surj ok_surj (torsion x) tt BF BF (be_simplex n) (onto n) (onto n) TT (sd BF) _ _ Ht (kpred_onto n) LT
       (linop_sb dt _ BF _ _ Ht Hdt (or_introl eq_refl) (kpred_onto n) (sface_onto n)) (rep_local _ _ _ (rep_TT _ _ _)) (adm_sd _ _ _ (sface_onto n) (fun k => onto_ne n k Hn)))
    Wx eq_refl (be_attr x) Kx _).
  - apply (adm_TT n); auto. intros k w; apply TL_onto.
  - intros k w; apply TL_onto.
  - intros g k _ Hk _. apply eqm_eq. rewrite (TT_ext_all (sd BF g) (bfd g)) by (intros; apply sd_BF). symmetry. apply (TT_chain _ _ (rws_sim n k Hk)).
Qed.
(** #C39_example# The docstring example, of arity 4 and degree 2. *)
Example C39_example_l :
  exists x y, be_new 0 [([[1; 2; 3; 4]; [1; 4; 3; 2]; [1; 2; 4; 3]], 1)] None = Ok x /\ wf cls_be x /\ keys_in (be_cell 4 2) x /\
    be_table_reduction 0 x = Ok y /\ data y = [([1; 2; 4; 2; 4; 3], 1); ([1; 2; 4; 3; 2; 3], 1)].
Proof.
  eexists. eexists. split; [vm_compute; reflexivity|]. split; [|split; [|split; vm_compute; reflexivity]].
  - split; [cbn; lia|]. split; [split; [intros ? []|exact I]|]. intros k v [[= <- <-]|[]]. split; [split; [discriminate|cbn; lia]|reflexivity].
  - intros k v [[= <- <-]|[]]. split; [|reflexivity]. intros p [<-|[<-|[<-|[]]]]; apply perm_of_nodup; try lia; try reflexivity; try (repeat constructor; cbn; lia); cbn; lia.
Qed.

(** ** C40 *)
(** #C40_equivariant# (a * x).table_reduction() == a * x.table_reduction(),
    extended by zero. *)
Lemma C40_equivariant_l (dt n : Z) (a : ring) (x : bee) :
  1 <= n -> wf cls_ring a -> wf cls_be x -> torsion a = torsion x -> dt_ok dt (torsion x) ->
  keys_in (fun k => is_sge k = true /\ perm n (kval k)) a -> keys_in (be_simplex n) x ->
  same (let! y := extended dt cls_be (be_act dt) a x in be_table_reduction dt y)
       (let! y := be_table_reduction dt x in extended dt cls_surj (surj_act dt) a y).
Proof.
  intros Hn Wa Wx Ta Hdt Ka Kx. pose proof (proj1 Wx) as Ht. assert (Hn0 : 0 <= n) by lia. pose proof (rpk_pk _ _ Ka) as Ka'.
  rewrite be_act0_bact0 by now apply (rpk_sge n).
  assert (LT : linop cls_be cls_surj (torsion x) tt BF (be_simplex n) (onto n) TT (be_table_reduction dt)) by (apply (linop_table dt _ n); auto using kpred_onto; intros k w; apply TL_onto).
  assert (HB : BF = BF \/ BF = MS) by now left.
  pose proof (ga_linop cls_be ok_be tt n (be_simplex n) (kpred_bsim n) _ PactB (torsion x) Ht (bil_bact dt n _ Hn Ht Hdt) (rep_bact n Hn0) a Wa Ta Ka') as L1.
  pose proof (ga_linop cls_surj ok_surj BF n (onto n) (kpred_onto n) _ (PactS BF) (torsion x) Ht (bil_sact dt BF HB n _ Hn Ht Hdt) (rep_sact BF n Hn0) a Wa Ta Ka') as L2.
  assert (RT : rep (be_simplex n) (onto n) TT) by (apply rep_TT; intros k w; apply TL_onto).
  refine (linop_same cls_be cls_surj ok_surj (torsion x) tt BF (be_simplex n) (onto n) (onto n) _ _ _ _ x Ht
    (linop_comp cls_be cls_be cls_surj ok_be ok_be ok_surj (torsion x) tt tt BF (be_simplex n) (be_simplex n) (onto n) _ TT _ _ Ht (kpred_bsim n) L1 LT (rep_local _ _ _ (rep2_L _ _ _ PactB a (rep_bact n Hn0) Ka')) _)
    (linop_comp cls_be cls_surj cls_surj ok_be ok_surj ok_surj (torsion x) tt BF BF (be_simplex n) (onto n) (onto n) TT _ _ _ Ht (kpred_onto n) LT L2 (rep_local _ _ _ RT)
       (DBL_admop cls_ring cls_surj cls_surj _ _ _ (PactS BF) (adm_sact BF n Hn) a Ka' Wa))
    Wx eq_refl (be_attr x) Kx _).
  - apply (adm_TT n); auto. intros k w; apply TL_onto.
  - intros g k _ Hk _. apply eqm_eq. unfold DBL. rewrite (rep_lin _ _ _ (fun k' k2 => PactS BF g k2 k') (data a) RT k Hk). apply ev_ext. intros k2 v Hin. unfold PactB, PactS.
    assert (H2 : perm n (kval k2)) by apply (Ka' _ _ Hin). change (pmul (kval k2)) with (map (image (kval k2))).
    rewrite (TT_map _ (image (kval k2)) k (rws_sim n k Hk)).
    + apply TT_ext_all. intros w. unfold asg. cbn. now destruct (g (map (image (kval k2)) w)).
    + intros b c Hb Hc. now apply (image_inj n).
Qed.

(** ** C41 *)
Lemma map_NoDup_inj {A B} (f : A -> B) l : NoDup l -> (forall a b, In a l -> In b l -> f a = f b -> a = b) -> NoDup (map f l).
Proof.
  induction 1 as [|a l Na ND IH]; intros Hf; [constructor|]. cbn [map]. constructor; [|apply IH; intros; apply Hf; auto; now right].
  intros Hin. apply in_map_iff in Hin. destruct Hin as (b & E & Hb). apply Na. rewrite (Hf a b); [exact Hb|now left|now right|congruence].
Qed.
Lemma gc_sub n2 i a b : 1 <= i -> 1 <= n2 -> zlen b = n2 -> (forall c, In c a -> 1 <= c) -> gc i a b = sub 0 (map (lift1 0 i n2) a) (map (sh i) b).
Proof.
  intros Hi Hn Lb. unfold gc, gcomp, sub. induction a as [|c a IH]; intros Hc; [reflexivity|]. cbn [flat_map map]. rewrite IH by (intros; apply Hc; now right). f_equal. specialize (Hc c (or_introl eq_refl)).
  unfold graft, lift1, up. destruct (Z.eqb_spec c i); [reflexivity|]. destruct (Z.ltb_spec i c), (Z.ltb_spec c i); try lia; [destruct (Z.eqb_spec (c + n2 - 1) 0); [lia|]; now rewrite Lb|destruct (Z.eqb_spec c 0); [lia|reflexivity]].
Qed.
Lemma table_compose n1 n2 i g k1 k2 : 1 <= i <= n1 -> 1 <= n2 -> be_simplex n1 k1 -> be_simplex n2 k2 -> killadj g ->
  Pcomp i (TT g) k1 k2 = TT (fun u => TT (fun y => Pc i n2 g u y) k2) k1.
Proof.
  intros Hi Hn S1 S2 Hg. pose proof (rws_sim n1 k1 S1) as R1. pose proof (rws_sim n2 k2 S2) as R2.
  set (F := map (map (lift1 0 i n2)) k1). set (H := map (map (sh i)) k2).
  transitivity (GG 0 g F H).
  - unfold Pcomp, GG, F, H. rewrite EE_map. apply EE_fun. intros a b Ha Hb. apply gc_sub; try lia; [apply perm_len; [lia|auto]|]. intros c Hc. apply (perm_in n1 a c (S1 a Ha)) in Hc. lia.
  - rewrite (GG_PP 0 (size F + size H) (fun c => exists a, 1 <= a <= n1 /\ c = lift1 0 i n2 a) (fun c => exists b, 1 <= b <= n2 /\ c = sh i b) F H g (le_n _)); [|split|exact Hg].
    + unfold PP, F. rewrite (TT_map _ (lift1 0 i n2) k1 R1) by (intros a b Ha Hb; apply lift1_inj; lia). apply TT_ext. intros u Hu.
      unfold H. rewrite (TT_map _ (sh i) k2 R2) by (intros a b _ _ E; eapply sh_inj; eauto). apply TT_ext_all. intros y. symmetry. apply (Pc_Cc 0 i n2 g u y n1); try lia. eapply TL_onto; eauto.
    + intros r Hr. apply in_map_iff in Hr. destruct Hr as (r' & <- & Hr). destruct (R1 r' Hr) as [ND HS]. split.
      * apply map_NoDup_inj; [exact ND|]. intros a b Ha Hb. apply HS in Ha. apply HS in Hb. apply lift1_inj; lia.
      * intros c. rewrite in_map_iff. split; [intros (a & <- & Ha); exists a; split; [now apply HS|reflexivity]|intros (a & Ha & ->); exists a; split; [reflexivity|now apply HS]].
    + intros r Hr. apply in_map_iff in Hr. destruct Hr as (r' & <- & Hr). destruct (R2 r' Hr) as [ND HS]. split.
      * apply map_NoDup_inj; [exact ND|]. intros a b _ _ E; eapply sh_inj; eauto.
      * intros c. rewrite in_map_iff. split; [intros (a & <- & Ha); exists a; split; [now apply HS|reflexivity]|intros (a & Ha & ->); exists a; split; [reflexivity|now apply HS]].
    + exists i. split; [lia|]. now rewrite lift1_i.
    + intros (b & Hb & E). unfold sh in E. lia.
    + intros c (a & Ha & ->) Nc (b & Hb & E). unfold lift1, up, sh in *. destruct (Z.eqb_spec a i); [congruence|]. destruct (Z.ltb_spec a i); lia.
Qed.
(** #C41_operad_morphism# (x o_i y).table_reduction() ==
    x.table_reduction() o_i y.table_reduction(), extended by zero. *)
Lemma C41_operad_morphism_l (dt n1 n2 p q i : Z) (x y : bee) :
  1 <= i <= n1 -> 1 <= n2 -> wf cls_be x -> wf cls_be y -> torsion y = torsion x -> dt_ok dt (torsion x) ->
  keys_in (be_cell n1 p) x -> keys_in (be_cell n2 q) y ->
  same (let! z := extended dt cls_be (fun x y => be_compose dt x y i) x y in be_table_reduction dt z)
       (let! u := be_table_reduction dt x in let! v := be_table_reduction dt y in surj_compose dt u v i).
Proof.
  intros Hi Hn2 Wx Wy Ty Hdt Kx Ky. pose proof (proj1 Wx) as Ht. assert (Hn1 : 1 <= n1) by lia. assert (Hn : 1 <= n1 + n2 - 1) by lia.
  assert (LT : forall n d, 1 <= n -> linop cls_be cls_surj (torsion x) tt BF (be_cell n d) (surj_cell n d) TT (be_table_reduction dt)).
  { intros n d H. apply (linop_table dt _ n); auto using kpred_cell; [intros k Hk; apply Hk|intros k w; now apply TL_cell]. }
  assert (RT : forall n d, 1 <= n -> rep (be_cell n d) (surj_cell n d) TT) by (intros n d H; apply rep_TT; intros k w; now apply TL_cell).
  refine (bil_morphism cls_be cls_be cls_be cls_surj cls_surj cls_surj ok_be ok_be ok_surj ok_surj ok_surj (torsion x) tt tt tt BF BF BF
    (be_cell n1 p) (be_cell n2 q) (be_cell (n1 + n2 - 1) (p + q)) (surj_cell n1 p) (surj_cell n2 q) (surj_cell (n1 + n2 - 1) (p + q)) (surj_cell (n1 + n2 - 1) (p + q))
    TT TT TT (Pcomp i) (Pc i n2) _ _ _ (compose0 dt i) (fun x y => surj_compose dt x y i) x y Ht (kpred_bdeg _ _) (kpred_cell _ _) (kpred_cell _ _) (LT _ _ Hn1) (RT _ _ Hn1) (LT _ _ Hn2) (RT _ _ Hn2)
    (bil_compose dt _ n1 n2 p q i Ht Hdt Hn1 Hn2 Hi) (rep_compose n1 n2 p q i Hn1 Hn2 Hi) (LT _ _ Hn) _ (bil_surj dt (torsion x) BF BF n1 n2 p q i Ht Hdt (or_introl eq_refl) Hi Hn2) (adm_Pc n1 n2 p q i Hi Hn2) _ _ Wx eq_refl (be_attr x) Kx Wy Ty (be_attr y) Ky).
  - apply (adm_TT (n1 + n2 - 1)); auto; [intros k Hk; apply Hk|intros k w; now apply TL_cell].
  - intros g k2 [_ Hg] H2. apply admP_keyeq. intros k1 H1 Hb. change (surj_bad k1 = Ok true) in Hb. rewrite (surj_bad_onto n1) in Hb by (auto; apply H1). injection Hb as Hb.
    rewrite (Pc_Cc 0 i n2 g k1 k2 n1) by (try lia; apply H1). rewrite Cc_ev. apply ev_zero. intros w v Hin.
    assert (Hc : surj_cell (n1 + n2 - 1) (p + q) w) by (eapply Cl_cell; eauto; lia). apply Hg. eapply bad_adj; [|apply Hc|]; [lia|]. eapply Cl_adj_u; [|exact Hin]. now apply SurjCompose4.adj_map.
  - intros g k1 k2 Hg [K1 _] [K2 _] _ _. apply eqm_eq. apply (table_compose n1); auto. now apply killadj_adm.
Qed.
(** #C41_example# Both sides for x = y = ((1,2),(2,1)), i = 1: three terms. *)
Example C41_example_l :
  exists x z u w w', be_new 0 [([[1; 2]; [2; 1]], 1)] None = Ok x /\ wf cls_be x /\ keys_in (be_cell 2 1) x /\
    be_compose 0 x x 1 = Ok z /\ be_table_reduction 0 x = Ok u /\ surj_compose 0 u u 1 = Ok w /\
    be_table_reduction 0 z = Ok w' /\ data w = [([1; 3; 1; 2; 1], 1); ([1; 2; 3; 2; 1], -1); ([1; 2; 1; 3; 1], -1)] /\ data w' = [([1; 2; 3; 2; 1], -1); ([1; 2; 1; 3; 1], -1); ([1; 3; 1; 2; 1], 1)].
Proof.
  do 5 eexists. split; [vm_compute; reflexivity|]. split; [|split].
  - split; [cbn; lia|]. split; [split; [intros ? []|exact I]|]. intros k v [[= <- <-]|[]]. split; [split; [discriminate|cbn; lia]|reflexivity].
  - intros k v [[= <- <-]|[]]. split; [|reflexivity]. intros p [<-|[<-|[]]]; apply perm_of_nodup; try lia; try reflexivity; try (repeat constructor; cbn; lia); cbn; lia.
  - repeat (split; [vm_compute; reflexivity|]). vm_compute. reflexivity.
Qed.
