(** * The diagonals are counital and detect boundaries (C109) *)
From Coq Require Import Setoid Morphisms.
From Verif Require Import PyBase Dict FreeModule Symmetric Simplicial Cubical Eqm Spec SpecChain SpecCube SpecCone SpecArgs SpecCounit FreeModuleFacts FreeModuleLaws ListFacts ClassFacts LinearFacts SymmetricFacts
  CycleFacts SymmetricLaws RingFacts Tensor TensorAct KoszulFacts LoopFacts AW SimplicialFacts SimplicialDiag SimplicialLaws CubicalFacts CubicalDiag CubicalJoin CubicalLaws ConeFacts ConeLaws CongFacts ActFacts CubActFacts ArgsLaws DiagHom.

(** ** simplices *)
Notation epz := (DiagHom.eps spx_dim).
Lemma aw_counit_l (H : list Z -> Z) s : s <> [] -> aw (fun f b => epz f * H b) s = H s.
Proof.
  destruct s as [|v w]; [congruence|]. intros _. rewrite aw_cons. rewrite (aw_ext _ (fun _ _ => 0) w).
  - change (epz [v]) with 1. assert (E : aw (fun _ _ : list Z => 0) w = 0) by (unfold aw; apply sumf_0; now intros [[? ?] ?] _). rewrite E. ring.
  - intros l1 a l2 _. unfold DiagHom.eps, spx_dim. rewrite zlen_cons, zlen_app, zlen_cons. pose proof (zlen_nonneg l1). change (zlen []) with 0. destruct (Z.eqb_spec (zlen l1 + (0 + 1) + 1 - 1) 0); [lia|ring].
Qed.
Lemma aw_counit_r (H : list Z -> Z) s : s <> [] -> aw (fun f b => epz b * H f) s = H s.
Proof.
  intros N. destruct (exists_last N) as (l1 & a & ->). rewrite aw_app_snoc. change (epz [a]) with 1. rewrite sumf_0; [ring|]. intros [[m1 b] m2] _.
  unfold DiagHom.eps, spx_dim. rewrite zlen_cons, zlen_app, zlen_cons. pose proof (zlen_nonneg m2). change (zlen []) with 0. destruct (Z.eqb_spec (zlen m2 + (0 + 1) + 1 - 1) 0); [lia|ring].
Qed.
Lemma S_counit m : forall j (h : list (list Z) -> Z) (s : list Z), s <> [] -> 0 <= j <= Z.of_nat m + 1 ->
  AW.S (Datatypes.S m) (at_pos j (fun u1 b u2 => epz b * h (u1 ++ u2))) s = AW.S m h s.
Proof.
  induction m as [|m IH]; intros j h s Ns Hj.
  - cbn [AW.S]. destruct (Z.eq_dec j 0) as [->|N].
    + rewrite (aw_ext _ (fun f b => epz f * h [b])) by (intros; now rewrite at_pos_0). apply (aw_counit_l (fun b => h [b])). exact Ns.
    + assert (j = 0 + 1) as -> by lia. rewrite (aw_ext _ (fun f b => epz b * h [f])) by (intros; now rewrite at_pos_S, at_pos_0 by lia). apply (aw_counit_r (fun b => h [b])). exact Ns.
  - change (AW.S (Datatypes.S (Datatypes.S m)) ?G s) with (aw (fun f b => AW.S (Datatypes.S m) (fun u => G (f :: u)) b) s). destruct (Z.eq_dec j 0) as [->|N].
    + rewrite (aw_ext _ (fun f b => epz f * AW.S (Datatypes.S m) h b)); [now apply aw_counit_l|]. intros l1 a l2 _. rewrite <- S_scal. apply AW.S_ext. intros u. now rewrite at_pos_0.
    + change (AW.S (Datatypes.S m) h s) with (aw (fun f b => AW.S m (fun u => h (f :: u)) b) s). apply aw_ext. intros l1 a l2 _. replace j with (j - 1 + 1) by lia.
      rewrite (AW.S_ext _ _ (at_pos (j - 1) (fun u1 b u2 => epz b * h ((l1 ++ [a]) :: u1 ++ u2)))) by (intros; now rewrite at_pos_S by lia). apply (IH (j - 1) (fun u => h ((l1 ++ [a]) :: u))); [discriminate|lia].
Qed.
Lemma drop_app dg i l1 u1 b u2 l2 : zlen (l1 ++ u1) = i - 1 -> forall g, AU dg i g (l1 ++ (u1 ++ b :: u2) ++ l2) = DiagHom.eps dg b * g (l1 ++ (u1 ++ u2) ++ l2).
Proof. intros E g. replace (l1 ++ (u1 ++ b :: u2) ++ l2) with ((l1 ++ u1) ++ b :: (u2 ++ l2)) by (rewrite <- !app_assoc; reflexivity). rewrite AU_app by exact E. now rewrite <- !app_assoc. Qed.
Section SI.
Variables (dt n coord : Z) (C : list Z -> Prop).
Hypotheses (Hc : 1 <= coord <= n) (HC : subcomplex C).
Notation cell := (ccell spx_dim C).
Lemma del_C l1 l l2 : C (l1 ++ l ++ l2) -> C (l1 ++ l2).
Proof. destruct HC as (_ & _ & H). induction l as [|a l IH]; [auto|]. cbn [app]. intros H0. apply IH. now apply (H l1 a (l ++ l2)). Qed.
Lemma pieces_C t : forall s u, C s -> In u (front_back t s) -> forall b, In b u -> C b.
Proof.
  induction t as [|t IH]; intros s u Hs Hu b Hb; cbn [front_back] in Hu; [destruct Hu as [<-|[]]; destruct Hb as [<-|[]]; exact Hs|].
  apply in_flat_map in Hu. destruct Hu as ([[l1 a] l2] & Hin & Hu). rewrite cuts_splits in Hin. apply splits_in in Hin. apply in_map_iff in Hu. destruct Hu as (u' & <- & Hu). subst s. destruct Hb as [<-|Hb].
  - pose proof (del_C (l1 ++ [a]) l2 []) as D. rewrite !app_nil_r, <- app_assoc in D. now apply D.
  - apply (IH (a :: l2) u'); auto. now apply (del_C [] l1 (a :: l2)).
Qed.
Lemma Cfb_sub b b' v : C b -> In (b', v) (fbS b) -> C b'.
Proof. destruct HC as (_ & _ & H). intros Hb Hin. unfold fbS in Hin. apply in_map_iff in Hin. destruct Hin as ([[l1 x] l2] & [= <- _] & Hin). apply splits_in in Hin. subst b. eapply H; eauto. Qed.
Lemma splittings_cell d times k k' v : cell n d k -> In (k', v) (simp_splittings times coord k) -> cell (n + Z.of_nat times) d k'.
Proof.
  intros (L & D & K) Hin. destruct (splittings_deg n d times coord k k' v Hc (conj L D) Hin) as (L' & D'). split; [exact L'|]. split; [exact D'|]. clear - K Hin HC. intros b Hb.
  unfold simp_splittings in Hin. apply in_flat_map in Hin. destruct Hin as ([[l1 s] l2] & Hs & Hin). rewrite cuts_splits in Hs. apply splits_in in Hs. subst k. destruct (zlen l1 =? coord - 1); [|destruct Hin]. apply in_map_iff in Hin. destruct Hin as (u & [= <- _] & Hu).
  apply in_app_or in Hb. destruct Hb as [Hb|Hb]; [apply K, in_or_app; now left|]. apply in_app_or in Hb. destruct Hb as [Hb|Hb]; [|apply K, in_or_app; right; now right]. apply (pieces_C times s u); auto. apply K, in_or_app. right. now left.
Qed.
Lemma rep_SdS d t : rep (cell n d) (cell (n + Z.of_nat t) d) (Sd t coord).
Proof. intros k Hk. exists (simp_splittings t coord k). split; [intros k' v; now apply splittings_cell|]. intros g. apply Sd_splittings. Qed.
Lemma linop_SdS t d times : 0 <= t -> dt_ok dt t -> 0 <= times -> linop cls_simplicial cls_simplicial t tt tt (cell n d) (cell (n + times) d) (Sd (Z.to_nat times) coord) (ext_diag dt times coord).
Proof.
  intros Ht Hdt Htm. assert (R := rep_SdS d (Z.to_nat times)). rewrite Z2Nat.id in R by lia.
  apply (linop_intro cls_simplicial cls_simplicial ok_simplicial); [exact Ht|apply kpred_ccell, (proj1 HC)|now apply rep_local|intros; now apply (rep_zero _ _ _ R)|].
  intros x Wx Tx Ax Kx. destruct (linop_diag dt t n d times coord Ht Hdt Hc Htm x Wx Tx Ax) as (y & Ey & Dy & _); [intros k v Hin; destruct (Kx _ _ Hin) as (A & B & _); now split|]. exists y. now split.
Qed.
Lemma SdS_0 d g k : cell n d k -> Sd 0 coord g k = g k.
Proof. intros (L & _). destruct (split_at k (coord - 1)) as (l1 & s & l2 & -> & E); [lia|]. now rewrite Sd_app. Qed.
Lemma SdS_AU d t i g k : cell n d k -> existsb spx_is_degenerate k = false -> coord <= i <= coord + Z.of_nat t + 1 -> Sd (Datatypes.S t) coord (AU spx_dim i g) k = Sd t coord g k.
Proof.
  intros (L & _) Hb Hi. destruct (split_at k (coord - 1)) as (l1 & s & l2 & -> & E); [lia|]. rewrite !Sd_app by exact E.
  assert (Ns : s <> []) by (intros ->; rewrite existsb_app in Hb; cbn in Hb; apply orb_false_iff in Hb; destruct Hb; discriminate).
  rewrite <- (S_counit t (i - coord) (fun u => g (l1 ++ u ++ l2)) s Ns) by lia. apply S_ext_in. intros u Hu. apply front_back_len in Hu.
  destruct (split_at u (i - coord)) as (u1 & b & u2 & -> & E1); [unfold zlen; lia|]. rewrite at_pos_app by exact E1. apply drop_app. rewrite zlen_app. lia.
Qed.
Lemma eps_bad_si b : spx_is_degenerate b = true -> epz b = 0.
Proof. destruct b as [|a [|? b]]; [reflexivity|discriminate|]. intros _. unfold DiagHom.eps, spx_dim. rewrite !zlen_cons. pose proof (zlen_nonneg b). destruct (Z.eqb_spec (zlen b + 1 + 1 - 1) 0); [lia|reflexivity]. Qed.
Lemma epz_epsS b : epz b = epsS b.
Proof. destruct b as [|a [|? b]]; [reflexivity..|]. unfold DiagHom.eps, spx_dim. rewrite !zlen_cons. pose proof (zlen_nonneg b). destruct (Z.eqb_spec (zlen b + 1 + 1 - 1) 0); [lia|reflexivity]. Qed.
Lemma fd_eps_si b : spx_is_degenerate b = false -> fd fbS epz b = 0.
Proof. intros Hb. rewrite (fd_ext_all fbS _ epsS) by apply epz_epsS. now apply fdS_eps. Qed.
Lemma diag_bnd_si d times (x : simp) : wf cls_simplicial x -> dt_ok dt (torsion x) -> keys_in (cell n d) x -> 0 <= times ->
  same (let! y := ext_diag dt times coord x in simp_boundary dt y) (let! y := simp_boundary dt x in ext_diag dt times coord y).
Proof. intros W Hdt K Htm. apply (C24_chain_map_l dt n d times coord x W Hdt); auto. intros k v Hin. destruct (K k v Hin) as (A & B & _). now split. Qed.
Definition si_detects d times (x : simp) := detects cls_simplicial ok_simplicial spx_is_degenerate sbad sck fbS spx_dim dim_fbS fdS_bad dt (simp_boundary dt) (fun t x => simp_boundary_den dt t x)
  eps_bad_si fd_eps_si C (proj1 HC) Cfb_sub n coord (fun t => Sd t coord) (fun times => ext_diag dt times coord) Hc rep_SdS linop_SdS SdS_0 SdS_AU diag_bnd_si d times x.
Definition si_counit d times i (x y : simp) := counit_den cls_simplicial ok_simplicial spx_is_degenerate sbad spx_dim dt
  eps_bad_si C (proj1 HC) n coord (fun t => Sd t coord) (fun times => ext_diag dt times coord) rep_SdS linop_SdS SdS_AU d times i x y.
End SI.
(** ** cubes *)
Notation epc := (DiagHom.eps cube_dim).
Section CU.
Variables (dt n coord : Z) (C : list Z -> Prop).
Hypotheses (Hc : 1 <= coord <= n) (HC : cubical_subcomplex C).
Notation cell := (ccell cube_dim C).
Lemma pairs_C c : forall p f b e, C (p ++ c) -> In (f, b, e) (serre_pairs c) -> C (p ++ f) /\ C (p ++ b).
Proof.
  induction c as [|a w IH]; intros p f b e Hp Hin; cbn [serre_pairs] in Hin.
  - destruct Hin as [[= <- <- _]|[]]. now split.
  - apply in_flat_map in Hin. destruct Hin as ([[f' b'] e'] & H1 & H2). assert (Hp' : C ((p ++ [a]) ++ w)) by (rewrite <- app_assoc; exact Hp).
    destruct (IH (p ++ [a]) f' b' e' Hp' H1) as [Cf Cb]. rewrite <- !app_assoc in Cf, Cb. cbn [app] in Cf, Cb. destruct (Z.eqb_spec a 2) as [->|N].
    + destruct HC as (_ & H). destruct H2 as [[= <- <- _]|[[= <- <- _]|[]]]; (split; [|]); auto; apply H; auto.
    + destruct H2 as [[= <- <- _]|[]]. now split.
Qed.
Lemma serre_C t : forall s u e, C s -> In (u, e) (serre t s) -> forall b, In b u -> C b.
Proof.
  induction t as [|t IH]; intros s u e Hs Hu b Hb; cbn [serre] in Hu; [destruct Hu as [[= <- _]|[]]; destruct Hb as [<-|[]]; exact Hs|].
  apply in_flat_map in Hu. destruct Hu as ([[f b'] e'] & Hf & Hu). apply in_map_iff in Hu. destruct Hu as ([u' e''] & [= <- _] & Hu). destruct (pairs_C s [] f b' e' Hs Hf) as [Cf Cb].
  destruct Hb as [<-|Hb]; [exact Cf|]. eapply IH; eauto.
Qed.
Lemma fbC_C c : forall p c' v, C (p ++ c) -> In (c', v) (fbC c) -> C (p ++ c').
Proof.
  induction c as [|a w IH]; intros p c' v Hp Hin; cbn [fbC] in Hin; [destruct Hin|]. assert (Hp' : C ((p ++ [a]) ++ w)) by (rewrite <- app_assoc; exact Hp).
  assert (R : forall c0 v0, In (c0, v0) (fbC w) -> C (p ++ a :: c0)) by (intros c0 v0 H0; specialize (IH (p ++ [a]) c0 v0 Hp' H0); now rewrite <- app_assoc in IH).
  destruct (Z.eqb_spec a 2) as [->|N].
  - destruct HC as (_ & H). destruct Hin as [[= <- _]|[[= <- _]|Hin]]; [apply H; auto..|]. apply in_map_iff in Hin. destruct Hin as ([c0 v0] & [= <- _] & Hin). cbn [fst]. eapply R; eauto.
  - apply in_map_iff in Hin. destruct Hin as ([c0 v0] & [= <- _] & Hin). cbn [fst]. eapply R; eauto.
Qed.
Lemma Cfb_cub b b' v : C b -> In (b', v) (fbC b) -> C b'. Proof. apply (fbC_C b []). Qed.
Lemma serre_at_cell d times k k' v : cell n d k -> In (k', v) (serre_at times coord k) -> cell (n + Z.of_nat times) d k'.
Proof.
  intros (L & D & K) Hin. destruct (serre_at_deg n d times coord k k' v Hc (conj L D) Hin) as (L' & D'). split; [exact L'|]. split; [exact D'|]. clear - K Hin HC. intros b Hb.
  unfold serre_at in Hin. apply in_flat_map in Hin. destruct Hin as ([[l1 s] l2] & Hs & Hin). rewrite cuts_splits in Hs. apply splits_in in Hs. subst k. destruct (zlen l1 =? coord - 1); [|destruct Hin]. apply in_map_iff in Hin. destruct Hin as ([u e] & [= <- _] & Hu).
  apply in_app_or in Hb. destruct Hb as [Hb|Hb]; [apply K, in_or_app; now left|]. apply in_app_or in Hb. destruct Hb as [Hb|Hb]; [|apply K, in_or_app; right; now right]. apply (serre_C times s u e); auto. apply K, in_or_app. right. now left.
Qed.
Lemma rep_SdK d t : rep (cell n d) (cell (n + Z.of_nat t) d) (SdC t coord).
Proof. intros k Hk. exists (serre_at t coord k). split; [intros k' v; now apply serre_at_cell|]. intros g. apply SdC_serre. Qed.
Lemma linop_SdK t d times : 0 <= t -> dt_ok dt t -> 0 <= times -> linop cls_cubical cls_cubical t tt tt (cell n d) (cell (n + times) d) (SdC (Z.to_nat times) coord) (ext_diagC dt times coord).
Proof.
  intros Ht Hdt Htm. assert (R := rep_SdK d (Z.to_nat times)). rewrite Z2Nat.id in R by lia.
  apply (linop_intro cls_cubical cls_cubical ok_cubical); [exact Ht|apply kpred_ccell, (proj1 HC)|now apply rep_local|intros; now apply (rep_zero _ _ _ R)|].
  intros x Wx Tx Ax Kx. destruct (linop_diagC dt t n d times coord Ht Hdt Hc Htm x Wx Tx Ax) as (y & Ey & Dy & _); [intros k v Hin; destruct (Kx _ _ Hin) as (A & B & _); now split|]. exists y. now split.
Qed.
Lemma SdK_0 d g k : cell n d k -> SdC 0 coord g k = g k.
Proof. intros (L & _). destruct (split_at k (coord - 1)) as (l1 & s & l2 & -> & E); [lia|]. now rewrite SdC_app. Qed.
Lemma SdK_AU d t i g k : cell n d k -> existsb noc k = false -> coord <= i <= coord + Z.of_nat t + 1 -> SdC (Datatypes.S t) coord (AU cube_dim i g) k = SdC t coord g k.
Proof.
  intros (L & _) _ Hi. destruct (split_at k (coord - 1)) as (l1 & s & l2 & -> & E); [lia|]. rewrite !SdC_app by exact E.
  rewrite <- (SC_counit t (i - coord) (fun u => g (l1 ++ u ++ l2)) s) by lia. apply SC_ext. intros u _ Hu.
  destruct (split_at u (i - coord)) as (u1 & b & u2 & -> & E1); [lia|]. rewrite at_pos_app by exact E1. apply drop_app. rewrite zlen_app. lia.
Qed.
Lemma eps_bad_cu b : noc b = true -> epc b = 0. Proof. discriminate. Qed.
Lemma fd_eps_cu b : noc b = false -> fd fbC epc b = 0.
Proof.
  intros _. change epc with epsC. induction b as [|a b IH]; [reflexivity|]. destruct (Z.eq_dec a 2) as [->|N].
  - rewrite fdC_2, !epsC_cons. rewrite (fdC_ext _ (fun _ => 0)) by (intros; apply epsC_cons). rewrite fdC_0. change (1 =? 2) with false. change (0 =? 2) with false. ring.
  - rewrite fdC_n by exact N. rewrite (fdC_ext _ epsC); [exact IH|]. intros. rewrite epsC_cons. destruct (Z.eqb_spec a 2); [contradiction|reflexivity].
Qed.
Lemma diag_bnd_cu d times (x : cubc) : wf cls_cubical x -> dt_ok dt (torsion x) -> keys_in (cell n d) x -> 0 <= times ->
  same (let! y := ext_diagC dt times coord x in cub_boundary dt y) (let! y := cub_boundary dt x in ext_diagC dt times coord y).
Proof. intros W Hdt K Htm. apply (C29_chain_map_l dt n d times coord x W Hdt); auto. intros k v Hin. destruct (K k v Hin) as (A & B & _). rewrite cdeg. now split. Qed.
Definition cu_detects d times (x : cubc) := detects cls_cubical ok_cubical noc cbad cck fbC cube_dim dim_fbC fdC_bad dt (cub_boundary dt) (fun t x => cub_boundary_den dt t x)
  eps_bad_cu fd_eps_cu C (proj1 HC) Cfb_cub n coord (fun t => SdC t coord) (fun times => ext_diagC dt times coord) Hc rep_SdK linop_SdK SdK_0 SdK_AU diag_bnd_cu d times x.
Definition cu_counit d times i (x y : cubc) := counit_den cls_cubical ok_cubical noc cbad cube_dim dt
  eps_bad_cu C (proj1 HC) n coord (fun t => SdC t coord) (fun times => ext_diagC dt times coord) rep_SdK linop_SdK SdK_AU d times i x y.
End CU.
Lemma all_sub : subcomplex (fun _ => True). Proof. split; [now left|]. split; auto. Qed.
Lemma all_csub : cubical_subcomplex (fun _ => True). Proof. split; [now left|]. auto. Qed.

(** #C109_simplicial_counit# Augmenting any of the factors that the iterated diagonal makes of a factor gives the iterated diagonal with one
    cut less; with one cut, either of the two augmentations gives the element back. *)
Lemma C109_simplicial_counit_l (dt n d times coord i : Z) (x y : simp) :
  wf cls_simplicial x -> dt_ok dt (torsion x) -> keys_in (fun k => zlen k = n /\ total_degree k = d) x -> 1 <= coord <= n -> 1 <= times -> coord <= i <= coord + times ->
  let diagonal t := extended1 dt cls_simplicial (fun y => simp_iterated_diagonal dt y t coord) in
  diagonal times x = Ok y -> gives cls_simplicial (diagonal (times - 1) x) (torsion x) tt (extend (drop_vertex i) y).
Proof.
  cbn zeta. intros W Hdt K Hc Htm Hi Ey.
  eapply (den_gives cls_simplicial ok_simplicial); [exact (proj1 W)|apply (si_counit dt n coord (fun _ => True) Hc all_sub d times i x y W Hdt); auto; intros k v Hin; destruct (K k v Hin); split; auto|].
  intros g _. cbn beta. apply eqm_eq. rewrite ev_extend. reflexivity.
Qed.
(** #C109_simplicial_once# The two counit laws of the Alexander-Whitney diagonal. *)
Lemma C109_simplicial_once_l (dt n d coord i : Z) (x y : simp) :
  wf cls_simplicial x -> dt_ok dt (torsion x) -> keys_in (fun k => zlen k = n /\ total_degree k = d) x -> 1 <= coord <= n -> i = coord \/ i = coord + 1 ->
  extended1 dt cls_simplicial (fun y => simp_iterated_diagonal dt y 1 coord) x = Ok y -> represents cls_simplicial x (extend (drop_vertex i) y).
Proof.
  intros W Hdt K Hc Hi Ey. destruct (C109_simplicial_counit_l dt n d 1 coord i x y W Hdt K Hc ltac:(lia) ltac:(lia) Ey) as (z & Ez & Wz & Tz & Az & R).
  assert (K' : keys_in (ccell spx_dim (fun _ => True) n d) x) by (intros k v Hin; destruct (K k v Hin); split; auto).
  pose proof (diag_same0 cls_simplicial ok_simplicial spx_dim dt (fun _ => True) n (fun t => Sd t coord) (fun times => ext_diag dt times coord)
    (linop_SdS dt n coord (fun _ => True) Hc all_sub) (SdS_0 n coord (fun _ => True) Hc) d x W Hdt K') as S. unfold ext_diag in S. change (1 - 1) with 0 in Ez. rewrite Ez in S.
  destruct S as (a & b & [= <-] & [= <-] & E & _). intros k Hk. specialize (R k Hk). rewrite Tz in R. unfold elt_eqb in E. rewrite dict_eqb_dget in E. assert (E1 : dget (data x) k = dget (data z) k) by (symmetry; exact (E k)). rewrite E1. exact R.
Qed.
(** #C109_cubical_counit# The same for the Serre diagonal; the augmentation is the operation [iterated_diagonal(-1, i)] itself (C96). *)
Lemma C109_cubical_counit_l (dt n d times coord i : Z) (x y : cubc) :
  wf cls_cubical x -> dt_ok dt (torsion x) -> keys_in (fun k => zlen k = n /\ cube_degree k = d) x -> 1 <= coord <= n -> 1 <= times -> coord <= i <= coord + times ->
  let diagonal t c := extended1 dt cls_cubical (fun y => cub_iterated_diagonal dt y t c) in
  diagonal times coord x = Ok y ->
  gives cls_cubical (diagonal (times - 1) coord x) (torsion x) tt (extend (counit_at i) y) /\ same (diagonal (-1) i y) (diagonal (times - 1) coord x).
Proof.
  cbn zeta. intros W Hdt K Hc Htm Hi Ey. assert (K' : keys_in (ccell cube_dim (fun _ => True) n d) x) by (intros k v Hin; destruct (K k v Hin) as [A B]; split; [exact A|split; [now rewrite <- cdeg|auto]]).
  assert (D : returns (ext_diagC dt (times - 1) coord x) (den cls_cubical (torsion x) tt (fun g => ev g (extend (counit_at i) y)))).
  { destruct (cu_counit dt n coord (fun _ => True) Hc all_csub d times i x y W Hdt K' Htm Hi Ey) as (z & Ez & Dz). exists z. split; [exact Ez|]. eapply den_ext; [|exact Dz]. intros g _. cbn beta. apply eqm_eq. rewrite ev_extend. apply ev_ext. intros k v _.
    unfold AU, drop, counit_at. f_equal. apply flat_map_ext. intros [[l1 s] l2]. now rewrite cube_dim_dim. }
  assert (G : gives cls_cubical (ext_diagC dt (times - 1) coord x) (torsion x) tt (extend (counit_at i) y)) by (eapply (den_gives cls_cubical ok_cubical); [exact (proj1 W)|exact D|reflexivity]).
  split; [exact G|].
  destruct (linop_SdK dt n coord (fun _ => True) Hc all_csub (torsion x) d times (proj1 W) Hdt ltac:(lia) x W eq_refl (cub_attr x) K') as (y' & Ey' & Dy & Ky). unfold ext_diagC in Ey'. rewrite Ey in Ey'. injection Ey' as <-.
  pose proof (den_wf cls_cubical _ _ _ y (proj1 W) Dy) as Wy. pose proof (proj1 Dy) as Ty. assert (Hd2 : dt_ok dt (torsion y)) by congruence.
  refine (gives_cong cls_cubical ok_cubical _ _ (torsion x) tt _ _ (proj1 W) _ G (fun k => eq_refl)).
  unfold extended1. destruct (dempty (data y)) eqn:Em.
  - eapply (den_gives cls_cubical ok_cubical); [exact (proj1 W)|rewrite <- (cub_attr y); apply (zero_den cls_cubical ok_cubical dt (torsion x)); [exact (proj1 W)|exact Hdt|exact Ty]|]. intros g _. apply eqm_eq. clear - Em. destruct y as [[|p l] ty ay]; [reflexivity|discriminate Em].
  - rewrite <- Ty. apply (C96_cubical_counit_l dt (n + times) d (-1) i y Wy Hd2); [apply (proj1 (C27_arity_degree_l (n + times) 0 y))|apply (proj2 (C27_arity_degree_l 0 d y))|lia|lia];
      (split; [intros E; rewrite E in Em; discriminate|]); intros k v Hin; destruct (Ky k v Hin) as (A & B & _); [exact A|now rewrite cdeg].
Qed.
(** #C109_simplicial_detects# Over every simplicial complex: an element of a tensor power of the chains is a boundary exactly if its
    iterated diagonal is. *)
Lemma C109_simplicial_detects_l (dt n d times coord : Z) (C : list Z -> Prop) (x : simp) :
  subcomplex C -> wf cls_simplicial x -> dt_ok dt (torsion x) -> keys_in (simp_cell C n d) x -> 1 <= coord <= n -> 0 <= times ->
  let diagonal := extended1 dt cls_simplicial (fun y => simp_iterated_diagonal dt y times coord) in
  (exists u, wf cls_simplicial u /\ torsion u = torsion x /\ keys_in (simp_cell C n (d + 1)) u /\ same (simp_boundary dt u) (Ok x)) <->
  (exists w, wf cls_simplicial w /\ torsion w = torsion x /\ keys_in (simp_cell C (n + times) (d + 1)) w /\ same (simp_boundary dt w) (diagonal x)).
Proof. cbn zeta. intros HC W Hdt K Hc Htm. exact (si_detects dt n coord C Hc HC d times x W Hdt K Htm). Qed.
(** #C109_cubical_detects# The same over every cubical complex. *)
Lemma C109_cubical_detects_l (dt n d times coord : Z) (C : list Z -> Prop) (x : cubc) :
  cubical_subcomplex C -> wf cls_cubical x -> dt_ok dt (torsion x) -> keys_in (cube_cell C n d) x -> 1 <= coord <= n -> 0 <= times ->
  let diagonal := extended1 dt cls_cubical (fun y => cub_iterated_diagonal dt y times coord) in
  (exists u, wf cls_cubical u /\ torsion u = torsion x /\ keys_in (cube_cell C n (d + 1)) u /\ same (cub_boundary dt u) (Ok x)) <->
  (exists w, wf cls_cubical w /\ torsion w = torsion x /\ keys_in (cube_cell C (n + times) (d + 1)) w /\ same (cub_boundary dt w) (diagonal x)).
Proof.
  cbn zeta. intros HC W Hdt K Hc Htm. assert (E : forall m e k, ccell cube_dim C m e k <-> cube_cell C m e k) by (intros; unfold ccell, cube_cell; now rewrite cdeg).
  assert (K' : keys_in (ccell cube_dim C n d) x) by (intros k v Hin; apply E; exact (K k v Hin)).
  pose proof (cu_detects dt n coord C Hc HC d times x W Hdt K' Htm) as B. unfold bounds, ext_diagC in B.
  split; [intros (u & Wu & Tu & Ku & Su)|intros (w & Ww & Tw & Kw & Sw)].
  - destruct (proj1 B) as (w & Ww & Tw & Kw & Sw); [exists u; split; [exact Wu|]; split; [exact Tu|]; split; [intros k v Hin; apply E; exact (Ku k v Hin)|exact Su]|].
    exists w. split; [exact Ww|]. split; [exact Tw|]. split; [intros k v Hin; apply E; exact (Kw k v Hin)|exact Sw].
  - destruct (proj2 B) as (u & Wu & Tu & Ku & Su); [exists w; split; [exact Ww|]; split; [exact Tw|]; split; [intros k v Hin; apply E; exact (Kw k v Hin)|exact Sw]|].
    exists u. split; [exact Wu|]. split; [exact Tu|]. split; [intros k v Hin; apply E; exact (Ku k v Hin)|exact Su].
Qed.
(** #C109_example# The boundary of a triangle (a circle): the cycle of its three edges, which is not a boundary in the circle, and its diagonal. *)
Example C109_example_l : let C := fun s : list Z => s = [] \/ In s [[0]; [1]; [2]; [0; 1]; [1; 2]; [0; 2]] in
  let x : simp := mkElt [([[0; 1]], 1); ([[1; 2]], 1); ([[0; 2]], -1)] 0 tt in
  subcomplex C /\ wf cls_simplicial x /\ keys_in (simp_cell C 1 1) x /\ simp_boundary 0 x = Ok (mkElt [] 0 tt) /\
  simp_iterated_diagonal 0 x 1 1 = Ok (mkElt [([[0]; [0; 1]], 1); ([[0; 1]; [1]], 1); ([[1]; [1; 2]], 1); ([[1; 2]; [2]], 1); ([[0]; [0; 2]], -1); ([[0; 2]; [2]], -1)] 0 tt) /\
  extend (drop_vertex 1) (mkElt [([[0]; [0; 1]], 1); ([[0; 1]; [1]], 1)] 0 tt : simp) = [([[0; 1]], 1)].
Proof.
  cbv zeta. split; [|split; [apply wfb_wf; reflexivity|split; [|split; [reflexivity|split; reflexivity]]]].
  - split; [|split; [now left|]].
    + intros s. destruct (list_eq_dec Z.eq_dec s []); [left; now left|]. destruct (in_dec (list_eq_dec Z.eq_dec) s [[0]; [1]; [2]; [0; 1]; [1; 2]; [0; 2]]); [left; now right|right; tauto].
    + intros l1 a l2 [E|H]; [destruct l1; discriminate|]. cbn [In] in H.
      destruct l1 as [|b [|c [|e l1]]]; destruct l2 as [|f [|g l2]]; cbn [app] in *; repeat (destruct H as [H|H]; [injection H as; subst; cbn; auto 9; discriminate|]); destruct H.
  - intros k v [[= <- _]|[[= <- _]|[[= <- _]|[]]]]; (split; [reflexivity|split; [reflexivity|]]); intros s [<-|[]]; right; cbn; auto 9.
Qed.
