(** * Tensor powers of cones and cubes have the homology of a point (C98) *)
From Coq Require Import Setoid Morphisms Sorting.Sorted.
From Verif Require Import PyBase Dict FreeModule Symmetric Simplicial Cubical Eqm Spec SpecChain SpecCube SpecCone FreeModuleFacts FreeModuleLaws ListFacts ClassFacts LinearFacts SymmetricFacts
  CycleFacts SymmetricLaws RingFacts Tensor TensorAct KoszulFacts LoopFacts SimplicialFacts SimplicialLaws CubicalFacts CubicalLaws AcyclicFacts AcyclicLaws ConeFacts.

(** ** simplices *)
Definition hbS (v : Z) (s : list Z) : dict (list Z) := match s with [] => [] | _ => [(v :: s, 1)] end.
Definition epsS (s : list Z) : Z := match s with [_] => 1 | _ => 0 end.
Lemma hdS_eq v g s : hd_ (hbS v) g s = match s with [] => 0 | _ => g (v :: s) end.
Proof. unfold hd_, hbS. destruct s; [reflexivity|]. rewrite ev_cons, ev_nil. ring. Qed.
Lemma fdS_eps s : spx_is_degenerate s = false -> fdS epsS s = 0.
Proof.
  intros _. destruct s as [|a [|b [|d s]]]; try reflexivity. apply ev_zero. intros u e Hin. unfold fbS in Hin. apply in_map_iff in Hin. destruct Hin as ([[l1 x] l2] & [= <- _] & Hin). apply splits_in in Hin.
  assert (L : length (l1 ++ l2) = S (S (length s))). { apply (f_equal (@length Z)) in Hin. rewrite app_length in Hin. cbn in Hin. rewrite app_length. cbn [length] in *. lia. }
  destruct (l1 ++ l2) as [|? [|? ?]]; cbn in L; try lia. reflexivity.
Qed.
Lemma homS v g s : (forall u, spx_is_degenerate u = true -> g u = 0) -> spx_is_degenerate s = false ->
  hd_ (hbS v) (fdS g) s + fdS (hd_ (hbS v) g) s = g s - epsS s * g [v].
Proof.
  intros Hg Hs. rewrite hdS_eq. destruct s as [|a s]; [discriminate|]. rewrite (fdS_ext (hd_ (hbS v) g) (fun u => g (v :: u) - match u with [] => g [v] | _ => 0 end)).
  2:{ intros u. rewrite hdS_eq. destruct u; ring. }
  rewrite (fdS_cons g v), fdS_sub. destruct s as [|b s].
  - cbn [epsS]. rewrite (fdS_cons (fun u => match u with [] => g [v] | _ => 0 end)). change (fdS _ []) with 0. ring.
  - cbn [epsS]. assert (E : fdS (fun u => match u with [] => g [v] | _ => 0 end) (a :: b :: s) = 0); [|rewrite E; ring].
    apply ev_zero. intros u e Hin. unfold fbS in Hin. apply in_map_iff in Hin. destruct Hin as ([[l1 x] l2] & [= <- _] & Hin). apply splits_in in Hin.
    assert (L : length (l1 ++ l2) = S (length s)). { apply (f_equal (@length Z)) in Hin. rewrite app_length in Hin. cbn in Hin. rewrite app_length. lia. }
    destruct (l1 ++ l2); [discriminate|reflexivity].
Qed.
Lemma ccell_simp C r d k : ccell spx_dim C r d k <-> simp_cell C r d k.
Proof. reflexivity. Qed.
Section S.
Variables (dt v : Z) (C : list Z -> Prop).
Hypothesis HC : cone_on v C.
Lemma Cfb_S b b' e : C b -> In (b', e) (fbS b) -> C b'.
Proof. destruct HC as (_ & _ & H & _). intros Hb Hin. unfold fbS in Hin. apply in_map_iff in Hin. destruct Hin as ([[l1 x] l2] & [= <- _] & Hin). apply splits_in in Hin. subst b. eapply H; eauto. Qed.
Lemma Chb_S b b' e : C b -> In (b', e) (hbS v b) -> C b'.
Proof. destruct HC as (_ & _ & _ & H). intros Hb Hin. destruct b as [|a b]; [destruct Hin|]. destruct Hin as [[= <- _]|[]]. now apply H. Qed.
Lemma dg_hb_S b b' e : In (b', e) (hbS v b) -> spx_dim b' = spx_dim b + 1.
Proof. intros Hin. destruct b as [|a b]; [destruct Hin|]. destruct Hin as [[= <- _]|[]]. unfold spx_dim. rewrite !zlen_cons. ring. Qed.
Lemma Cpt_S : C [v]. Proof. destruct HC as (_ & H0 & _ & H). now apply H. Qed.
Lemma eps_dg_S b : epsS b <> 0 -> spx_dim b = 0. Proof. destruct b as [|a [|? ?]]; cbn [epsS]; intros; try lia. reflexivity. Qed.
Lemma eps1_S b : C b -> spx_is_degenerate b = false -> spx_dim b = 0 -> epsS b = 1.
Proof. intros _ _ H. destruct b as [|a [|? b]]; [discriminate|reflexivity|]. unfold spx_dim in H. rewrite !zlen_cons in H. pose proof (zlen_nonneg b). lia. Qed.
Lemma eps_bad_S b : spx_is_degenerate b = true -> epsS b = 0.
Proof. destruct b as [|a [|? b]]; try reflexivity. discriminate. Qed.
Lemma good_dg_S b : spx_is_degenerate b = false -> 0 <= spx_dim b.
Proof. destruct b as [|a b]; [discriminate|]. intros _. unfold spx_dim. rewrite zlen_cons. pose proof (zlen_nonneg b). lia. Qed.
Lemma hd_bad_S g b : (forall b', spx_is_degenerate b' = true -> g b' = 0) -> spx_is_degenerate b = true -> hd_ (hbS v) g b = 0.
Proof. intros Hg Hb. rewrite hdS_eq. destruct b as [|a b]; [reflexivity|]. apply Hg, dupb_deg, dupb_tl. rewrite deg_dupb in Hb. exact Hb. Qed.
Lemma fd_pt_S g : (forall b', spx_is_degenerate b' = true -> g b' = 0) -> fdS g [v] = 0.
Proof. intros Hg. rewrite fdS_cons. change (fdS _ []) with 0. rewrite (Hg []) by reflexivity. ring. Qed.
End S.
(** #C98_cone# Let [C] be a cone.  In the tensor powers of its chains every cycle of positive degree is a boundary. *)
Lemma C98_cone_l (dt v r d : Z) (C : list Z -> Prop) (x : simp) : cone_on v C -> 1 <= d -> wf cls_simplicial x -> dt_ok dt (torsion x) -> keys_in (simp_cell C r d) x ->
  (exists z, simp_boundary dt x = Ok z /\ is_zero z) ->
  exists y, wf cls_simplicial y /\ torsion y = torsion x /\ keys_in (simp_cell C r (d + 1)) y /\ same (simp_boundary dt y) (Ok x).
Proof.
  intros HC Hd Wx Hdt Kx Z0.
  exact (cone_cycle_bounds cls_simplicial ok_simplicial spx_is_degenerate sbad sck fbS spx_dim dim_fbS fdS_bad dt (simp_boundary dt) (fun t x => simp_boundary_den dt t x)
    C (proj1 HC) (Cfb_S v C HC) (hbS v) (Chb_S v C HC) (dg_hb_S v) [v] (Cpt_S v C HC) eq_refl epsS eps_dg_S eps_bad_S (hd_bad_S v) (fun b _ => fdS_eps b) (fd_pt_S v) (fun g b Hg _ => homS v g b Hg) r d x Wx Hdt Hd Kx Z0).
Qed.
(** #C98_cone_zero# In degree 0 an element is a boundary exactly if the torsion divides the sum of its coefficients. *)
Lemma C98_cone_zero_l (dt v r : Z) (C : list Z -> Prop) (x : simp) : cone_on v C -> wf cls_simplicial x -> dt_ok dt (torsion x) -> keys_in (simp_cell C r 0) x ->
  (exists y, wf cls_simplicial y /\ torsion y = torsion x /\ keys_in (simp_cell C r 1) y /\ same (simp_boundary dt y) (Ok x)) <-> (torsion x | zsum (map snd (data x))).
Proof.
  intros HC Wx Hdt Kx. rewrite <- total_zsum.
  exact (cone_zero_bounds cls_simplicial ok_simplicial spx_is_degenerate sbad sck fbS spx_dim dim_fbS fdS_bad dt (simp_boundary dt) (fun t x => simp_boundary_den dt t x)
    C (proj1 HC) (Cfb_S v C HC) (hbS v) (Chb_S v C HC) (dg_hb_S v) [v] (Cpt_S v C HC) eq_refl epsS eps_dg_S (eps1_S C) eps_bad_S good_dg_S (hd_bad_S v) (fun b _ => fdS_eps b) (fd_pt_S v) (fun g b Hg _ => homS v g b Hg) r x Wx Hdt Kx).
Qed.
(** the standard simplex: with the degenerate simplices it is a cone *)
Definition wface (m : Z) (s : list Z) : Prop := StronglySorted Z.le s /\ forall a, In a s -> 0 <= a <= m.
Lemma sorted_dec (R : Z -> Z -> Prop) : (forall a b, R a b \/ ~ R a b) -> forall s, StronglySorted R s \/ ~ StronglySorted R s.
Proof.
  intros Rd. induction s as [|a s IH]; [left; constructor|]. destruct IH as [IH|IH]; [|right; intros H; apply IH; now inversion H].
  assert (F : Forall (R a) s \/ ~ Forall (R a) s).
  { clear IH. induction s as [|b s IHs]; [left; constructor|]. destruct (Rd a b) as [H|H]; [|right; intros F; apply H; now inversion F]. destruct IHs as [G|G]; [left; now constructor|right; intros F; apply G; now inversion F]. }
  destruct F as [F|F]; [left; now constructor|right; intros H; apply F; now inversion H].
Qed.
Lemma cone_wface m : 0 <= m -> cone_on 0 (wface m).
Proof.
  intros Hm. split; [|split; [|split]].
  - intros s. assert (A : (forall a, In a s -> 0 <= a <= m) \/ ~ (forall a, In a s -> 0 <= a <= m)).
    { induction s as [|a s IH]; [left; intros ? []|]. assert ((0 <= a <= m) \/ ~ (0 <= a <= m)) as [H|H] by lia; [|right; intros G; apply H, G; now left]. destruct IH as [IH|IH]; [left; intros b [<-|Hb]; auto|right; intros G; apply IH; intros; apply G; now right]. }
    destruct (sorted_dec Z.le ltac:(intros; lia) s); unfold wface; tauto.
  - split; [constructor|intros ? []].
  - intros l1 a l2 [S1 H]. split; [|intros b Hb; apply H; apply in_app_or in Hb; apply in_or_app; cbn; tauto].
    clear H. induction l1 as [|b l1 IH]; cbn [app] in *; inversion S1; subst; [assumption|]. constructor; [now apply IH|]. apply Forall_app in H2. apply Forall_app. destruct H2 as [F1 F2]. split; [exact F1|now inversion F2].
  - intros s [S1 H]. split; [|intros a [<-|Ha]; [lia|now apply H]]. constructor; [exact S1|]. apply Forall_forall. intros a Ha. now apply H.
Qed.
Lemma face_wface m s : simplex_face m s -> wface m s.
Proof.
  intros (_ & S1 & H). split; [|exact H]. clear H. induction S1 as [|a s S1 IH F]; constructor; auto. eapply Forall_impl; [|exact F]. cbn. intros; lia.
Qed.
Lemma wface_face m s : wface m s -> spx_is_degenerate s = false -> simplex_face m s.
Proof.
  intros [S1 H] D. rewrite deg_dupb in D. split; [intros ->; discriminate|]. split; [|exact H]. assert (D' : dupb s = false) by (destruct s; [reflexivity|exact D]). clear D H.
  induction S1 as [|a s S1 IH F]; [constructor|]. constructor; [apply IH; destruct s as [|b s]; [reflexivity|]; rewrite dupb_cons2 in D'; apply orb_false_iff in D'; tauto|].
  destruct s as [|b s]; [constructor|]. rewrite dupb_cons2 in D'. apply orb_false_iff in D'. destruct D' as [Nab _]. apply Z.eqb_neq in Nab. inversion F as [|? ? Hb Fs]; subst. constructor; [lia|].
  inversion S1 as [|? ? _ Gs]; subst. eapply Forall_impl; [|exact Gs]. cbn. intros; lia.
Qed.
Lemma cell_up m r d (x : simp) : keys_in (simp_cell (simplex_face m) r d) x -> keys_in (simp_cell (wface m) r d) x.
Proof. intros K k v Hin. assert (H : simp_cell (simplex_face m) r d k) by exact (K _ _ Hin). destruct H as (H1 & H2 & H3). split; [exact H1|]. split; [exact H2|]. intros s Hs. apply face_wface. now apply H3. Qed.
Lemma cell_down m r d (x : simp) : wf cls_simplicial x -> keys_in (simp_cell (wface m) r d) x -> keys_in (simp_cell (simplex_face m) r d) x.
Proof.
  intros Wx K k v Hin. assert (H : simp_cell (wface m) r d k) by exact (K _ _ Hin). destruct H as (H1 & H2 & H3). split; [exact H1|]. split; [exact H2|]. intros s Hs. apply wface_face; [now apply H3|].
  pose proof (wf_good cls_simplicial spx_is_degenerate sbad x k v Wx Hin) as G. destruct (spx_is_degenerate s) eqn:E; [|reflexivity]. assert (existsb spx_is_degenerate k = true) by (apply existsb_exists; eauto). congruence.
Qed.
(** #C98_simplex# In the tensor powers of the chains of the standard simplex every cycle of positive degree is a boundary. *)
Lemma C98_simplex_l (dt m r d : Z) (x : simp) : 0 <= m -> 1 <= d -> wf cls_simplicial x -> dt_ok dt (torsion x) -> keys_in (simp_cell (simplex_face m) r d) x ->
  (exists z, simp_boundary dt x = Ok z /\ is_zero z) ->
  exists y, wf cls_simplicial y /\ torsion y = torsion x /\ keys_in (simp_cell (simplex_face m) r (d + 1)) y /\ same (simp_boundary dt y) (Ok x).
Proof.
  intros Hm Hd Wx Hdt Kx Z0. destruct (C98_cone_l dt 0 r d (wface m) x (cone_wface m Hm) Hd Wx Hdt (cell_up m r d x Kx) Z0) as (y & Wy & Ty & Ky & Sy).
  exists y. split; [exact Wy|]. split; [exact Ty|]. split; [now apply cell_down|exact Sy].
Qed.
(** #C98_simplex_zero# *)
Lemma C98_simplex_zero_l (dt m r : Z) (x : simp) : 0 <= m -> wf cls_simplicial x -> dt_ok dt (torsion x) -> keys_in (simp_cell (simplex_face m) r 0) x ->
  (exists y, wf cls_simplicial y /\ torsion y = torsion x /\ keys_in (simp_cell (simplex_face m) r 1) y /\ same (simp_boundary dt y) (Ok x)) <-> (torsion x | zsum (map snd (data x))).
Proof.
  intros Hm Wx Hdt Kx. rewrite <- (C98_cone_zero_l dt 0 r (wface m) x (cone_wface m Hm) Wx Hdt (cell_up m r 0 x Kx)). split; intros (y & Wy & Ty & Ky & Sy); exists y.
  - split; [exact Wy|]. split; [exact Ty|]. split; [now apply cell_up|exact Sy].
  - split; [exact Wy|]. split; [exact Ty|]. split; [now apply cell_down|exact Sy].
Qed.
(** ** cubes *)
Fixpoint hbC (c : list Z) : dict (list Z) :=
  match c with
  | [] => []
  | a :: w => if a =? 2 then [] else (if a =? 1 then [(2 :: w, 1)] else []) ++ map (fun p => (0 :: fst p, snd p)) (hbC w)
  end.
Notation hdC := (hd_ hbC).
Lemma hdC_2 g w : hdC g (2 :: w) = 0. Proof. reflexivity. Qed.
Lemma hdC_1 g w : hdC g (1 :: w) = g (2 :: w) + hdC (fun u => g (0 :: u)) w.
Proof. unfold hd_. cbn [hbC]. change (1 =? 2) with false. change (1 =? 1) with true. cbn iota. rewrite ev_app, ev_cons, ev_nil. unfold ev. rewrite sumf_map. cbn [fst snd]. ring. Qed.
Lemma hdC_0 g w : hdC g (0 :: w) = hdC (fun u => g (0 :: u)) w.
Proof. unfold hd_. cbn [hbC]. change (0 =? 2) with false. change (0 =? 1) with false. cbn iota. cbn [app]. unfold ev. rewrite sumf_map. reflexivity. Qed.
Lemma hdC_ext g h c : (forall u, g u = h u) -> hdC g c = hdC h c. Proof. intros E. apply ev_ext. intros; apply E. Qed.
Definition epsC (c : list Z) : Z := if cube_dim c =? 0 then 1 else 0.
Lemma epsC_cons a c : epsC (a :: c) = if a =? 2 then 0 else epsC c.
Proof. unfold epsC. rewrite cube_dim_cons. pose proof (cube_dim_nonneg c). destruct (a =? 2); [|reflexivity]. destruct (Z.eqb_spec (1 + cube_dim c) 0); [lia|reflexivity]. Qed.
Lemma homC c : forall g, is_cube c -> hdC (fdC g) c + fdC (hdC g) c = g c - epsC c * g (repeat 0 (length c)).
Proof.
  induction c as [|a c IH]; intros g Hc; [change (epsC []) with 1; rewrite fdC_nil; unfold hd_; cbn [hbC repeat length]; rewrite ev_nil; ring|].
  assert (Hc' : is_cube c) by (intros b Hb; apply Hc; now right). rewrite epsC_cons. cbn [repeat length]. specialize (IH (fun u => g (0 :: u)) Hc'). cbn beta in IH.
  destruct (Hc a (or_introl eq_refl)) as [-> | [-> | ->]].
  - change (0 =? 2) with false. cbn iota. rewrite hdC_0, fdC_n by lia. rewrite (hdC_ext _ (fdC (fun u => g (0 :: u)))) by (intros; now apply fdC_n). rewrite (fdC_ext _ (hdC (fun u => g (0 :: u)))) by (intros; apply hdC_0). exact IH.
  - change (1 =? 2) with false. cbn iota. rewrite hdC_1, (fdC_n _ 1), fdC_2 by lia. rewrite (hdC_ext _ (fdC (fun u => g (0 :: u)))) by (intros; apply fdC_n; lia).
    rewrite (fdC_ext (fun u => hdC g (1 :: u)) (fun u => g (2 :: u) + hdC (fun w => g (0 :: w)) u)) by (intros; apply hdC_1). rewrite fdC_add. change (fdC (fun u => hdC (fun w => g (0 :: w)) u) c) with (fdC (hdC (fun w => g (0 :: w))) c). lia.
  - change (2 =? 2) with true. cbn iota. rewrite hdC_2, fdC_2, hdC_1, hdC_0. rewrite (fdC_ext _ (fun _ => 0)) by (intros; apply hdC_2). rewrite fdC_0. ring.
Qed.
Lemma fdC_eps c : is_cube c -> fdC epsC c = 0.
Proof.
  induction c as [|a c IH]; intros Hc; [reflexivity|]. assert (Hc' : is_cube c) by (intros b Hb; apply Hc; now right).
  destruct (Hc a (or_introl eq_refl)) as [-> | [-> | ->]]; [rewrite fdC_n by lia; rewrite (fdC_ext _ epsC) by (intros; apply epsC_cons); now apply IH..|].
  rewrite fdC_2, !epsC_cons. rewrite (fdC_ext _ (fun _ => 0)) by (intros; apply epsC_cons). rewrite fdC_0. change (1 =? 2) with false. change (0 =? 2) with false. ring.
Qed.
Lemma hbC_in c : forall c' v, In (c', v) (hbC c) -> cube_dim c' = cube_dim c + 1 /\ zlen c' = zlen c /\ (is_cube c -> is_cube c').
Proof.
  induction c as [|a w IH]; intros c' v; [intros []|]. cbn [hbC]. rewrite (cube_dim_cons a). destruct (Z.eqb_spec a 2) as [|N]; [intros []|]. intros Hin. apply in_app_or in Hin. destruct Hin as [Hin|Hin].
  - destruct (a =? 1); [|destruct Hin]. destruct Hin as [E|[]]. injection E as <- _. rewrite cube_dim_cons, !zlen_cons. change (2 =? 2) with true. cbn iota. split; [ring|]. split; [ring|]. intros Hc b [<-|Hb]; [tauto|apply Hc; now right].
  - apply in_map_iff in Hin. destruct Hin as ([u e] & E & Hin). injection E as <- _. cbn [fst]. apply IH in Hin. destruct Hin as (D & L & I). rewrite cube_dim_cons, !zlen_cons. change (0 =? 2) with false. cbn iota. split; [lia|]. split; [lia|].
    intros Hc b [<-|Hb]; [tauto|]. apply I; [|exact Hb]. intros b' Hb'. apply Hc. now right.
Qed.
Definition mcube (m : Z) (c : list Z) : Prop := is_cube c /\ zlen c = m.
Lemma mcube_dec m c : mcube m c \/ ~ mcube m c.
Proof.
  unfold mcube. assert (A : is_cube c \/ ~ is_cube c).
  { unfold is_cube. induction c as [|a s IH]; [left; intros ? []|]. assert ((a = 0 \/ a = 1 \/ a = 2) \/ ~ (a = 0 \/ a = 1 \/ a = 2)) as [H|H] by lia; [|right; intros G; apply H, G; now left]. destruct IH as [IH|IH]; [left; intros b [<-|Hb]; auto|right; intros G; apply IH; intros; apply G; now right]. }
  destruct (Z.eq_dec (zlen c) m); tauto.
Qed.
Lemma ccell_cub m r d k : ccell cube_dim (mcube m) r d k <-> cub_cell m r d k.
Proof. unfold ccell, cub_cell, tdeg, cube_degree. rewrite (map_ext cube_dim dim) by apply cube_dim_dim. reflexivity. Qed.
Lemma keys_ccell m r d (x : cubc) : keys_in (ccell cube_dim (mcube m) r d) x <-> keys_in (cub_cell m r d) x.
Proof. split; intros K k v Hin; apply ccell_cub; exact (K _ _ Hin). Qed.
Section CC.
Variable m : Z.
Hypothesis Hm : 0 <= m.
Notation C := (mcube m).
Notation pt := (repeat 0 (Z.to_nat m)).
Lemma Cfb_C b b' e : C b -> In (b', e) (fbC b) -> C b'.
Proof. intros [H1 H2] Hin. destruct (len_fbC _ _ _ Hin) as [L I]. split; [now apply I|lia]. Qed.
Lemma Chb_C b b' e : C b -> In (b', e) (hbC b) -> C b'.
Proof. intros [H1 H2] Hin. destruct (hbC_in _ _ _ Hin) as (_ & L & I). split; [now apply I|lia]. Qed.
Lemma dg_hb_C b b' e : In (b', e) (hbC b) -> cube_dim b' = cube_dim b + 1.
Proof. intros Hin. apply (hbC_in _ _ _ Hin). Qed.
Lemma Cpt_C : C pt.
Proof. split; [intros a Ha; apply repeat_spec in Ha; tauto|unfold zlen; rewrite repeat_length; lia]. Qed.
Lemma dpt_C : cube_dim pt = 0.
Proof. clear. induction (Z.to_nat m) as [|n IH]; [reflexivity|]. cbn [repeat]. rewrite cube_dim_cons, IH. reflexivity. Qed.
Lemma eps_dg_C b : epsC b <> 0 -> cube_dim b = 0. Proof. unfold epsC. destruct (Z.eqb_spec (cube_dim b) 0); lia. Qed.
Lemma eps1_C b : C b -> noc b = false -> cube_dim b = 0 -> epsC b = 1. Proof. intros _ _ E. unfold epsC. now rewrite E. Qed.
Lemma fd_pt_C g : (forall b', noc b' = true -> g b' = 0) -> fdC g pt = 0.
Proof. intros _. clear. revert g. induction (Z.to_nat m) as [|n IH]; intros g; [reflexivity|]. cbn [repeat]. rewrite fdC_n by lia. apply IH. Qed.
Lemma hom_C g b : (forall b', noc b' = true -> g b' = 0) -> C b -> noc b = false -> hdC (fdC g) b + fdC (hdC g) b = g b - epsC b * g pt.
Proof. intros _ [H1 H2] _. rewrite homC by exact H1. replace (length b) with (Z.to_nat m) by (unfold zlen in H2; lia). reflexivity. Qed.
End CC.
(** #C98_cube# In the tensor powers of the chains of the standard cube of dimension [m] every cycle of positive degree is a boundary. *)
Lemma C98_cube_l (dt m r d : Z) (x : cubc) : 0 <= m -> 1 <= d -> wf cls_cubical x -> dt_ok dt (torsion x) -> keys_in (cub_cell m r d) x ->
  (exists z, cub_boundary dt x = Ok z /\ is_zero z) ->
  exists y, wf cls_cubical y /\ torsion y = torsion x /\ keys_in (cub_cell m r (d + 1)) y /\ same (cub_boundary dt y) (Ok x).
Proof.
  intros Hm Hd Wx Hdt Kx Z0. rewrite <- keys_ccell in Kx.
  destruct (cone_cycle_bounds cls_cubical ok_cubical noc cbad cck fbC cube_dim dim_fbC fdC_bad dt (cub_boundary dt) (fun t x => cub_boundary_den dt t x)
    (mcube m) (mcube_dec m) (Cfb_C m) hbC (Chb_C m) dg_hb_C (repeat 0 (Z.to_nat m)) (Cpt_C m Hm) (dpt_C m) epsC eps_dg_C (fun b H => False_ind _ (eq_ind false (fun b => if b then False else True) I true H)) (fun g b _ H => False_ind _ (eq_ind false (fun b => if b then False else True) I true H)) (fun b Hb _ => fdC_eps b (proj1 Hb)) (fd_pt_C m) (hom_C m) r d x Wx Hdt Hd Kx Z0) as (y & Wy & Ty & Ky & Sy).
  rewrite keys_ccell in Ky. exists y. tauto.
Qed.
(** #C98_cube_zero# *)
Lemma C98_cube_zero_l (dt m r : Z) (x : cubc) : 0 <= m -> wf cls_cubical x -> dt_ok dt (torsion x) -> keys_in (cub_cell m r 0) x ->
  (exists y, wf cls_cubical y /\ torsion y = torsion x /\ keys_in (cub_cell m r 1) y /\ same (cub_boundary dt y) (Ok x)) <-> (torsion x | zsum (map snd (data x))).
Proof.
  intros Hm Wx Hdt Kx. rewrite <- total_zsum. rewrite <- keys_ccell in Kx.
  rewrite <- (cone_zero_bounds cls_cubical ok_cubical noc cbad cck fbC cube_dim dim_fbC fdC_bad dt (cub_boundary dt) (fun t x => cub_boundary_den dt t x)
    (mcube m) (mcube_dec m) (Cfb_C m) hbC (Chb_C m) dg_hb_C (repeat 0 (Z.to_nat m)) (Cpt_C m Hm) (dpt_C m) epsC eps_dg_C (eps1_C m) (fun b H => False_ind _ (eq_ind false (fun b => if b then False else True) I true H)) (fun b _ => cube_dim_nonneg b) (fun g b _ H => False_ind _ (eq_ind false (fun b => if b then False else True) I true H)) (fun b Hb _ => fdC_eps b (proj1 Hb)) (fd_pt_C m) (hom_C m) r x Wx Hdt Kx).
  split; intros (y & Wy & Ty & Ky & Sy); exists y; apply keys_ccell in Ky; tauto.
Qed.
(** #C98_example# *)
Example C98_example_l :
  let x : simp := mkElt [([[1]; [0; 2]], 1); ([[0]; [0; 2]], -1); ([[0; 1]; [2]], -1); ([[0; 1]; [0]], 1)] 0 tt in
  let y : cubc := mkElt [([[1; 2]], 1); ([[0; 2]], 4); ([[2; 1]], 4); ([[2; 0]], 1)] 5 tt in
  wf cls_simplicial x /\ keys_in (simp_cell (simplex_face 2) 2 1) x /\ simp_boundary 0 x = Ok (mkElt [] 0 tt) /\ simp_boundary 0 (mkElt [([[0; 1]; [0; 2]], 1)] 0 tt) = Ok x /\
  wf cls_cubical y /\ keys_in (cub_cell 2 1 1) y /\ cub_boundary 0 y = Ok (mkElt [] 5 tt).
Proof.
  intros x y. split; [apply wfb_wf; reflexivity|]. split; [|split; [reflexivity|]; split; [reflexivity|]; split; [apply wfb_wf; reflexivity|]; split; [|reflexivity]].
  - intros k v Hin. cbn in Hin. assert (F : forall s, In s k -> simplex_face 2 s).
    { destruct Hin as [Hin|[Hin|[Hin|[Hin|[]]]]]; injection Hin as <- _; intros s [<-|[<-|[]]]; (split; [discriminate|]; split; [repeat constructor|intros a Ha; cbn in Ha; lia]). }
    destruct Hin as [Hin|[Hin|[Hin|[Hin|[]]]]]; injection Hin as <- _; (split; [reflexivity|]; split; [reflexivity|exact F]).
  - intros k v Hin. cbn in Hin. destruct Hin as [Hin|[Hin|[Hin|[Hin|[]]]]]; injection Hin as <- _; (split; [reflexivity|]; split; [reflexivity|]; intros c [<-|[]]; split; [intros a Ha; cbn in Ha; lia|reflexivity]).
Qed.
