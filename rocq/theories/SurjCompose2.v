(** * Surjections: degenerate words, relabelling and associativity of the composition.  Proof library. *)
From Coq Require Import Setoid Morphisms.
From Verif Require Import PyBase Dict FreeModule Symmetric Simplicial Utils Surjection Eqm Spec SpecOperad SpecSurj FreeModuleFacts FreeModuleLaws ListFacts
  ClassFacts LinearFacts SymmetricFacts CycleFacts SymmetricLaws RingFacts TensorAct LoopFacts SurjFacts SurjBoundary SurjCompose.
Opaque Cc Cl.

(** ** degenerate words *)
Lemma adj_app_l u v : adj u = true -> adj (u ++ v) = true.
Proof.
  induction u as [|a u IH]; [discriminate|]. destruct u as [|b u]; [discriminate|]. cbn [app] in *. rewrite !adj_cons2. intros E. apply orb_true_iff in E.
  destruct E as [-> | E]; [reflexivity|]. rewrite (IH E). apply orb_true_r.
Qed.
Lemma adj_app_r u v : adj v = true -> adj (u ++ v) = true.
Proof. induction u as [|a u IH]; [auto|]. intros E. cbn [app]. apply adj_tl. auto. Qed.
Lemma Cl_head m u b y w s : In (w, s) (Cl m (m :: u) (b :: y)) -> exists w', w = b :: w'.
Proof.
  rewrite Cl_m_cons. intros Hin. apply in_app_iff in Hin. destruct Hin as [Hin|Hin].
  - destruct (mem m u); [|destruct Hin]. apply in_map_iff in Hin. destruct Hin as ([w' s'] & [= <- _] & _). cbn. eauto.
  - apply in_map_iff in Hin. destruct Hin as ([w' s'] & [= <- _] & _). cbn. eauto.
Qed.
Lemma Cl_last m u : mem m u = false -> forall y w s, In (w, s) (Cl m (m :: u) y) -> w = y ++ u.
Proof.
  intros E. induction y as [|b y IH]; intros w s Hin.
  - rewrite Cl_m_nil, E in Hin. destruct Hin as [[= <- _]|[]]. reflexivity.
  - rewrite Cl_m_cons, E in Hin. cbn [app] in Hin. apply in_map_iff in Hin. destruct Hin as ([w' s'] & [= <- _] & Hin). cbn. now rewrite (IH _ _ Hin).
Qed.
Lemma Cl_notin m u : mem m u = false -> forall y w s, In (w, s) (Cl m u y) -> w = u.
Proof.
  induction u as [|a u IH]; intros E y w s Hin.
  - destruct Hin as [[= <- _]|[]]. reflexivity.
  - cbn [mem existsb] in E. apply orb_false_iff in E. destruct E as [E1 E2]. apply Z.eqb_neq in E1. rewrite Cl_other in Hin by congruence.
    apply in_map_iff in Hin. destruct Hin as ([w' s'] & [= <- _] & Hin). cbn. now rewrite (IH E2 _ _ _ Hin).
Qed.
Lemma Cl_adj_u m u : forall y w s, adj u = true -> In (w, s) (Cl m u y) -> adj w = true.
Proof.
  induction u as [|a u IH]; intros y w s Hu Hin; [discriminate|]. destruct u as [|b u]; [discriminate|]. rewrite adj_cons2 in Hu.
  destruct (Z.eq_dec a m) as [->|N].
  - destruct (mem m (b :: u)) eqn:Em.
    + revert w s Hin. induction y as [|c y IHy]; intros w s Hin; [rewrite Cl_m_nil, Em in Hin; destruct Hin|].
      rewrite Cl_m_cons, Em in Hin. apply in_app_iff in Hin. destruct Hin as [Hin|Hin]; apply in_map_iff in Hin; destruct Hin as ([w' s'] & E & Hin); cbn [fst snd] in E; injection E as <- <-.
      * apply orb_true_iff in Hu. destruct Hu as [Hu|Hu]; [|apply adj_tl; eapply IH; eauto]. apply Z.eqb_eq in Hu. subst b.
        destruct (Cl_head _ _ _ _ _ _ Hin) as (w'' & ->). rewrite adj_cons2, Z.eqb_refl. reflexivity.
      * apply adj_tl. eapply IHy; eauto.
    + rewrite (Cl_last m _ Em _ _ _ Hin). apply orb_true_iff in Hu. destruct Hu as [Hu|Hu]; [|now apply adj_app_r]. apply Z.eqb_eq in Hu. subst b. rewrite mem_self in Em. discriminate.
  - rewrite Cl_other in Hin by exact N. apply in_map_iff in Hin. destruct Hin as ([w' s'] & E & Hin); cbn [fst snd] in E; injection E as <- <-.
    apply orb_true_iff in Hu. destruct Hu as [Hu|Hu]; [|apply adj_tl; eapply IH; eauto]. apply Z.eqb_eq in Hu. subst b.
    rewrite Cl_other in Hin by exact N. apply in_map_iff in Hin. destruct Hin as ([w'' s''] & E & Hin); cbn [fst snd] in E; injection E as <- <-.
    rewrite adj_cons2, Z.eqb_refl. reflexivity.
Qed.
Lemma Cl_adj_y m u : mem m u = true -> forall y w s, adj y = true -> In (w, s) (Cl m u y) -> adj w = true.
Proof.
  induction u as [|a u IH]; intros Em y w s Hy Hin; [discriminate|]. destruct (Z.eq_dec a m) as [->|N].
  - destruct (mem m u) eqn:Emu.
    + revert w s Hin. induction y as [|c y IHy]; intros w s Hin; [discriminate|].
      rewrite Cl_m_cons, Emu in Hin. apply in_app_iff in Hin. destruct Hin as [Hin|Hin]; apply in_map_iff in Hin; destruct Hin as ([w' s'] & E & Hin); cbn [fst snd] in E; injection E as <- <-.
      * apply adj_tl. eapply IH; eauto.
      * destruct y as [|d y]; [discriminate|]. rewrite adj_cons2 in Hy. apply orb_true_iff in Hy. destruct Hy as [Hy|Hy]; [|apply adj_tl; eapply IHy; eauto].
        apply Z.eqb_eq in Hy. subst d. destruct (Cl_head _ _ _ _ _ _ Hin) as (w'' & ->). rewrite adj_cons2, Z.eqb_refl. reflexivity.
    + rewrite (Cl_last m _ Emu _ _ _ Hin). now apply adj_app_l.
  - rewrite mem_other in Em by congruence. rewrite Cl_other in Hin by exact N. apply in_map_iff in Hin. destruct Hin as ([w' s'] & E & Hin); cbn [fst snd] in E; injection E as <- <-.
    apply adj_tl. eapply IH; eauto.
Qed.

(** ** relabelling *)
Lemma nc_map (f : Z -> Z) u : (forall a b, In a u -> In b u -> f a = f b -> a = b) -> nc (map f u) = nc u.
Proof.
  induction u as [|a u IH]; intros Hf; [reflexivity|]. cbn [map]. rewrite !nc_cons, IH by (intros; apply Hf; cbn; auto).
  rewrite mem_map_inj; [reflexivity|]. intros b Hb E. apply Hf; cbn; auto.
Qed.
Lemma Cc_map (f : Z -> Z) m u : forall y g, (forall a b, In a (m :: u ++ y) -> In b (m :: u ++ y) -> f a = f b -> a = b) ->
  Cc (f m) g (map f u) (map f y) = Cc m (fun w => g (map f w)) u y.
Proof.
  induction u as [|a u IH]; intros y g Hf; [reflexivity|]. cbn [map].
  assert (Hu : forall c, In c u -> f c = f m -> c = m). { intros c Hc. apply Hf; [right; apply in_app_iff; left; now right|now left]. }
  destruct (Z.eq_dec a m) as [->|N].
  - revert g. induction y as [|b y IHy]; intros g; cbn [map].
    + rewrite !Cc_m_nil, mem_map_inj by exact Hu. reflexivity.
    + assert (Hf' : forall c d, In c (m :: (m :: u) ++ y) -> In d (m :: (m :: u) ++ y) -> f c = f d -> c = d).
      { intros c d Hc Hd. apply Hf; [clear - Hc|clear - Hd]; cbn in *; rewrite in_app_iff in *; cbn in *; tauto. }
      rewrite !Cc_m_cons. rewrite (mem_map_inj f m u Hu).
      rewrite (mem_map_inj f b y).
      2:{ intros c Hc E. apply Hf; [right; apply in_app_iff; right; now right|right; apply in_app_iff; right; now left|exact E]. }
      change (f m :: map f u) with (map f (m :: u)). rewrite (nc_map f (m :: u)).
      2:{ intros c d Hc Hd. apply Hf; right; apply in_app_iff; now left. }
      rewrite (IHy Hf'). f_equal. destruct (mem m u); [|reflexivity].
      change (f b :: map f y) with (map f (b :: y)). rewrite IH; [reflexivity|].
      intros c d Hc Hd. apply Hf; [clear - Hc|clear - Hd]; cbn in *; rewrite in_app_iff in *; cbn in *; tauto.
  - assert (Na : f a <> f m). { intros E. apply N, Hf; [right; now left|now left|exact E]. }
    rewrite !Cc_other by assumption. rewrite IH; [reflexivity|].
    intros c d Hc Hd. apply Hf; [clear - Hc|clear - Hd]; cbn in *; rewrite in_app_iff in *; cbn in *; tauto.
Qed.

(** ** composition in a longer word *)
Lemma nc_app y u : (forall c, In c y -> ~ In c u) -> nc (y ++ u) = nc y + nc u.
Proof.
  intros Dy. induction y as [|d y IH]; [reflexivity|]. cbn [app]. rewrite !nc_cons, IH by (intros; apply Dy; now right). rewrite mem_app.
  replace (mem d u) with false by (symmetry; apply mem_notin, Dy; now left). rewrite orb_false_r. lia.
Qed.
Lemma Cc_app_r j u : mem j u = false -> forall y z g, (forall c, In c y -> ~ In c u) -> (forall c, In c z -> ~ In c u) -> (forall c, In c y -> ~ In c z) -> mem j z = false ->
  Cc j g (y ++ u) z = (if mem j y then sgn (nc z * nc u) else 1) * Cc j (fun w => g (w ++ u)) y z.
Proof.
  intros Ej. induction y as [|b y IH]; intros z g Dy Dz Dyz Ez.
  - cbn [app mem existsb]. rewrite (Cc_notin j u) by exact Ej. rewrite Cc_nil. cbn [app]. ring.
  - assert (Dy' : forall c, In c y -> ~ In c u) by (intros; apply Dy; now right). assert (Dyz' : forall c, In c y -> ~ In c z) by (intros; apply Dyz; now right).
    cbn [app]. destruct (Z.eq_dec b j) as [->|N].
    + rewrite mem_self. destruct (mem j y) eqn:Ejy.
      * clear Dyz. revert g. induction z as [|c z IHz]; intros g.
        -- rewrite !Cc_m_nil, mem_app, Ejy. cbn [orb]. ring.
        -- assert (Dz' : forall d, In d z -> ~ In d u) by (intros; apply Dz; now right). assert (Dyz'' : forall d, In d y -> ~ In d z) by (intros d Hd Hz; apply (Dyz' d Hd); now right).
           assert (Ez' : mem j z = false). { cbn [mem existsb] in Ez. apply orb_false_iff in Ez. apply Ez. }
           specialize (IHz Dz' Ez' Dyz''). rewrite !Cc_m_cons, mem_app, Ejy. cbn [orb]. rewrite (IH (c :: z) _ Dy' Dz Dyz' Ez).
           rewrite IHz. rewrite !nc_cons, mem_app, Ejy. cbn [orb app].
           rewrite (nc_app y u Dy'). destruct (mem c z).
           ++ replace ((1 + nc z) * nc u) with (nc u + nc z * nc u) by ring. replace (1 + (nc y + nc u)) with ((1 + nc y) + nc u) by ring. rewrite (sgn_add (1 + nc y)), (sgn_add (nc u)). ring.
           ++ rewrite Z.add_0_l. ring.
      * rewrite (Cc_last j (y ++ u)) by (rewrite mem_app, Ejy, Ej; reflexivity). rewrite (Cc_last j y Ejy).
        rewrite (nc_app y u Dy'), Z.mul_add_distr_l, sgn_add, app_assoc. ring.
    + rewrite (mem_other j b) by congruence. rewrite !Cc_other by exact N. apply (IH z (fun v => g (b :: v))); auto.
Qed.
Lemma Cc_app_l j y : mem j y = false -> forall u z g, Cc j g (y ++ u) z = Cc j (fun w => g (y ++ w)) u z.
Proof.
  induction y as [|b y IH]; intros E u z g; [reflexivity|]. cbn [mem existsb] in E. apply orb_false_iff in E. destruct E as [E1 E2]. apply Z.eqb_neq in E1.
  cbn [app]. rewrite Cc_other by congruence. now rewrite IH.
Qed.

(** ** sequential associativity *)
Record tri (i j : Z) (u y z : list Z) : Prop := {
  tri_u : forall c, In c u -> c <> i -> ~ In c y /\ ~ In c z /\ c <> j;
  tri_y : forall c, In c y -> ~ (c <> j /\ In c z) /\ c <> i;
  tri_z : ~ In i z /\ ~ In j z;
  tri_ij : i <> j }.
Lemma tri_tl i j a u y z : tri i j (a :: u) y z -> tri i j u y z.
Proof. intros [H1 H2 H3 H4]. split; auto. intros c Hc. apply H1. now right. Qed.
Lemma tri_tly i j u a y z : tri i j u (a :: y) z -> tri i j u y z.
Proof.
  intros [H1 H2 H3 H4]. split; auto.
  - intros c Hc Nc. destruct (H1 c Hc Nc) as (A & B & C). split; [|auto]. intros Hy. apply A. now right.
  - intros c Hc. apply H2. now right.
Qed.
Lemma tri_tlz i j u y a z : tri i j u y (a :: z) -> tri i j u y z.
Proof.
  intros [H1 H2 [H3 H3'] H4]. split; auto.
  - intros c Hc Nc. destruct (H1 c Hc Nc) as (A & B & C). split; [auto|]. split; [|auto]. intros Hz. apply B. now right.
  - intros c Hc. destruct (H2 c Hc) as [A B]. split; [|exact B]. intros [N Hz]. apply A. split; [auto|now right].
  - split; intros Hz; [apply H3|apply H3']; now right.
Qed.
Lemma tri_dj1 i j u y z : tri i j u y z -> dj i u y.
Proof. intros [H1 H2 [H3 H3'] H4]. split; [intros c Hc Nc; apply (H1 c Hc Nc)|]. intros Hi. now apply (H2 i Hi). Qed.
Lemma tri_dj2 i j u y z : tri i j u y z -> dj j y z.
Proof. intros [H1 H2 [H3 H3'] H4]. split; [|exact H3']. intros c Hc Nc Hz. apply (proj1 (H2 c Hc)). auto. Qed.
Lemma tri_dj3 i j u y z w s : tri i j u y z -> In (w, s) (Cl i u y) -> dj j w z.
Proof.
  intros T Hin. pose proof (Cl_in i u y w s (tri_dj1 _ _ _ _ _ T) Hin) as S. destruct T as [H1 H2 [H3 H3'] H4]. split; [|exact H3'].
  intros c Hc Nc Hz. apply S in Hc. destruct Hc as [[Hc Ni]|[_ Hc]]; [exact (proj1 (proj2 (H1 c Hc Ni)) Hz)|]. apply (proj1 (H2 c Hc)). auto.
Qed.
Lemma tri_dj4 i j u y z v s : tri i j u y z -> In (v, s) (Cl j y z) -> dj i u v.
Proof.
  intros T Hin. pose proof (Cl_in j y z v s (tri_dj2 _ _ _ _ _ T) Hin) as S. destruct T as [H1 H2 [H3 H3'] H4]. split.
  - intros c Hc Nc Hv. apply S in Hv. destruct (H1 c Hc Nc) as (A & B & C). destruct Hv as [[Hv _]|[_ Hv]]; tauto.
  - intros Hi. apply S in Hi. destruct Hi as [[Hi _]|[_ Hi]]; [now apply (H2 i Hi)|tauto].
Qed.
Lemma tri_ju i j u y z : tri i j u y z -> mem j u = false.
Proof. intros [H1 _ _ H4]. apply mem_notin. intros Hj. destruct (H1 j Hj ltac:(congruence)) as (_ & _ & C). now apply C. Qed.
Lemma if_and (b c : bool) (x : Z) : (if b then (if c then x else 1) else 1) = if b && c then x else 1.
Proof. now destruct b, c. Qed.

Lemma Cc_assoc i j u : mem i u = true -> forall y z g, tri i j u y z -> 
  Cc i (fun w => Cc j g w z) u y = Cc j (fun v => Cc i g u v) y z.
Proof.
  induction u as [|a u IH]; intros Ei y z g T; [discriminate|]. pose proof (tri_tl _ _ _ _ _ _ T) as Tu. pose proof (tri_ij _ _ _ _ _ T) as Nij.
  destruct (Z.eq_dec a i) as [->|N].
  - destruct (mem i u) eqn:Eiu.
    + specialize (IH eq_refl). revert z g T Tu. induction y as [|b y IHy]; intros z g T Tu.
      * rewrite Cc_nil, !Cc_m_nil, Eiu. reflexivity.
      * pose proof (tri_tly _ _ _ _ _ _ T) as Ty. pose proof (tri_tly _ _ _ _ _ _ Tu) as Tuy.
        destruct (Z.eq_dec b j) as [->|Nb].
        -- (* the letter of the second composition *)
           assert (Hju : mem j u = false) by (eapply tri_ju; eauto).
           revert g. induction z as [|c z IHz]; intros g.
           ++ rewrite Cc_m_cons, Eiu, Cc_m_nil.
              rewrite (Cc_ext i u (j :: y) _ (fun _ => 0)), Cc_0.
              2:{ intros w s Hin. rewrite Cc_m_nil. now rewrite (Cl_mem_head i u y w s j (tri_dj1 _ _ _ _ _ Tu) Eiu Hin). }
              rewrite (Cc_ext i (i :: u) y _ (fun w => if mem j y then 0 else g w)).
              2:{ intros w s Hin. rewrite Cc_m_nil. now rewrite (Cl_mem_y i (i :: u) y w s j (tri_dj1 _ _ _ _ _ T) (mem_self _ _) Hin). }
              destruct (mem j y); [rewrite Cc_0; ring|]. rewrite Z.add_0_l, Z.mul_1_l. reflexivity.
           ++ pose proof (tri_tlz _ _ _ _ _ _ T) as Tz. pose proof (tri_tlz _ _ _ _ _ _ Tu) as Tuz. specialize (IHz Tuz Tz (tri_tly _ _ _ _ _ _ Tz) (tri_tly _ _ _ _ _ _ Tuz)).
              pose (h := fun v => g (c :: v)). specialize (IHz h).
              pose (sg := if mem c z then sgn (1 + nc u + nc (j :: y)) else 1).
              rewrite Cc_m_cons, Eiu in IHz |- *.
              (* first part *)
              rewrite (Cc_ext i u (j :: y) (fun v => Cc j g (j :: v) (c :: z)) (fun w => Cc j h w (c :: z) + sg * Cc j h (j :: w) z)).
              2:{ intros w s Hin. rewrite Cc_m_cons. rewrite (Cl_mem_head i u y w s j (tri_dj1 _ _ _ _ _ Tu) Eiu Hin). f_equal. unfold sg. f_equal. destruct (mem c z); [|reflexivity].
                  rewrite (nc_cons j w), (Cl_mem_head i u y w s j (tri_dj1 _ _ _ _ _ Tu) Eiu Hin). rewrite (Cl_nc i u (j :: y) w s (tri_dj1 _ _ _ _ _ Tu) Hin), Eiu. f_equal. lia. }
              rewrite Cc_add, Cc_scal. rewrite (IH (j :: y) (c :: z) h Tu).
              rewrite (Cc_ext i (i :: u) y (fun v => Cc j g (j :: v) (c :: z)) (fun w => (if mem j y then Cc j h w (c :: z) else 0) + sg * Cc j h (j :: w) z)).
              2:{ intros w s Hin. rewrite Cc_m_cons. rewrite (Cl_mem_y i (i :: u) y w s j (tri_dj1 _ _ _ _ _ T) (mem_self _ _) Hin). f_equal. unfold sg. f_equal. destruct (mem c z); [|reflexivity].
                  rewrite (nc_cons j w), (Cl_mem_y i (i :: u) y w s j (tri_dj1 _ _ _ _ _ T) (mem_self _ _) Hin). rewrite (Cl_nc i (i :: u) y w s (tri_dj1 _ _ _ _ _ Ty) Hin), mem_self.
                  rewrite (nc_cons i u), Eiu, (nc_cons j y). f_equal. lia. }
              rewrite Cc_add, Cc_scal.
              (* right-hand side *)
              rewrite (Cc_m_cons j (fun v => Cc i g (i :: u) v) y c z).
              rewrite (Cc_ext j (j :: y) z (fun v => Cc i g (i :: u) (c :: v)) (fun v => Cc i h u (c :: v) + (if mem c z then sgn (nc (i :: u)) else 1) * Cc i h (i :: u) v)).
              2:{ intros v s Hin. rewrite Cc_m_cons, Eiu. rewrite (Cl_mem_y j (j :: y) z v s c (tri_dj2 _ _ _ _ _ T) (mem_self _ _) Hin). reflexivity. }
              change (fun v => Cc i h (i :: u) v) with (Cc i h (i :: u)) in IHz. rewrite Cc_add, Cc_scal, <- IHz.
              rewrite (Cc_m_cons j (fun v => Cc i h u v) y c z).
              assert (Esg : sg = (if mem c z then sgn (nc (j :: y)) else 1) * (if mem c z then sgn (nc (i :: u)) else 1)).
              { unfold sg. destruct (mem c z); [|reflexivity]. rewrite (nc_cons i u), Eiu. rewrite <- sgn_add. f_equal. lia. }
              rewrite Esg. destruct (mem j y) eqn:Ejy.
              ** rewrite (IHy (c :: z) h Ty Tuy).
                 rewrite (Cc_ext j y (c :: z) (fun v => Cc i g (i :: u) (c :: v)) (fun v => Cc i h u (c :: v) + sgn (nc (i :: u)) * Cc i h (i :: u) v)).
                 2:{ intros v s Hin. rewrite Cc_m_cons, Eiu. rewrite (Cl_mem_head j y z v s c (tri_dj2 _ _ _ _ _ Ty) Ejy Hin). reflexivity. }
                 rewrite Cc_add, Cc_scal. change (fun v => Cc i h (i :: u) v) with (Cc i h (i :: u)). ring.
              ** rewrite Cc_0. ring.
        -- (* another letter of y *)
           pose (h := fun v => g (b :: v)). rewrite Cc_m_cons, Eiu.
           rewrite (Cc_ext_all i u (b :: y) _ (fun w => Cc j h w z)) by (intros w; now apply Cc_other).
           rewrite (Cc_ext_all i (i :: u) y _ (fun w => Cc j h w z)) by (intros w; now apply Cc_other).
           rewrite (IH (b :: y) z h Tu), (IHy z h Ty Tuy). rewrite !Cc_other by exact Nb. rewrite <- Cc_scal, <- Cc_add. apply Cc_ext. intros v s Hin.
           rewrite Cc_m_cons, Eiu. rewrite (Cl_mem_u j y z v s b (tri_dj2 _ _ _ _ _ T) Nb Hin). reflexivity.
    + rewrite (Cc_last i u Eiu). rewrite (Cc_app_r j u (tri_ju _ _ _ _ _ Tu)).
      * rewrite <- Cc_scal, <- Cc_scal. apply Cc_ext. intros v s Hin. rewrite (Cc_last i u Eiu), (Cl_nc j y z v s (tri_dj2 _ _ _ _ _ T) Hin).
        destruct (mem j y); [rewrite Z.mul_add_distr_r, sgn_add; ring|]. rewrite Z.add_0_r. ring.
      * intros c Hc Hu. destruct (Z.eq_dec c i) as [->|Nc]; [now apply (proj2 (tri_y _ _ _ _ _ T i Hc))|]. exact (proj1 (tri_u _ _ _ _ _ Tu c Hu Nc) Hc).
      * intros c Hc Hu. destruct (Z.eq_dec c i) as [->|Nc]; [exact (proj1 (tri_z _ _ _ _ _ T) Hc)|]. exact (proj1 (proj2 (tri_u _ _ _ _ _ Tu c Hu Nc)) Hc).
      * intros c Hc Hz. destruct (Z.eq_dec c j) as [->|Nc]; [exact (proj2 (tri_z _ _ _ _ _ T) Hz)|]. exact (proj1 (tri_y _ _ _ _ _ T c Hc) (conj Nc Hz)).
      * apply mem_notin. apply (tri_z _ _ _ _ _ T).
  - rewrite mem_other in Ei by congruence. rewrite Cc_other by exact N.
    assert (Naj : a <> j) by (apply (tri_u _ _ _ _ _ T a (or_introl eq_refl) N)).
    rewrite (Cc_ext_all i u y _ (fun w => Cc j (fun v => g (a :: v)) w z)) by (intros w; now apply Cc_other).
    rewrite (IH Ei y z _ Tu). apply Cc_ext_all. intros v. now rewrite Cc_other.
Qed.

(** ** parallel composition *)
Record par (i j : Z) (u y z : list Z) : Prop := {
  par_u : forall c, In c u -> c <> i -> c <> j -> ~ In c y /\ ~ In c z;
  par_yz : forall c, In c y -> ~ In c z;
  par_y : ~ In i y /\ ~ In j y;
  par_z : ~ In i z /\ ~ In j z;
  par_ij : i <> j }.
Lemma par_tl i j a u y z : par i j (a :: u) y z -> par i j u y z.
Proof. intros [H1 H2 H3 H4 H5]. split; auto. intros c Hc. apply H1. now right. Qed.
Lemma par_tly i j u a y z : par i j u (a :: y) z -> par i j u y z.
Proof.
  intros [H1 H2 [H3 H3'] H4 H5]. split; auto.
  - intros c Hc Nc Nj. destruct (H1 c Hc Nc Nj) as (A & B). split; [|auto]. intros Hy. apply A. now right.
  - intros c Hc. apply H2. now right.
  - split; intros Hy; [apply H3|apply H3']; now right.
Qed.
Lemma par_sym i j u y z : par i j u y z -> par j i u z y.
Proof.
  intros [H1 H2 H3 H4 H5]. split; try tauto; auto.
  - intros c Hc Nj Ni. destruct (H1 c Hc Ni Nj). auto.
  - intros c Hz Hy. now apply (H2 c).
Qed.
Lemma par_dj i j u y z : par i j u y z -> dj i u y.
Proof.
  intros [H1 H2 [H3 H3'] H4 H5]. split; [|exact H3]. intros c Hc Nc Hy. destruct (Z.eq_dec c j) as [->|Nj]; [now apply H3'|]. exact (proj1 (H1 c Hc Nc Nj) Hy).
Qed.
Lemma par_dj' i j u y z : par i j u y z -> dj j u z.
Proof. intros T. apply par_sym in T. eapply par_dj; eauto. Qed.
Definition psg (i j : Z) (u y z : list Z) : Z := if mem i u && mem j u then sgn (nc y * nc z) else 1.
Lemma psg_sym i j u y z : psg i j u y z = psg j i u z y.
Proof. unfold psg. rewrite andb_comm. destruct (mem j u && mem i u); [|reflexivity]. now rewrite Z.mul_comm. Qed.
Lemma psg_sq i j u y z : psg i j u y z * psg i j u y z = 1.
Proof. unfold psg. destruct (mem i u && mem j u); [apply sgn_sq|reflexivity]. Qed.

Lemma Cc_par u : forall i j y z g, par i j u y z ->
  Cc i (fun w => Cc j g w z) u y = psg i j u y z * Cc j (fun w => Cc i g w y) u z.
Proof.
  induction u as [|a u IH]; intros i j y z g T; [rewrite !Cc_nil; unfold psg; cbn [mem existsb andb]; now rewrite Z.mul_1_l|]. pose proof (par_tl _ _ _ _ _ _ T) as Tu. pose proof (par_ij _ _ _ _ _ T) as Nij.
  assert (Case : forall i j y z g, par i j (i :: u) y z -> Cc i (fun w => Cc j g w z) (i :: u) y = psg i j (i :: u) y z * Cc j (fun w => Cc i g w y) (i :: u) z).
  { clear i j y z g T Tu Nij. intros i j y z g T. pose proof (par_tl _ _ _ _ _ _ T) as Tu. pose proof (par_ij _ _ _ _ _ T) as Nij. rewrite (Cc_other j _ i u z) by exact Nij.
    unfold psg. rewrite mem_self, (mem_other j i) by congruence. cbn [andb].
    destruct (mem i u) eqn:Eiu.
    - revert g T Tu. induction y as [|b y IHy]; intros g T Tu.
      + rewrite Cc_m_nil, Eiu. rewrite (Cc_ext j u z _ (fun _ => 0)), Cc_0; [destruct (mem j u); ring|].
        intros w s Hin. rewrite Cc_m_nil. rewrite (Cl_mem_u j u z w s i) by (auto; eapply par_dj'; eauto). now rewrite Eiu.
      + pose proof (par_tly _ _ _ _ _ _ T) as Ty. pose proof (par_tly _ _ _ _ _ _ Tu) as Tuy.
        assert (Nbj : b <> j). { intros ->. apply (par_y _ _ _ _ _ T). now left. }
        pose (h := fun v => g (b :: v)). rewrite Cc_m_cons, Eiu.
        rewrite (Cc_ext_all i u (b :: y) _ (fun w => Cc j h w z)) by (intros w; now apply Cc_other).
        rewrite (Cc_ext_all i (i :: u) y _ (fun w => Cc j h w z)) by (intros w; now apply Cc_other).
        rewrite (IH i j (b :: y) z h Tu), (IHy h Ty Tuy). unfold psg. rewrite Eiu. cbn [andb].
        rewrite (Cc_ext j u z (fun w => Cc i g (i :: w) (b :: y)) (fun w => Cc i h w (b :: y) + (if mem b y then sgn (nc (i :: u) + (if mem j u then nc z else 0)) else 1) * Cc i h (i :: w) y)).
        2:{ intros w s Hin. rewrite Cc_m_cons. rewrite (Cl_mem_u j u z w s i) by (auto; eapply par_dj'; eauto). rewrite Eiu. f_equal. f_equal. destruct (mem b y); [|reflexivity].
            rewrite !nc_cons. rewrite (Cl_mem_u j u z w s i) by (auto; eapply par_dj'; eauto). rewrite (Cl_nc j u z w s (par_dj' _ _ _ _ _ Tu) Hin). f_equal. lia. }
        rewrite Cc_add, Cc_scal, (nc_cons b y). destruct (mem b y), (mem j u); rewrite ?Z.add_0_r, ?Z.add_0_l; try ring.
        rewrite (sgn_add (nc (i :: u))). replace ((1 + nc y) * nc z) with (nc z + nc y * nc z) by ring. rewrite (sgn_add (nc z)). pose proof (sgn_sq (nc z)) as S2.
        destruct (sgn_cases (nc z)) as [-> | ->]; ring.
    - rewrite (Cc_last i u Eiu). rewrite (Cc_app_l j y) by (apply mem_notin; apply (par_y _ _ _ _ _ T)).
      rewrite (Cc_ext j u z (fun w => Cc i g (i :: w) y) (fun w => sgn (nc y * nc u) * (if mem j u then sgn (nc y * nc z) else 1) * g (y ++ w))).
      2:{ intros w s Hin. rewrite (Cc_last i w) by (rewrite (Cl_mem_u j u z w s i); auto; eapply par_dj'; eauto). f_equal. rewrite (Cl_nc j u z w s (par_dj' _ _ _ _ _ Tu) Hin).
          destruct (mem j u); rewrite ?Z.add_0_r; [|ring]. now rewrite Z.mul_add_distr_l, sgn_add. }
      rewrite Cc_scal. destruct (mem j u); [|ring]. pose proof (sgn_sq (nc y * nc z)) as S2. destruct (sgn_cases (nc y * nc z)) as [-> | ->]; ring. }
  destruct (Z.eq_dec a i) as [->|Ni]; [now apply Case|]. destruct (Z.eq_dec a j) as [->|Nj].
  - rewrite (Case j i z y g (par_sym _ _ _ _ _ T)). rewrite <- psg_sym, Z.mul_assoc, psg_sq, Z.mul_1_l. reflexivity.
  - rewrite !Cc_other by assumption. rewrite (Cc_ext_all i u y _ (fun w => Cc j (fun v => g (a :: v)) w z)) by (intros w; now apply Cc_other).
    rewrite (Cc_ext_all j u z (fun v => Cc i g (a :: v) y) (fun w => Cc i (fun v => g (a :: v)) w y)) by (intros w; now apply Cc_other).
    rewrite (IH i j y z _ Tu). unfold psg. now rewrite (mem_other i a), (mem_other j a) by congruence.
Qed.
