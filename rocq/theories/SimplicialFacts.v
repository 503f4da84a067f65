(** * Simplicial chains.  Proof library. *)
From Coq Require Import Setoid Morphisms.
From Verif Require Import PyBase Dict FreeModule Symmetric Simplicial Eqm Spec FreeModuleFacts FreeModuleLaws ListFacts ClassFacts LinearFacts SymmetricFacts
  CycleFacts SymmetricLaws RingFacts Tensor TensorAct LoopFacts.

(** faces of a simplex, with signs *)
Definition fbS (s : list Z) : dict (list Z) := map (fun '(l1, a, l2) => (l1 ++ l2, sgn (zlen l1))) (splits s).
Notation fdS := (fd fbS).
Lemma fdS_nil g : fdS g [] = 0. Proof. reflexivity. Qed.
Lemma fdS_cons g v w : fdS g (v :: w) = g w - fdS (fun u => g (v :: u)) w.
Proof.
  unfold fd, fbS. rewrite splits_cons. cbn [map]. rewrite ev_cons, zlen_nil, sgn_0. cbn [app]. rewrite map_map.
  unfold ev. rewrite !sumf_map. rewrite <- Z.add_opp_r, <- sumf_opp. f_equal; [ring|]. apply sumf_ext. intros [[l1 a] l2] _. cbn [fst snd app].
  rewrite zlen_cons, sgn_S. ring.
Qed.
Lemma fdS_ext g h s : (forall u, g u = h u) -> fdS g s = fdS h s. Proof. apply fd_ext_all. Qed.
Lemma fdS_add g h s : fdS (fun u => g u + h u) s = fdS g s + fdS h s. Proof. apply fd_add. Qed.
Lemma fdS_scal n g s : fdS (fun u => n * g u) s = n * fdS g s. Proof. apply fd_scal. Qed.
Lemma fdS_sub g h s : fdS (fun u => g u - h u) s = fdS g s - fdS h s.
Proof. rewrite (fdS_ext _ (fun u => g u + (-1) * h u)) by (intros; ring). rewrite fdS_add, fdS_scal. ring. Qed.
Lemma fdS_fdS g s : fdS (fdS g) s = 0.
Proof.
  revert g. induction s as [|v w IH]; intros g; [reflexivity|]. rewrite fdS_cons.
  rewrite (fdS_ext (fun u => fdS g (v :: u)) (fun u => g u - fdS (fun u' => g (v :: u')) u)) by (intros; apply fdS_cons).
  rewrite fdS_sub, IH. ring.
Qed.
Lemma dim_fbS s s' v : In (s', v) (fbS s) -> spx_dim s' = spx_dim s - 1.
Proof.
  unfold fbS. rewrite in_map_iff. intros ([[l1 a] l2] & [= <- <-] & Hin). apply splits_in in Hin. subst. unfold spx_dim. rewrite !zlen_app, zlen_cons. ring.
Qed.
Definition dupb (s : list Z) : bool := existsb (fun p => fst p =? snd p) (pairwise s).
Lemma dupb_cons2 v w s : dupb (v :: w :: s) = (v =? w) || dupb (w :: s).
Proof. unfold dupb. rewrite pairwise_cons. reflexivity. Qed.
Lemma dupb_nil : dupb [] = false. Proof. reflexivity. Qed.
Lemma dupb_one v : dupb [v] = false. Proof. reflexivity. Qed.
Lemma deg_dupb s : spx_is_degenerate s = match s with [] => true | _ => dupb s end.
Proof.
  unfold spx_is_degenerate. fold (dupb s). destruct s as [|v s]; [reflexivity|]. unfold spx_dim. rewrite zlen_cons.
  pose proof (zlen_nonneg s). destruct (Z.eqb_spec (zlen s + 1 - 1) (-1)); [lia|reflexivity].
Qed.
Lemma dupb_deg s : dupb s = true -> spx_is_degenerate s = true.
Proof. intros H. rewrite deg_dupb. destruct s; auto. Qed.
Lemma dupb_tl v s : dupb s = true -> dupb (v :: s) = true.
Proof. destruct s as [|w s]; [discriminate|]. rewrite dupb_cons2. intros ->. apply orb_true_r. Qed.
Lemma fdS_dup g s : (forall u, dupb u = true -> g u = 0) -> dupb s = true -> fdS g s = 0.
Proof.
  revert g. induction s as [|v w IH]; intros g Hg Hs; [discriminate|]. destruct w as [|v' w]; [discriminate|].
  rewrite dupb_cons2 in Hs. destruct (dupb (v' :: w)) eqn:E.
  - rewrite fdS_cons, (Hg _ E), IH; [ring| |reflexivity]. intros u Hu. apply Hg. now apply dupb_tl.
  - rewrite orb_false_r in Hs. apply Z.eqb_eq in Hs. subst v'. rewrite !fdS_cons.
    assert (Z0 : fdS (fun u => g (v :: v :: u)) w = 0).
    { apply ev_zero. intros u c _. apply Hg. rewrite dupb_cons2, Z.eqb_refl. reflexivity. }
    rewrite Z0. ring.
Qed.
Lemma fdS_bad g s : (forall u, spx_is_degenerate u = true -> g u = 0) -> spx_is_degenerate s = true -> fdS g s = 0.
Proof.
  intros Hg Hs. rewrite deg_dupb in Hs. destruct s as [|v s]; [reflexivity|]. apply fdS_dup; [|exact Hs].
  intros u Hu. apply Hg. now apply dupb_deg.
Qed.

Notation tDS := (tD fbS spx_dim).
Lemma simp_boundary_den dt t (x : simp) : 0 <= t -> dt_ok dt t -> wf cls_simplicial x -> torsion x = t ->
  returns (simp_boundary dt x) (den cls_simplicial t tt (fun g => ev (tDS g) (data x))).
Proof.
  intros Ht Hdt Wx Tx. unfold simp_boundary.
  eapply returns_bind; [apply (zero_den cls_simplicial ok_simplicial dt t); auto|]. intros y0 Hy0.
  replace (attr x) with tt in Hy0 by now destruct (attr x).
  eapply returns_mono.
  - apply (loop_den cls_simplicial ok_simplicial t tt (data x) _ (fun k g => tDS g k)); [|exact Hy0].
    intros k v F y Hin Hy. eapply returns_mono.
    + apply (for_enum_den cls_simplicial t tt k _ (fun l1 s l2 g => v * (sgn (tdeg spx_dim l1) * fdS (fun s' => g (l1 ++ s' :: l2)) s))); [|exact Hy].
      intros l1 s l2 F1 y1 -> Hy1. rewrite slice_to_app. eapply returns_mono.
      * apply (for_range_den cls_simplicial t tt 0 s _ (fun m1 _ m2 g => v * (sgn (tdeg spx_dim l1) * (sgn (zlen m1) * g (l1 ++ (m1 ++ m2) :: l2))))); [| |exact Hy1].
        -- unfold spx_dim. ring.
        -- intros m1 b m2 F2 y2 -> Hy2. cbn zeta. rewrite slice_from_app_S. unfold spx_face. rewrite slice_to_app, slice_from_app_S.
           eapply returns_mono; [eapply (add_term_den cls_simplicial ok_simplicial dt t); eauto; [exact (proj1 Hy2)|eexists; reflexivity]|].
           intros z Hz. eapply den_ext; [|exact Hz]. intros g _. cbn beta. apply eqm_eq. rewrite sgn_mod2, sgn_add. unfold tdeg. cbn [app]. ring.
      * intros z Hz. eapply den_ext; [|exact Hz]. intros g _. cbn beta. apply eqm_eq. f_equal. unfold fd, fbS, ev. rewrite sumf_map.
        rewrite <- !sumf_scal. apply sumf_ext. intros [[m1 b] m2] _. cbn. ring.
    + intros z Hz. eapply den_ext; [|exact Hz]. intros g _. cbn beta. apply eqm_eq. f_equal. rewrite tD_splits, <- sumf_scal.
      apply sumf_ext. now intros [[l1 s] l2] _.
  - intros z Hz. eapply den_ext; [|exact Hz]. intros g _. cbn beta. apply eqm_eq. now rewrite Z.add_0_l.
Qed.
