(** * Cubical chains.  Proof library. *)
From Coq Require Import Setoid Morphisms.
From Verif Require Import PyBase Dict FreeModule Symmetric Simplicial Cubical Eqm Spec SpecChain SpecCube FreeModuleFacts FreeModuleLaws ListFacts ClassFacts LinearFacts SymmetricFacts
  CycleFacts SymmetricLaws RingFacts Tensor TensorAct KoszulFacts LoopFacts SimplicialFacts.

Lemma cube_dim_cons a c : cube_dim (a :: c) = (if a =? 2 then 1 else 0) + cube_dim c.
Proof. unfold cube_dim, py_count. cbn [filter]. destruct (a =? 2); rewrite ?zlen_cons; ring. Qed.
Lemma cube_dim_dim c : cube_dim c = dim c.
Proof. induction c as [|a c IH]; [reflexivity|]. rewrite cube_dim_cons, IH. reflexivity. Qed.
Lemma cube_dim_app c c' : cube_dim (c ++ c') = cube_dim c + cube_dim c'.
Proof. induction c as [|a c IH]; [reflexivity|]. cbn [app]. rewrite !cube_dim_cons, IH. ring. Qed.
Lemma cube_dim_nonneg c : 0 <= cube_dim c. Proof. apply zlen_nonneg. Qed.
Lemma cube_dim_nil : cube_dim [] = 0. Proof. reflexivity. Qed.

(** faces of a cube, with signs *)
Fixpoint fbC (c : list Z) : dict (list Z) :=
  match c with
  | [] => []
  | a :: w => if a =? 2 then (1 :: w, 1) :: (0 :: w, -1) :: map (fun p => (2 :: fst p, - snd p)) (fbC w)
              else map (fun p => (a :: fst p, snd p)) (fbC w)
  end.
Notation fdC := (fd fbC).
Lemma fdC_nil g : fdC g [] = 0. Proof. reflexivity. Qed.
Lemma fdC_2 g w : fdC g (2 :: w) = g (1 :: w) - g (0 :: w) - fdC (fun u => g (2 :: u)) w.
Proof.
  unfold fd. cbn [fbC]. change (2 =? 2) with true. cbn iota. rewrite !ev_cons. unfold ev. rewrite sumf_map. cbn [fst snd].
  rewrite (sumf_ext (fun a => - snd a * g (2 :: fst a)) (fun a => - (snd a * g (2 :: fst a)))) by (intros; ring). rewrite sumf_opp. ring.
Qed.
Lemma fdC_n g a w : a <> 2 -> fdC g (a :: w) = fdC (fun u => g (a :: u)) w.
Proof. intros N. unfold fd. cbn [fbC]. destruct (Z.eqb_spec a 2); [contradiction|]. unfold ev. rewrite sumf_map. reflexivity. Qed.
Lemma fdC_ext g h c : (forall u, g u = h u) -> fdC g c = fdC h c. Proof. apply fd_ext_all. Qed.
Lemma fdC_add g h s : fdC (fun u => g u + h u) s = fdC g s + fdC h s. Proof. apply fd_add. Qed.
Lemma fdC_scal n g s : fdC (fun u => n * g u) s = n * fdC g s. Proof. apply fd_scal. Qed.
Lemma fdC_sub g h s : fdC (fun u => g u - h u) s = fdC g s - fdC h s.
Proof. rewrite (fdC_ext _ (fun u => g u + (-1) * h u)) by (intros; ring). rewrite fdC_add, fdC_scal. ring. Qed.
Lemma fdC_0 c : fdC (fun _ => 0) c = 0. Proof. now apply ev_zero. Qed.
Lemma fdC_fdC g c : fdC (fdC g) c = 0.
Proof.
  revert g. induction c as [|a w IH]; intros g; [reflexivity|]. destruct (Z.eq_dec a 2) as [->|N].
  - rewrite fdC_2, (fdC_n _ 1), (fdC_n _ 0) by lia.
    rewrite (fdC_ext (fun u => fdC g (2 :: u)) (fun u => g (1 :: u) - g (0 :: u) - fdC (fun v => g (2 :: v)) u)) by (intros; apply fdC_2).
    rewrite !fdC_sub, IH. ring.
  - rewrite fdC_n by assumption. rewrite (fdC_ext _ (fdC (fun u => g (a :: u)))) by (intros; now apply fdC_n). apply IH.
Qed.
Lemma dim_fbC c c' v : In (c', v) (fbC c) -> cube_dim c' = cube_dim c - 1.
Proof.
  revert c' v. induction c as [|a w IH]; intros c' v; [intros []|]. cbn [fbC]. rewrite (cube_dim_cons a). destruct (Z.eqb_spec a 2) as [->|N].
  - intros [[= <- <-]|[[= <- <-]|Hin]].
    + rewrite cube_dim_cons. change (1 =? 2) with false. cbn iota. ring.
    + rewrite cube_dim_cons. change (0 =? 2) with false. cbn iota. ring.
    + apply in_map_iff in Hin. destruct Hin as ([u e] & [= <- <-] & Hin). apply IH in Hin. cbn [fst]. rewrite cube_dim_cons. change (2 =? 2) with true. cbn iota. lia.
  - intros Hin. apply in_map_iff in Hin. destruct Hin as ([u e] & [= <- <-] & Hin). apply IH in Hin. cbn [fst]. rewrite cube_dim_cons. destruct (Z.eqb_spec a 2); [contradiction|]. lia.
Qed.
Lemma len_fbC c c' v : In (c', v) (fbC c) -> zlen c' = zlen c /\ (is_cube c -> is_cube c').
Proof.
  revert c' v. induction c as [|a w IH]; intros c' v; [intros []|]. cbn [fbC]. unfold is_cube. destruct (Z.eqb_spec a 2) as [->|N].
  - intros [[= <- <-]|[[= <- <-]|Hin]].
    + rewrite !zlen_cons. split; [ring|]. intros Hc b [<-|Hb]; [tauto|]. apply Hc. now right.
    + rewrite !zlen_cons. split; [ring|]. intros Hc b [<-|Hb]; [tauto|]. apply Hc. now right.
    + apply in_map_iff in Hin. destruct Hin as ([u e] & [= <- <-] & Hin). apply IH in Hin. cbn [fst]. rewrite !zlen_cons. destruct Hin as [H1 H2]. split; [lia|].
      intros Hc b [<-|Hb]; [tauto|]. apply H2; [|exact Hb]. intros b' Hb'. apply Hc. now right.
  - intros Hin. apply in_map_iff in Hin. destruct Hin as ([u e] & [= <- <-] & Hin). apply IH in Hin. cbn [fst]. rewrite !zlen_cons. destruct Hin as [H1 H2]. split; [lia|].
    intros Hc b [<-|Hb]; [apply Hc; now left|]. apply H2; [|exact Hb]. intros b' Hb'. apply Hc. now right.
Qed.
Lemma fdC_splits g c : fdC g c = sumf (fun '(l1, a, l2) => if a =? 2 then sgn (cube_dim l1) * (g (l1 ++ 1 :: l2) - g (l1 ++ 0 :: l2)) else 0) (splits c).
Proof.
  revert g. induction c as [|a w IH]; intros g; [reflexivity|]. rewrite splits_cons, sumf_cons, sumf_map. cbn [app]. destruct (Z.eqb_spec a 2) as [->|N].
  - rewrite fdC_2, IH. change (sgn (cube_dim [])) with 1. rewrite <- Z.add_opp_r, <- sumf_opp. f_equal; [ring|]. apply sumf_ext. intros [[l1 b] l2] _. cbn [fst snd app].
    rewrite cube_dim_cons. change (2 =? 2) with true. cbn iota. rewrite sgn_add, sgn_1. destruct (b =? 2); ring.
  - rewrite fdC_n, IH by assumption. rewrite Z.add_0_l. apply sumf_ext. intros [[l1 b] l2] _. cbn [fst snd app].
    rewrite cube_dim_cons. destruct (Z.eqb_spec a 2); [contradiction|]. reflexivity.
Qed.

(** the positions of the intervals *)
Lemma intervals_cons a c : cube_intervals (a :: c) = (if a =? 2 then [0] else []) ++ map (fun i => i + 1) (cube_intervals c).
Proof.
  unfold cube_intervals. rewrite enumerate_cons. cbn [filter snd].
  assert (E : filter (fun p => snd p =? 2) (map (fun p : Z * Z => (fst p + 1, snd p)) (enumerate c)) = map (fun p => (fst p + 1, snd p)) (filter (fun p => snd p =? 2) (enumerate c))).
  { induction (enumerate c) as [|[i b] l IH]; [reflexivity|]. cbn [map filter fst snd]. destruct (b =? 2); cbn [map fst snd]; now rewrite IH. }
  rewrite E. destruct (a =? 2); cbn [map app fst]; rewrite !map_map; reflexivity.
Qed.
Lemma zlen_intervals c : zlen (cube_intervals c) = cube_dim c.
Proof. induction c as [|a c IH]; [reflexivity|]. rewrite intervals_cons, cube_dim_cons, zlen_app, zlen_map, IH. destruct (a =? 2); reflexivity. Qed.
Lemma splits_map {A B} (h : A -> B) l : splits (map h l) = map (fun '(l1, a, l2) => (map h l1, h a, map h l2)) (splits l).
Proof.
  induction l as [|a l IH]; [reflexivity|]. cbn [map]. rewrite !splits_cons, IH. cbn [map]. f_equal. rewrite !map_map. apply map_ext. now intros [[l1 b] l2].
Qed.
Lemma intervals_nonneg c i : In i (cube_intervals c) -> 0 <= i.
Proof.
  revert i. induction c as [|a c IH]; intros i; [intros []|]. rewrite intervals_cons, in_app_iff, in_map_iff. intros [H|(j & <- & H)].
  - destruct (a =? 2); [destruct H as [<-|[]]; lia|destruct H].
  - specialize (IH j H). lia.
Qed.
Lemma intervals_in c i : In i (cube_intervals c) -> 0 <= i < zlen c.
Proof.
  revert i. induction c as [|a c IH]; intros i; [intros []|]. rewrite zlen_cons, intervals_cons, in_app_iff, in_map_iff. pose proof (zlen_nonneg c). intros [H0|(j & <- & H0)].
  - destruct (a =? 2); [destruct H0 as [<-|[]]; lia|destruct H0].
  - specialize (IH j H0). lia.
Qed.
Lemma slice_to_S {A} (a : A) l i : 0 <= i -> slice_to (a :: l) (i + 1) = a :: slice_to l i.
Proof. intros Hi. rewrite !slice_to_firstn by lia. replace (Z.to_nat (i + 1)) with (S (Z.to_nat i)) by lia. reflexivity. Qed.
Lemma slice_from_S {A} (a : A) l i : 0 <= i -> slice_from (a :: l) (i + 1) = slice_from l i.
Proof. intros Hi. rewrite !slice_from_skipn by lia. replace (Z.to_nat (i + 1)) with (S (Z.to_nat i)) by lia. reflexivity. Qed.
Lemma sumf_intervals (F : Z -> list Z -> list Z -> Z) c :
  sumf (fun '(m1, i, m2) => F (zlen m1) (slice_to c i) (slice_from c (i + 1))) (splits (cube_intervals c)) =
  sumf (fun '(l1, a, l2) => if a =? 2 then F (cube_dim l1) l1 l2 else 0) (splits c).
Proof.
  revert F. induction c as [|a c IH]; intros F; [reflexivity|]. rewrite intervals_cons, (splits_cons a), sumf_cons, sumf_map.
  rewrite (sumf_ext (fun a0 => let '(l1, a1, l2) := (a :: fst (fst a0), snd (fst a0), snd a0) in if a1 =? 2 then F (cube_dim l1) l1 l2 else 0)
     (fun '(l1, b, l2) => if b =? 2 then (fun n l1 l2 => F ((if a =? 2 then 1 else 0) + n) (a :: l1) l2) (cube_dim l1) l1 l2 else 0)).
  2:{ intros [[l1 b] l2] _. cbn [fst snd]. now rewrite cube_dim_cons. }
  rewrite <- (IH (fun n l1 l2 => F ((if a =? 2 then 1 else 0) + n) (a :: l1) l2)).
  destruct (Z.eqb_spec a 2) as [->|N]; cbn [app].
  - rewrite splits_cons, sumf_cons, sumf_map, splits_map, sumf_map. f_equal.
    { rewrite slice_from_S by lia. rewrite slice_from_skipn by lia. reflexivity. }
    apply sumf_ext. intros [[m1 i] m2] Hin. cbn [fst snd]. apply splits_in in Hin.
    assert (0 <= i) by (apply (intervals_nonneg c); rewrite Hin; apply in_elt). rewrite slice_to_S, slice_from_S by lia. rewrite zlen_cons, zlen_map. f_equal. ring.
  - rewrite Z.add_0_l, splits_map, sumf_map. apply sumf_ext. intros [[m1 i] m2] Hin. apply splits_in in Hin.
    assert (0 <= i) by (apply (intervals_nonneg c); rewrite Hin; apply in_elt). rewrite slice_to_S, slice_from_S by lia. rewrite zlen_map. reflexivity.
Qed.

Notation tDC := (tD fbC cube_dim).
Lemma cub_attr (w : cubc) : attr w = tt. Proof. now destruct (attr w). Qed.
Lemma cub_boundary_den dt t (x : cubc) : 0 <= t -> dt_ok dt t -> wf cls_cubical x -> torsion x = t ->
  returns (cub_boundary dt x) (den cls_cubical t tt (fun g => ev (tDC g) (data x))).
Proof.
  intros Ht Hdt Wx Tx. unfold cub_boundary.
  eapply returns_bind; [apply (zero_den cls_cubical ok_cubical dt t); auto|]. intros y0 Hy0. rewrite (cub_attr x) in Hy0.
  eapply returns_mono.
  - apply (loop_den cls_cubical ok_cubical t tt (data x) _ (fun k g => tDC g k)); [|exact Hy0].
    intros k v F y Hin Hy. eapply returns_mono.
    + apply (for_enum_den cls_cubical t tt k _ (fun l1 s l2 g => v * (sgn (tdeg cube_dim l1) * fdC (fun s' => g (l1 ++ s' :: l2)) s))); [|exact Hy].
      intros l1 s l2 F1 y1 -> Hy1. rewrite slice_to_app. eapply returns_mono.
      * apply (for_range_den cls_cubical t tt 0 (cube_intervals s) _ (fun m1 i m2 g => v * (sgn (tdeg cube_dim l1) * (sgn (zlen m1) *
          (g (l1 ++ (slice_to s i ++ 1 :: slice_from s (i + 1)) :: l2) - g (l1 ++ (slice_to s i ++ 0 :: slice_from s (i + 1)) :: l2)))))); [| |exact Hy1].
        -- symmetry. apply zlen_intervals.
        -- intros m1 i m2 F2 y2 E Hy2. cbn [for_]. unfold cube_face. rewrite E, py_get_app. cbn [bind]. rewrite slice_from_app_S. 
           change ((0 + 1) mod 2) with 1. change ((1 + 1) mod 2) with 0. cbn [app].
           eapply returns_bind; [eapply (add_term_den cls_cubical ok_cubical dt t); eauto; [exact (proj1 Hy2)|eexists; reflexivity]|].
           intros z1 Hz1. eapply returns_bind; [eapply (add_term_den cls_cubical ok_cubical dt t); eauto; [exact (proj1 Hz1)|eexists; reflexivity]|].
           intros z2 Hz2. apply returns_ok. eapply den_ext; [|exact Hz2]. intros g _. cbn beta. apply eqm_eq. rewrite !sgn_mod2, !sgn_add, sgn_0, sgn_1. unfold tdeg. ring.
      * intros z Hz. eapply den_ext; [|exact Hz]. intros g _. cbn beta. apply eqm_eq. f_equal. rewrite fdC_splits.
        rewrite <- !sumf_scal. symmetry. rewrite (sumf_ext _ (fun '(l0, a, l3) => if a =? 2 then (fun n l0 l3 => v * (sgn (tdeg cube_dim l1) * (sgn n * (g (l1 ++ (l0 ++ 1 :: l3) :: l2) - g (l1 ++ (l0 ++ 0 :: l3) :: l2))))) (cube_dim l0) l0 l3 else 0)).
        -- symmetry. apply (sumf_intervals (fun n l0 l3 => v * (sgn (tdeg cube_dim l1) * (sgn n * (g (l1 ++ (l0 ++ 1 :: l3) :: l2) - g (l1 ++ (l0 ++ 0 :: l3) :: l2)))))).
        -- intros [[m1 b] m2] _. destruct (b =? 2); ring.
    + intros z Hz. eapply den_ext; [|exact Hz]. intros g _. cbn beta. apply eqm_eq. f_equal. rewrite tD_splits, <- sumf_scal.
      apply sumf_ext. now intros [[l1 s] l2] _.
  - intros z Hz. eapply den_ext; [|exact Hz]. intros g _. cbn beta. apply eqm_eq. now rewrite Z.add_0_l.
Qed.
