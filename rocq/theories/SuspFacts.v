(** * Suspension of surjections and the boundary.  Proof library. *)
From Coq Require Import Setoid Morphisms.
From Verif Require Import PyBase Dict FreeModule Symmetric Simplicial Utils Surjection Eqm Spec SpecOperad SpecSurj SpecSusp FreeModuleFacts FreeModuleLaws ListFacts
  ClassFacts LinearFacts SymmetricFacts CycleFacts SymmetricLaws RingFacts RingLaws TensorAct LoopFacts ActGeneric SimplicialLaws BEFacts SurjFacts SurjBoundary SurjLaws SurjLaws3 SuspLaws.

Ltac zl := repeat first [rewrite zlen_app | rewrite zlen_cons].
Ltac asimpl := repeat (progress (rewrite <- ?app_assoc; cbn [app])).
(** the sign of a word, zero unless it is a permutation *)
Definition alt (r : Z) (p : list Z) : Z := if covers r p then psgn p else 0.
Lemma Dsusp_alt r g k : Dsusp r g k = alt r (firstn (Z.to_nat r) k) * g (skipn (Z.to_nat (r - 1)) k).
Proof. unfold Dsusp, surj_suspended, alt, psgn. destruct (covers r _); rewrite ?ev_cons, ?ev_nil; ring. Qed.
Lemma psgn_move l1 b l2 l3 : NoDup (l1 ++ b :: l2 ++ l3) -> psgn (l1 ++ l2 ++ b :: l3) = sgn (zlen l2) * psgn (l1 ++ b :: l2 ++ l3).
Proof.
  revert l1. induction l2 as [|c l2 IH]; intros l1 ND; [change (zlen (@nil Z)) with 0; rewrite sgn_0; cbn [app]; ring|].
  cbn [app] in *. pose proof (psgn_swap l1 b [] c (l2 ++ l3) ND) as Sw. cbn [app] in Sw.
  replace (l1 ++ c :: l2 ++ b :: l3) with ((l1 ++ [c]) ++ l2 ++ b :: l3) by now rewrite <- app_assoc.
  rewrite IH.
  - rewrite <- app_assoc. cbn [app]. rewrite Sw, zlen_cons, sgn_S. ring.
  - rewrite <- app_assoc. cbn [app]. apply (Permutation_NoDup (l := l1 ++ b :: c :: l2 ++ l3)); [|exact ND]. apply Permutation_app_head. constructor.
Qed.
Lemma alt_move r l1 b l2 l3 : 0 <= r -> zlen (l1 ++ b :: l2 ++ l3) = r -> alt r (l1 ++ l2 ++ b :: l3) = sgn (zlen l2) * alt r (l1 ++ b :: l2 ++ l3).
Proof.
  intros Hr L. assert (P : Permutation (l1 ++ l2 ++ b :: l3) (l1 ++ b :: l2 ++ l3)) by (apply Permutation_app_head; symmetry; apply Permutation_middle).
  assert (E : covers r (l1 ++ l2 ++ b :: l3) = covers r (l1 ++ b :: l2 ++ l3)).
  { apply eq_true_iff_eq. assert (L2 : zlen (l1 ++ l2 ++ b :: l3) = r) by (unfold zlen in *; now rewrite (Permutation_length P)). rewrite !covers_perm by auto. unfold perm. split; intros H; [now rewrite <- P|now rewrite P]. }
  unfold alt. rewrite E. destruct (covers r (l1 ++ b :: l2 ++ l3)) eqn:Ec; [|ring]. apply psgn_move. apply covers_perm in Ec; auto. eapply perm_nodup; eauto.
Qed.
Lemma alt_dup r p : 0 <= r -> zlen p = r -> ~ NoDup p -> alt r p = 0.
Proof. intros Hr L N. unfold alt. destruct (covers r p) eqn:E; [|reflexivity]. exfalso. apply N. apply covers_perm in E; auto. eapply perm_nodup; eauto. Qed.
Lemma dup_split (q : list Z) : NoDup q \/ exists l1 b l2 l3, q = l1 ++ b :: l2 ++ b :: l3.
Proof.
  induction q as [|a q [IH|(l1 & b & l2 & l3 & ->)]]; [left; constructor| |right; exists (a :: l1), b, l2, l3; reflexivity].
  destruct (in_dec Z.eq_dec a q) as [Hin|N]; [|left; now constructor]. right. apply in_split in Hin. destruct Hin as (l2 & l3 & ->). exists [], a, l2, l3. reflexivity.
Qed.
Lemma sumf_splits_app {B} (f : list B * B * list B -> Z) l m : sumf f (splits (l ++ m)) = sumf (fun '(l1, b, l2) => f (l1, b, l2 ++ m)) (splits l) + sumf (fun '(l1, b, l2) => f (l ++ l1, b, l2)) (splits m).
Proof.
  revert f. induction l as [|a l IH]; intros f.
  - cbn [app]. change (splits (@nil B)) with (@nil (list B * B * list B)). rewrite sumf_nil, Z.add_0_l. apply sumf_ext. now intros [[l1 b] l2] _.
  - cbn [app]. rewrite !splits_cons, !sumf_cons, !sumf_map, IH. cbn [fst snd app]. rewrite <- Z.add_assoc. f_equal. f_equal; apply sumf_ext; now intros [[l1 b] l2] _.
Qed.
Lemma alt_sum r q : 0 <= r -> zlen q = r + 1 -> (forall c, In c q -> 1 <= c <= r) -> sumf (fun '(l1, _, l2) => sgn (zlen l1) * alt r (l1 ++ l2)) (splits q) = 0.
Proof.
  intros Hr L Hq. destruct (dup_split q) as [ND|(l1 & b & l2 & l3 & ->)].
  - exfalso. assert (H : (length q <= length (zrange 1 (r + 1)))%nat) by (apply NoDup_incl_length; [exact ND|]; intros c Hc; apply in_zrange; apply Hq in Hc; lia).
    rewrite zrange_length in H. unfold zlen in L. lia.
  - assert (Z0 : forall p, zlen p = r -> forall x, p = x -> ~ NoDup x -> alt r p = 0) by (intros p Lp x <- N; now apply alt_dup).
    assert (ND2 : forall x y z, ~ NoDup (x ++ b :: y ++ b :: z)).
    { intros x y z N. apply NoDup_remove_2 in N. apply N, in_or_app. right. apply in_or_app. right. now left. }
    rewrite sumf_splits_app, splits_cons, sumf_cons, sumf_map, sumf_splits_app, splits_cons, sumf_cons, sumf_map. cbn [fst snd app].
    assert (Ll : zlen l1 + zlen l2 + zlen l3 + 1 = r) by (rewrite zlen_app, zlen_cons, zlen_app, zlen_cons in L; lia).
    rewrite (sumf_0 _ (splits l1)). 2:{ intros [[x c] y] Hin. apply splits_in in Hin. subst l1. rewrite alt_dup; [ring|exact Hr| |].
      - zl. repeat first [rewrite zlen_app in Ll | rewrite zlen_cons in Ll]. lia.
      - rewrite app_assoc. apply ND2. }
    rewrite (sumf_0 _ (splits l2)). 2:{ intros [[x c] y] Hin. apply splits_in in Hin. subst l2. cbn [app]. rewrite alt_dup; [ring|exact Hr| |].
      - rewrite <- app_assoc. cbn [app]. zl. repeat first [rewrite zlen_app in Ll | rewrite zlen_cons in Ll]. lia.
      - replace ((l1 ++ b :: x) ++ y ++ b :: l3) with (l1 ++ b :: (x ++ y) ++ b :: l3) by (asimpl; reflexivity). apply ND2. }
    rewrite (sumf_0 _ (splits l3)). 2:{ intros [[x c] y] Hin. apply splits_in in Hin. subst l3. cbn [fst snd]. rewrite alt_dup; [ring|exact Hr| |].
      - rewrite <- app_assoc. cbn [app]. zl. repeat first [rewrite zlen_app in Ll | rewrite zlen_cons in Ll]. lia.
      - replace ((l1 ++ b :: l2 ++ b :: x) ++ y) with (l1 ++ b :: l2 ++ b :: (x ++ y)) by (asimpl; reflexivity). apply ND2. }
    rewrite !app_nil_r. rewrite (alt_move r l1 b l2 l3); [|exact Hr|rewrite zlen_app, zlen_cons, zlen_app; lia]. rewrite <- app_assoc. cbn [app].
    rewrite zlen_app, zlen_cons, !sgn_add, sgn_1. ring.
Qed.

Lemma alt_notin r p : alt r p <> 0 -> forall j, 1 <= j <= r -> In j p.
Proof. unfold alt, covers. destruct (forallb _ _) eqn:E; [|congruence]. intros _ j Hj. rewrite forallb_forall in E. apply mem_in, E, in_zrange. lia. Qed.
Lemma caesuras_all u v : (forall c, In c u -> In c v) -> caesuras_in u v = zlen u.
Proof.
  induction u as [|a u IH]; intros S; [reflexivity|]. rewrite caesuras_cons, IH, zlen_cons by (intros; apply S; now right).
  rewrite (proj2 (mem_in a (u ++ v))); [lia|]. apply in_or_app. right. apply S. now left.
Qed.
Lemma caesuras_app2 u w v : caesuras_in (u ++ w) v = caesuras_in u (w ++ v) + caesuras_in w v.
Proof. induction u as [|a u IH]; cbn [app]; [reflexivity|]. rewrite !caesuras_cons, IH, app_assoc. lia. Qed.
Lemma before_last_app a u w : mem a w = true -> before_last a (u ++ w) = u ++ before_last a w.
Proof. intros E. induction u as [|b u IH]; cbn [app before_last]; [reflexivity|]. rewrite mem_app, E, orb_true_r, IH. reflexivity. Qed.
Lemma bf_sign_prefix u l1 b l2 : mem b (l1 ++ l2) = true -> (forall c, In c u -> In c (l1 ++ l2)) ->
  bf_face_sign (u ++ l1) b l2 = sgn (zlen u) * bf_face_sign l1 b l2.
Proof.
  intros Hb Hu. unfold bf_face_sign. destruct (mem b l2) eqn:E2.
  - rewrite caesuras_app2, caesuras_all, sgn_add; [reflexivity|]. intros c Hc. apply Hu in Hc. rewrite in_app_iff in *. cbn [In]. tauto.
  - rewrite mem_app, E2, orb_false_r in Hb. rewrite before_last_app by assumption. rewrite app_length, skipn_app.
    replace (length u + length (before_last b l1) - length u)%nat with (length (before_last b l1)) by lia.
    rewrite (skipn_all2 u) by lia. cbn [app].
    rewrite caesuras_app2, caesuras_all, sgn_add; [ring|]. intros c Hc. apply Hu in Hc. rewrite app_assoc, <- before_last_mem by assumption. rewrite in_app_iff in *. cbn [In]. tauto.
Qed.
Lemma firstn_exact {B} (p v : list B) r : zlen p = r -> firstn (Z.to_nat r) (p ++ v) = p.
Proof. intros <-. unfold zlen. rewrite Nat2Z.id, firstn_app, Nat.sub_diag, firstn_all. cbn. apply app_nil_r. Qed.
Lemma skipn_exact {B} (p v : list B) r : zlen p = r -> skipn (Z.to_nat r) (p ++ v) = v.
Proof. intros <-. unfold zlen. rewrite Nat2Z.id, skipn_app, Nat.sub_diag, skipn_all. reflexivity. Qed.

Lemma susp_bfd r g k : 1 <= r -> onto r k -> (forall w, ~ onto r w -> g w = 0) ->
  bfd (Dsusp r g) k = sgn (r - 1) * Dsusp r (bfd g) k.
Proof.
  intros Hr Ho Hg. assert (H0 : r <= zlen k) by (apply onto_long; auto; lia).
  destruct (first_last r k ltac:(lia)) as (u & a & v & E & Lu & E1 & E2).
  rewrite (Dsusp_alt r (bfd g)), E1, E2. set (p := u ++ [a]). assert (Lp : zlen p = r) by (unfold p; rewrite zlen_app, zlen_cons; change (zlen (@nil Z)) with 0; lia).
  assert (Ek : k = p ++ v) by (unfold p; rewrite E, <- app_assoc; reflexivity).
  assert (Hp : forall c, In c p -> 1 <= c <= r) by (intros c Hc; apply Ho; rewrite Ek; apply in_or_app; now left).
  rewrite <- !bfd_faces. unfold faceval. rewrite Ek at 1. rewrite sumf_splits_app, splits_cons, sumf_cons, sumf_map. cbn [fst snd app].
  rewrite Z.mul_add_distr_l, Z.mul_add_distr_l. f_equal.
  - (* faces in the permutation *)
    destruct (onto_dec r v) as [Ov|Nv].
    + destruct v as [|h v'].
      { exfalso. apply (onto_ne r [] Hr Ov eq_refl). }
      transitivity (sumf (fun '(l1, b, l2) => g (h :: v') * (sgn (zlen l1) * alt r ((l1 ++ l2) ++ [h]))) (splits p)).
      * apply sumf_ext. intros [[l1 b] l2] Hin. apply splits_in in Hin.
        assert (Hb : In b (h :: v')) by (apply Ov, Hp; rewrite Hin; apply in_or_app; right; now left).
        rewrite mem_app, mem_app, (proj2 (mem_in b (h :: v')) Hb), !orb_true_r.
        unfold bf_face_sign. rewrite mem_app, (proj2 (mem_in b (h :: v')) Hb), orb_true_r.
        rewrite caesuras_all. 2:{ intros c Hc. right. apply in_or_app. right. apply Ov, Hp. rewrite Hin. apply in_or_app. now left. }
        assert (Ll : zlen (l1 ++ l2) = r - 1) by (rewrite Hin in Lp; rewrite zlen_app, zlen_cons in Lp; rewrite zlen_app; lia).
        rewrite Dsusp_alt. rewrite (app_assoc l1 l2). rewrite (skipn_exact (l1 ++ l2)) by exact Ll.
        replace ((l1 ++ l2) ++ h :: v') with (((l1 ++ l2) ++ [h]) ++ v') by (rewrite <- app_assoc; reflexivity).
        rewrite firstn_exact; [ring|]. rewrite zlen_app, zlen_cons. change (zlen (@nil Z)) with 0. lia.
      * pose proof (alt_sum r (p ++ [h])) as S. rewrite zlen_app, zlen_cons in S. change (zlen (@nil Z)) with 0 in S.
        specialize (S ltac:(lia) ltac:(lia)). rewrite sumf_splits_app, splits_cons, sumf_cons, sumf_map in S. change (splits (@nil Z)) with (@nil (list Z * Z * list Z)) in S. rewrite sumf_nil in S.
        rewrite !app_nil_r in S. rewrite (sumf_ext _ (fun s => g (h :: v') * (let '(l1, b, l2) := s in sgn (zlen l1) * alt r (l1 ++ l2 ++ [h])))).
        2:{ intros [[l1 b] l2] _. now rewrite app_assoc. }
        rewrite sumf_scal. rewrite Lp in S. assert (S' : sumf (fun '(l1, _, l2) => sgn (zlen l1) * alt r (l1 ++ l2 ++ [h])) (splits p) = - (sgn r * alt r p)).
        { rewrite <- (Z.add_0_r (sgn r * alt r p)). apply Z.add_move_0_r. apply S. intros c Hc. apply in_app_iff in Hc. destruct Hc as [Hc|[<-|[]]]; [now apply Hp|]. apply Ov. now left. }
        rewrite S'. rewrite (proj2 (mem_in a (h :: v'))) by (apply Ov, Hp; unfold p; apply in_or_app; right; now left).
        unfold bf_face_sign. rewrite (proj2 (mem_in a (h :: v'))) by (apply Ov, Hp; unfold p; apply in_or_app; right; now left). cbn [caesuras_in]. rewrite sgn_0.
        replace (sgn r) with (sgn (r - 1 + 1)) by (f_equal; lia). rewrite sgn_S. ring.
    + rewrite (Hg v Nv). rewrite sumf_0; [destruct (mem a v); ring|]. intros [[l1 b] l2] Hin. apply splits_in in Hin.
      destruct (mem b (l1 ++ l2 ++ v)); [|reflexivity]. rewrite Dsusp_alt.
      assert (Ll : zlen (l1 ++ l2) = r - 1) by (rewrite Hin in Lp; rewrite zlen_app, zlen_cons in Lp; rewrite zlen_app; lia).
      rewrite (app_assoc l1 l2), (skipn_exact (l1 ++ l2)) by exact Ll. rewrite (Hg v Nv). ring.
  - (* the other faces *)
    rewrite <- !sumf_scal. apply sumf_ext. intros [[l1 b] l2] Hin. apply splits_in in Hin. cbn [fst snd].
    rewrite (Dsusp_alt r g (_ ++ _)). rewrite <- (app_assoc p). rewrite firstn_exact by exact Lp.
    replace (p ++ l1 ++ l2) with (u ++ a :: l1 ++ l2) by (unfold p; rewrite <- app_assoc; reflexivity). rewrite skipn_exact by lia.
    destruct (onto_dec r (a :: l1 ++ l2)) as [Ow|Nw].
    + assert (Hb : In b (a :: l1 ++ l2)) by (apply Ow, Ho; rewrite Ek, Hin; apply in_or_app; right; apply in_or_app; right; now left).
      rewrite (proj2 (mem_in b (u ++ a :: l1 ++ l2))) by (apply in_or_app; now right). rewrite (proj2 (mem_in b (a :: l1 ++ l2))) by assumption.
      replace (p ++ l1) with (u ++ (a :: l1)) by (unfold p; rewrite <- app_assoc; reflexivity).
      rewrite (bf_sign_prefix u (a :: l1) b l2), Lu; [ring| |].
      * now apply mem_in.
      * intros c Hc. apply Ow, Hp. unfold p. apply in_or_app. now left.
    + rewrite (Hg _ Nw). destruct (mem b _), (mem b _); ring.
Qed.
