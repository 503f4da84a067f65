(** * Surjections: the two sign conventions and the code of the boundary.  Proof library. *)
From Coq Require Import Setoid Morphisms.
From Verif Require Import PyBase Dict FreeModule Symmetric Simplicial Utils Surjection Eqm Spec SpecOperad SpecSurj FreeModuleFacts FreeModuleLaws ListFacts
  ClassFacts LinearFacts SymmetricFacts CycleFacts SymmetricLaws RingFacts TensorAct LoopFacts SurjFacts.

(** ** the word of the caesuras and its inversions *)
Fixpoint caes (u v : list Z) : list Z :=
  match u with [] => [] | b :: u' => if mem b (u' ++ v) then b :: caes u' v else caes u' v end.
Definition lessn (a : Z) (l : list Z) : Z := zlen (filter (fun y => y <? a) l).
Definition moren (a : Z) (l : list Z) : Z := zlen (filter (fun y => a <? y) l).
Fixpoint invn (l : list Z) : Z := match l with [] => 0 | x :: l' => lessn x l' + invn l' end.
Definition eps (w : list Z) : Z := sgn (invn (caes w [])).

Lemma caes_app u v w : caes (u ++ v) w = caes u (v ++ w) ++ caes v w.
Proof. induction u as [|b u IH]; [reflexivity|]. cbn [app caes]. rewrite app_assoc, IH. destruct (mem b (u ++ v ++ w)) eqn:E; rewrite <- app_assoc, E; reflexivity. Qed.
Lemma caes_ctx u v w : (forall b, In b u -> mem b v = mem b w) -> caes u v = caes u w.
Proof.
  induction u as [|b u IH]; intros H; [reflexivity|]. cbn [caes]. rewrite !mem_app. rewrite (H b) by now left. rewrite IH; [reflexivity|]. intros c Hc. apply H. now right.
Qed.
Lemma caes_len u v : zlen (caes u v) = caesuras_in u v.
Proof. induction u as [|b u IH]; [reflexivity|]. cbn [caes caesuras_in]. destruct (mem b (u ++ v)); rewrite ?zlen_cons, IH; lia. Qed.
Lemma lessn_app a u v : lessn a (u ++ v) = lessn a u + lessn a v. Proof. unfold lessn. now rewrite filter_app, zlen_app. Qed.
Lemma moren_app a u v : moren a (u ++ v) = moren a u + moren a v. Proof. unfold moren. now rewrite filter_app, zlen_app. Qed.
Lemma lessn_cons a b u : lessn a (b :: u) = (if b <? a then 1 else 0) + lessn a u.
Proof. unfold lessn. cbn [filter]. destruct (b <? a); rewrite ?zlen_cons; lia. Qed.
Lemma moren_cons a b u : moren a (b :: u) = (if a <? b then 1 else 0) + moren a u.
Proof. unfold moren. cbn [filter]. destruct (a <? b); rewrite ?zlen_cons; lia. Qed.
Lemma invn_mid A a B : invn (A ++ a :: B) = invn (A ++ B) + moren a A + lessn a B.
Proof.
  induction A as [|b A IH]; cbn [app invn]; [unfold moren; cbn; rewrite zlen_nil; lia|]. rewrite IH, moren_cons, !lessn_app, lessn_cons. lia.
Qed.
Lemma times_app a u v : times_in a (u ++ v) = times_in a u + times_in a v.
Proof. induction u as [|b u IH]; cbn [app times_in]; [reflexivity|]. rewrite IH. lia. Qed.
Lemma trich a l : zlen l = lessn a l + times_in a l + moren a l.
Proof.
  induction l as [|b l IH]; [reflexivity|]. rewrite zlen_cons, lessn_cons, moren_cons. cbn [times_in].
  destruct (Z.ltb_spec b a), (Z.eqb_spec b a), (Z.ltb_spec a b); lia.
Qed.
Lemma times_notin a l : ~ In a l -> times_in a l = 0.
Proof. induction l as [|b l IH]; intros N; [reflexivity|]. cbn [times_in]. destruct (Z.eqb_spec b a) as [->|]; [exfalso; apply N; now left|]. rewrite IH; [reflexivity|]. intros H. apply N. now right. Qed.
Lemma times_nonneg a l : 0 <= times_in a l.
Proof. induction l as [|b l IH]; cbn [times_in]; [lia|]. destruct (b =? a); lia. Qed.
Lemma times_in_pos a l : In a l -> 1 <= times_in a l.
Proof. induction l as [|b l IH]; [intros []|]. cbn [times_in]. pose proof (times_nonneg a l). intros [->|H1]; [rewrite Z.eqb_refl; lia|]. specialize (IH H1). destruct (b =? a); lia. Qed.
Lemma times_caes a u v : times_in a (caes u v) = if mem a v then times_in a u else times_in a u - (if mem a u then 1 else 0).
Proof.
  induction u as [|b u IH]; [cbn; destruct (mem a v); reflexivity|]. cbn [caes times_in]. cbn [mem existsb]. fold (mem a u). rewrite (Z.eqb_sym a b).
  destruct (Z.eqb_spec b a) as [->|N].
  - rewrite mem_app. destruct (mem a u) eqn:Eu; cbn [orb].
    + cbn [times_in]. rewrite Z.eqb_refl, IH. destruct (mem a v); lia.
    + destruct (mem a v); cbn [times_in]; rewrite ?Z.eqb_refl, IH; [lia|]. lia.
  - cbn [orb]. destruct (mem b (u ++ v)); cbn [times_in]; [destruct (Z.eqb_spec b a); [contradiction|]|]; rewrite IH; destruct (mem a v); lia.
Qed.
Lemma lessn_sum a l : (forall b, In b l -> 1 <= b) -> lessn a l = zsum (map (fun j => times_in j l) (zrange 1 a)).
Proof.
  change (zsum (map (fun j => times_in j l) (zrange 1 a))) with (sumf (fun j => times_in j l) (zrange 1 a)).
  induction l as [|b l IH]; intros H.
  - cbn [times_in]. rewrite sumf_0 by reflexivity. reflexivity.
  - rewrite lessn_cons, IH by (intros; apply H; now right). cbn [times_in]. rewrite sumf_add. f_equal.
    assert (Hb : 1 <= b) by (apply H; now left). destruct (Z.ltb_spec b a).
    + rewrite (zrange_app 1 b a) by lia. rewrite (zrange_cons b a) by lia. rewrite sumf_app, sumf_cons, Z.eqb_refl. rewrite !sumf_0.
      * reflexivity.
      * intros j Hj. apply in_zrange in Hj. destruct (Z.eqb_spec b j); lia.
      * intros j Hj. apply in_zrange in Hj. destruct (Z.eqb_spec b j); lia.
    + rewrite sumf_0; [reflexivity|]. intros j Hj. apply in_zrange in Hj. destruct (Z.eqb_spec b j); lia.
Qed.
Lemma in_caes b u v : In b (caes u v) -> In b u.
Proof. induction u as [|c u IH]; [intros []|]. cbn [caes]. destruct (mem c (u ++ v)); [intros [->|]|]; cbn; auto. Qed.

Lemma caes_split l1 a l2 : mem a (l1 ++ l2) = true -> exists A B s, caes (l1 ++ a :: l2) [] = A ++ a :: B /\ caes (l1 ++ l2) [] = A ++ B /\
  bf_face_sign l1 a l2 = s * sgn (zlen A) /\ sgn (times_in a l1) = s * sgn (times_in a A) /\ s * s = 1.
Proof.
  intros E. unfold bf_face_sign. destruct (mem a l2) eqn:E2.
  - exists (caes l1 (a :: l2)), (caes l2 []), 1. rewrite !caes_app, !app_nil_r. cbn [caes]. rewrite app_nil_r, E2.
    split; [reflexivity|]. split; [|split; [|split; [|reflexivity]]].
    + f_equal. apply caes_ctx. intros b _. cbn [mem existsb]. destruct (Z.eqb_spec b a) as [->|]; [exact E2|reflexivity].
    + rewrite caes_len. ring.
    + rewrite times_caes. cbn [mem existsb]. rewrite Z.eqb_refl. cbn [orb]. ring.
  - rewrite mem_app, E2, orb_false_r in E. destruct (last_split _ _ E) as (u & v & -> & N & EB). rewrite EB.
    exists (caes u (a :: v ++ a :: l2)), (caes v (a :: l2) ++ caes l2 []), (-1).
    rewrite skipn_app, skipn_all, Nat.sub_diag. cbn [skipn app]. rewrite <- !app_assoc. cbn [app].
    apply mem_notin in N.
    assert (M1 : mem a (v ++ a :: l2) = true) by (rewrite mem_app; cbn [mem existsb]; rewrite Z.eqb_refl; apply orb_true_r).
    assert (M2 : mem a (v ++ l2) = false) by (rewrite mem_app, N, E2; reflexivity).
    rewrite !caes_app. cbn [caes]. rewrite !app_nil_r, M1, M2, !caes_app. cbn [caes]. rewrite !app_nil_r, E2.
    split; [reflexivity|]. split; [|split; [|split; [|reflexivity]]].
    + f_equal; [|f_equal].
      * apply caes_ctx. intros b _. cbn [mem existsb]. fold (mem b (v ++ l2)) (mem b (v ++ a :: l2)). rewrite !mem_app. cbn [mem existsb]. destruct (b =? a); cbn [orb]; reflexivity.
      * apply caes_ctx. intros b Hb. cbn [mem existsb]. destruct (Z.eqb_spec b a) as [->|]; [|reflexivity]. apply mem_in in Hb. congruence.
    + rewrite caes_len. ring.
    + rewrite times_app. cbn [times_in]. rewrite Z.eqb_refl. apply mem_notin in N. rewrite (times_notin a v N), times_caes. cbn [mem existsb]. rewrite Z.eqb_refl. cbn [orb].
      replace (times_in a u + (1 + 0)) with (times_in a u + 1) by ring. rewrite sgn_S. ring.
Qed.
Lemma ms_bf r l1 a l2 : onto r (l1 ++ a :: l2) -> mem a (l1 ++ l2) = true ->
  ms_face_sign l1 a l2 = eps (l1 ++ a :: l2) * (bf_face_sign l1 a l2 * eps (l1 ++ l2)).
Proof.
  intros Hw E. destruct (caes_split _ _ _ E) as (A & B & s & E1 & E2 & E3 & E4 & E5). unfold ms_face_sign, eps. set (w := l1 ++ a :: l2) in *.
  assert (Ha : 1 <= a <= r) by (apply Hw; unfold w; apply in_app_iff; right; now left).
  assert (ES : zsum (map (fun j => times_in j w - 1) (zrange 1 a)) = lessn a (A ++ a :: B)).
  { rewrite <- E1, lessn_sum.
    - f_equal. apply map_ext_in. intros j Hj. apply in_zrange in Hj. rewrite times_caes. cbn [mem existsb].
      assert (Hm : mem j w = true) by (apply mem_in, Hw; lia). now rewrite Hm.
    - intros b Hb. apply in_caes in Hb. apply Hw in Hb. lia. }
  rewrite ES, E1, E2, E3, sgn_add, E4, invn_mid, lessn_app, lessn_cons, Z.ltb_irrefl. rewrite !sgn_add. rewrite (trich a A), !sgn_add.
  rewrite sgn_0. pose proof (sgn_sq (invn (A ++ B))) as Q1. pose proof (sgn_sq (moren a A)) as Q2.
  set (p := sgn (invn (A ++ B))) in *. set (q := sgn (moren a A)) in *. set (x := sgn (lessn a A)). set (y := sgn (lessn a B)). set (z := sgn (times_in a A)).
  transitivity ((p * p) * (q * q) * (x * y * z * s)); [rewrite Q1, Q2; ring|ring].
Qed.
(** ** the boundary in a convention *)
Definition tw (cv : conv) (k : list Z) : Z := match cv with MS => eps k | _ => 1 end.
Lemma tw_sq cv k : tw cv k * tw cv k = 1. Proof. destruct cv; cbn; try reflexivity. apply sgn_sq. Qed.
Definition sd (cv : conv) (g : list Z -> Z) (k : list Z) : Z := tw cv k * bfd (fun u => tw cv u * g u) k.
Definition sdl (cv : conv) (k : list Z) : list (list Z * Z) := map (fun p => (fst p, tw cv k * tw cv (fst p) * snd p)) (bfl k).
Lemma sd_ev cv g k : sd cv g k = ev g (sdl cv k).
Proof. unfold sd, sdl. rewrite bfd_ev. unfold ev. rewrite sumf_map, <- sumf_scal. apply sumf_ext. intros [u s] _. cbn [fst snd]. ring. Qed.
Lemma sd_sd cv g k : sd cv (sd cv g) k = 0.
Proof.
  unfold sd at 1. rewrite (bfd_ext_all _ (bfd (fun u => tw cv u * g u))), bfd_bfd; [ring|]. intros u. unfold sd. rewrite Z.mul_assoc, tw_sq. ring.
Qed.
Lemma sd_adj cv g k : (forall u, adj u = true -> (forall c, In c u <-> In c k) -> g u = 0) -> adj k = true -> sd cv g k = 0.
Proof. intros Hg Hk. unfold sd. rewrite bfd_adj; [ring| |exact Hk]. intros u H1 H2. rewrite Hg by assumption. ring. Qed.
Lemma sd_faces cv g k r : onto r k -> sd cv g k = faceval (match cv with MS => ms_face_sign | _ => bf_face_sign end) g k.
Proof.
  intros Hk. destruct cv; unfold sd; cbn [tw].
  - rewrite bfd_faces. rewrite Z.mul_1_l. apply bfd_ext_all. intros; ring.
  - rewrite <- bfd_faces. unfold faceval. rewrite <- sumf_scal. apply sumf_ext. intros [[l1 a] l2] Hin. apply splits_in in Hin. subst k.
    destruct (mem a (l1 ++ l2)) eqn:E; [|ring]. rewrite (ms_bf r) by assumption. ring.
  - rewrite bfd_faces. rewrite Z.mul_1_l. apply bfd_ext_all. intros; ring.
Qed.

(** ** keys *)
Lemma onto_max r k : 1 <= r -> onto r k -> py_max k = Ok r.
Proof. intros Hr Hk. apply py_max_spec. split; [apply Hk; lia|]. intros b Hb. apply Hk in Hb. lia. Qed.
Lemma onto_ne r k : 1 <= r -> onto r k -> k <> [].
Proof. intros Hr Hk ->. destruct (proj2 (Hk 1)). lia. Qed.
Lemma onto_fun r r' k : 1 <= r -> 1 <= r' -> onto r k -> onto r' k -> r = r'.
Proof. intros H1 H2 K1 K2. apply (onto_max _ _ H1) in K1. apply (onto_max _ _ H2) in K2. congruence. Qed.
Lemma set_eqb_in a b : set_eqb a b = true <-> forall c, In c a <-> In c b.
Proof.
  unfold set_eqb. rewrite andb_true_iff, !forallb_forall. split.
  - intros [H1 H2] c. split; intros Hc; apply mem_in; auto.
  - intros H. split; intros c Hc; apply mem_in, H, Hc.
Qed.
Lemma surj_bad_spec k m : py_max k = Ok m -> surj_bad k = Ok (negb (set_eqb k (zrange 1 (m + 1))) || adj k).
Proof. intros E. unfold surj_bad. rewrite E. reflexivity. Qed.
Lemma onto_set r k : onto r k <-> set_eqb k (zrange 1 (r + 1)) = true.
Proof.
  rewrite set_eqb_in. split; intros Hc c; specialize (Hc c); rewrite in_zrange in *; (split; intros Hx; [apply Hc in Hx; lia|apply Hc; lia]).
Qed.
Lemma surj_bad_onto r k : 1 <= r -> onto r k -> surj_bad k = Ok (adj k).
Proof. intros Hr Hk. rewrite (surj_bad_spec k r) by now apply onto_max. apply onto_set in Hk. now rewrite Hk. Qed.
Lemma surj_good k : surj_bad k = Ok false -> exists r, 1 <= r /\ onto r k /\ adj k = false.
Proof.
  intros E. unfold surj_bad in E. destruct (py_max k) as [m|] eqn:Em; [|discriminate]. cbn [bind] in E. injection E as E. apply orb_false_iff in E. destruct E as [E1 E2].
  apply negb_false_iff, onto_set in E1. exists m. split; [|split; [exact E1|exact E2]]. apply py_max_spec in Em. destruct Em as [Em _]. apply E1 in Em. lia.
Qed.
Lemma surj_okey k : k <> [] -> okey cls_surj k.
Proof. intros N. destruct k as [|a k]; [contradiction|]. eexists. cbn. unfold surj_bad. cbn [py_max bind]. reflexivity. Qed.
Lemma surj_bad_supp u k : (forall c, In c u <-> In c k) -> k <> [] -> surj_bad k = Ok true -> adj k = false -> surj_bad u = Ok true.
Proof.
  intros S N E Ek. unfold surj_bad in *. destruct (py_max k) as [m|] eqn:Em; [|discriminate]. cbn [bind] in E. injection E as E. fold (adj k) in E. rewrite Ek, orb_false_r in E.
  assert (Eu : py_max u = Ok m). { apply py_max_spec in Em. apply py_max_spec. destruct Em as [E1 E2]. split; [now apply S|]. intros b Hb. apply E2, S, Hb. }
  rewrite Eu. cbn [bind]. f_equal. apply orb_true_iff. left. rewrite negb_true_iff in *. rewrite <- not_true_iff_false in *. intros H1. apply E. clear E. rewrite set_eqb_in in *.
  intros c. rewrite <- S. apply H1.
Qed.
Lemma wf_onto (x : surj) k v : wf cls_surj x -> In (k, v) (data x) -> exists r, 1 <= r /\ onto r k /\ adj k = false.
Proof. intros [_ [_ W]] Hin. apply surj_good. now apply (W k v). Qed.

(** ** the McClure-Smith loop *)
Section MSLoop.
Variables (dt t : Z) (cv : conv).
Hypothesis (Ht : 0 <= t) (Hdt : dt_ok dt t).
Variables (k : list Z) (v : Z).
Hypothesis (Hk : k <> []).
Let inner_body := (fun '(answer, sign) idx =>
             let new_k := slice_to k idx ++ slice_from k (idx + 1) in
             let! j := py_get k idx in
             let! answer' := (if mem j new_k
                              then add_term dt cls_surj answer answer new_k (v * sign)
                              else Ok answer) in
             Ok (answer', - sign) : res (surj * Z)).
Definition inner_sum (i : Z) (l1 l2 : list Z) (g : list Z -> Z) : Z :=
  sumf (fun '(u, a, w) => if (a =? i) && mem a (l1 ++ u ++ w) then sgn (times_in i u) * g (l1 ++ u ++ w) else 0) (splits l2).
Lemma ms_inner i : forall l2 l1 s (y : surj) F, k = l1 ++ l2 -> den cls_surj t cv F y ->
  returns (for_ (map fst (filter (fun pj => snd pj =? i) (map (fun p => (fst p + zlen l1, snd p)) (enumerate l2)))) (y, s) inner_body)
    (fun st => den cls_surj t cv (fun g => F g + v * s * inner_sum i l1 l2 g) (fst st) /\ snd st = s * sgn (times_in i l2)).
Proof.
  induction l2 as [|a l2 IH]; intros l1 s y F E Hy.
  - cbn. apply returns_ok. cbn [fst snd]. split; [|rewrite sgn_0; ring]. eapply den_ext; [|exact Hy]. intros g _. cbn beta. apply eqm_eq. unfold inner_sum. cbn. ring.
  - rewrite enumerate_cons. cbn [map fst snd filter]. rewrite map_map. cbn [fst snd].
    assert (EI : forall g, inner_sum i l1 (a :: l2) g = (if (a =? i) && mem a (l1 ++ l2) then g (l1 ++ l2) else 0)
        + (if a =? i then -1 else 1) * inner_sum i (l1 ++ [a]) l2 g).
    { intros g. unfold inner_sum. rewrite splits_cons, sumf_cons, sumf_map. cbn [app times_in]. rewrite sgn_0. f_equal; [destruct ((a =? i) && mem a (l1 ++ l2)); ring|].
      rewrite <- sumf_scal. apply sumf_ext. intros [[u b] w] _. cbn [fst snd app times_in]. rewrite <- app_assoc. cbn [app]. rewrite sgn_add.
      destruct (a =? i); rewrite ?sgn_1, ?sgn_0; destruct ((b =? i) && mem b (l1 ++ a :: u ++ w)); ring. }
    assert (EM : map (fun x : Z * Z => (fst x + 1 + zlen l1, snd x)) (enumerate l2) = map (fun x : Z * Z => (fst x + zlen (l1 ++ [a]), snd x)) (enumerate l2)).
    { apply map_ext. intros [j b]. cbn [fst snd]. f_equal. rewrite zlen_app. change (zlen [a]) with 1. lia. }
    rewrite EM. assert (E' : k = (l1 ++ [a]) ++ l2) by (rewrite <- app_assoc; exact E). destruct (Z.eqb_spec a i) as [->|N].
    + cbn [map fst for_]. rewrite Z.add_0_l. unfold inner_body at 1. subst k. rewrite slice_to_app, slice_from_app_S, py_get_app. cbn [bind].
      eapply returns_bind with (P := fun st => den cls_surj t cv (fun g => F g + v * s * (if mem i (l1 ++ l2) then g (l1 ++ l2) else 0)) (fst st) /\ snd st = - s).
      * destruct (mem i (l1 ++ l2)) eqn:Em.
        -- eapply returns_bind; [eapply (add_term_den cls_surj ok_surj dt t); eauto; [exact (proj1 Hy)|apply surj_okey; intros E0; rewrite E0 in Em; discriminate]|].
           intros z Hz. apply returns_ok. cbn [fst snd]. split; [|reflexivity]. exact Hz.
        -- cbn [bind]. apply returns_ok. cbn [fst snd]. split; [|reflexivity]. eapply den_ext; [|exact Hy]. intros g _. cbn beta. apply eqm_eq. ring.
      * intros [z s'] [Hz Es]. cbn [fst snd] in *. subst s'. eapply returns_mono; [apply (IH (l1 ++ [i]) (- s) z _ E' Hz)|]. intros [z2 s2] [Hz2 E2]. cbn [fst snd] in *. split.
        -- eapply den_ext; [|exact Hz2]. intros g _. cbn beta. apply eqm_eq. rewrite EI. cbn [andb]. ring.
        -- rewrite E2. cbn [times_in]. rewrite Z.eqb_refl, sgn_S'. ring.
    + eapply returns_mono; [apply (IH (l1 ++ [a]) s y F E' Hy)|]. intros [z2 s2] [Hz2 E2]. cbn [fst snd] in *. split.
      * eapply den_ext; [|exact Hz2]. intros g _. cbn beta. apply eqm_eq. rewrite EI. cbn [andb]. ring.
      * rewrite E2. cbn [times_in]. destruct (Z.eqb_spec a i); [contradiction|]. rewrite Z.add_0_l. reflexivity.
Qed.
Fixpoint msum (L : list Z) (s : Z) (g : list Z -> Z) : Z :=
  match L with [] => 0 | i :: L' => s * inner_sum i [] k g + msum L' (s * sgn (times_in i k - 1)) g end.
Lemma ms_outer : forall L s (y : surj) F, den cls_surj t cv F y ->
  returns (for_ L (y, s) (fun '(answer, sign) i =>
        let! r := for_ (map fst (filter (fun pj => snd pj =? i) (enumerate k))) (answer, sign) inner_body in
        let (answer, sign) := (r : surj * Z) in Ok (answer, - sign)))
    (fun st => den cls_surj t cv (fun g => F g + v * msum L s g) (fst st)).
Proof.
  induction L as [|i L IH]; intros s y F Hy.
  - cbn [for_]. apply returns_ok. cbn [fst]. eapply den_ext; [|exact Hy]. intros g _. cbn beta. apply eqm_eq. cbn [msum]. ring.
  - cbn [for_]. pose proof (ms_inner i k [] s y F eq_refl Hy) as H1.
    replace (map (fun p : Z * Z => (fst p + zlen (@nil Z), snd p)) (enumerate k)) with (enumerate k) in H1.
    2:{ rewrite <- (map_id (enumerate k)) at 1. apply map_ext. intros [j b]. cbn [fst snd]. rewrite zlen_nil. f_equal. lia. }
    eapply returns_bind; [eapply returns_bind; [exact H1|]|].
    + intros [z s2] Hz. instantiate (1 := fun st => den cls_surj t cv (fun g => F g + v * s * inner_sum i [] k g) (fst st) /\ snd st = s * sgn (times_in i k - 1)).
      cbn beta iota. apply returns_ok. cbn [fst snd] in *. destruct Hz as [Hz ->]. split; [exact Hz|]. rewrite sgn_sub, sgn_1. ring.
    + intros [z s2] [Hz Es]. cbn [fst snd] in *. subst s2. eapply returns_mono; [apply (IH _ z _ Hz)|]. intros st Hst. cbn beta in *. eapply den_ext; [|exact Hst].
      intros g _. cbn beta. apply eqm_eq. cbn [msum]. ring.
Qed.
Lemma msum_range g n : forall j, 1 <= j ->
  msum (zrange j (j + Z.of_nat n)) (sgn (zsum (map (fun i => times_in i k - 1) (zrange 1 j)))) g
  = sumf (fun '(l1, a, l2) => if (j <=? a) && (a <? j + Z.of_nat n) && mem a (l1 ++ l2) then ms_face_sign l1 a l2 * g (l1 ++ l2) else 0) (splits k).
Proof.
  induction n as [|n IH]; intros j Hj.
  - rewrite zrange_nil by lia. cbn [msum]. symmetry. apply sumf_0. intros [[l1 a] l2] _. destruct (Z.leb_spec j a), (Z.ltb_spec a (j + Z.of_nat 0)); cbn [andb]; try reflexivity. lia.
  - rewrite Nat2Z.inj_succ. rewrite zrange_cons by lia. cbn [msum]. rewrite <- sgn_add.
    replace (zsum (map (fun i : Z => times_in i k - 1) (zrange 1 j)) + (times_in j k - 1)) with (zsum (map (fun i : Z => times_in i k - 1) (zrange 1 (j + 1)))).
    2:{ change (sumf (fun i => times_in i k - 1) (zrange 1 (j + 1)) = sumf (fun i => times_in i k - 1) (zrange 1 j) + (times_in j k - 1)).
        rewrite zrange_snoc by lia. rewrite sumf_app, sumf_cons. cbn. ring. }
    replace (j + Z.succ (Z.of_nat n)) with (j + 1 + Z.of_nat n) by lia. rewrite IH by lia. unfold inner_sum. cbn [app]. rewrite <- sumf_scal, <- sumf_add. apply sumf_ext.
    intros [[l1 a] l2] Hin. apply splits_in in Hin. unfold ms_face_sign. rewrite <- Hin.
    destruct (Z.eqb_spec a j) as [->|N].
    + rewrite Z.leb_refl. destruct (Z.ltb_spec j (j + 1 + Z.of_nat n)); [|lia]. destruct (Z.leb_spec (j + 1) j); [lia|]. cbn [andb]. destruct (mem j (l1 ++ l2)); [rewrite sgn_add; ring|ring].
    + cbn [andb]. rewrite Z.mul_0_r, Z.add_0_l. destruct (Z.leb_spec (j + 1) a), (Z.leb_spec j a); try reflexivity; lia.
Qed.
Lemma msum_ok r g : 1 <= r -> onto r k -> msum (zrange 1 (r + 1)) 1 g = sd MS g k.
Proof.
  intros Hr Ho. rewrite (sd_faces MS g k r Ho). unfold faceval. pose proof (msum_range g (Z.to_nat r) 1 ltac:(lia)) as E. rewrite (zrange_nil 1 1) in E by lia.
  cbn [map] in E. change (sgn (zsum [])) with 1 in E. rewrite Z2Nat.id in E by lia. rewrite (Z.add_comm r 1), E. apply sumf_ext. intros [[l1 a] l2] Hin. apply splits_in in Hin.
  assert (1 <= a <= r) by (apply Ho; rewrite Hin; apply in_app_iff; right; now left).
  destruct (Z.leb_spec 1 a), (Z.ltb_spec a (1 + r)); try lia. reflexivity.
Qed.
End MSLoop.

(** ** the boundary *)
Lemma face_loop (dt t : Z) (cv : conv) (k : list Z) (c : Z -> Z) (sgs : Z -> res Z) (sg : list Z -> Z -> list Z -> Z) (x : surj) (v : Z) : 0 <= t -> dt_ok dt t -> torsion x = t -> 
  (forall l1 a l2, k = l1 ++ a :: l2 -> mem a (l1 ++ l2) = true -> sgs (zlen l1) = Ok (sg l1 a l2)) ->
  forall F (y : surj), den cls_surj t cv F y ->
  returns (for_ (zrange 0 (zlen k)) y (fun answer idx =>
        let bdry_summand := slice_to k idx ++ slice_from k (idx + 1) in
        let! i := py_get k idx in
        if mem i bdry_summand then
          let! s := sgs idx in
          add_term dt cls_surj x answer bdry_summand (s * v)
        else Ok answer)) (den cls_surj t cv (fun g => F g + v * faceval sg g k)).
Proof.
  intros Ht Hdt Tx Hs F y Hy. eapply returns_mono.
  - apply (for_range_den cls_surj t cv 0 k _ (fun l1 a l2 g => if mem a (l1 ++ l2) then v * (sg l1 a l2 * g (l1 ++ l2)) else 0)); [reflexivity| |exact Hy].
    intros l1 a l2 F2 y2 E Hy2. cbv zeta. rewrite E. rewrite slice_to_app, slice_from_app_S, py_get_app. cbn [bind]. destruct (mem a (l1 ++ l2)) eqn:Em.
    + rewrite (Hs l1 a l2 E Em). cbn [bind]. eapply returns_mono; [eapply (add_term_den cls_surj ok_surj dt t); eauto; apply surj_okey; intros E0; rewrite E0 in Em; discriminate|].
      intros z Hz. eapply den_ext; [|exact Hz]. intros g _. cbn beta. apply eqm_eq. ring.
    + apply returns_ok. eapply den_ext; [|exact Hy2]. intros g _. cbn beta. apply eqm_eq. ring.
  - intros z Hz. eapply den_ext; [|exact Hz]. intros g _. cbn beta. apply eqm_eq. f_equal. unfold faceval. rewrite <- sumf_scal. apply sumf_ext.
    intros [[l1 a] l2] _. destruct (mem a (l1 ++ l2)); ring.
Qed.
Definition known (cv : conv) (t : Z) : Prop := cv = BF \/ cv = MS \/ t = 2.
Lemma eqm_sd_mod2 cv g k r : onto r k -> eqm 2 (faceval (fun _ _ _ => 1) g k) (sd cv g k).
Proof.
  intros Hk. rewrite (sd_faces cv g k r Hk). unfold faceval. apply sumf_eqm. intros [[l1 a] l2] _. destruct (mem a (l1 ++ l2)); [|reflexivity].
  match goal with |- eqm 2 (1 * ?b) (?s * ?b) => assert (HE : eqm 2 s 1); [|now rewrite HE] end. unfold ms_face_sign, bf_face_sign. destruct cv; try apply sgn_eqm2; destruct (mem a l2); try apply sgn_eqm2.
  all: cbv zeta; rewrite eqm_2_opp; apply sgn_eqm2.
Qed.
Lemma surj_boundary_den dt t cv (x : surj) : 0 <= t -> dt_ok dt t -> wf cls_surj x -> torsion x = t -> attr x = cv -> known cv t ->
  returns (surj_boundary dt x) (den cls_surj t cv (fun g => ev (sd cv g) (data x))).
Proof.
  intros Ht Hdt Wx Tx Ax HK. unfold surj_boundary.
  eapply returns_bind; [apply (zero_den cls_surj ok_surj dt t); auto|]. intros y0 Hy0. rewrite Ax in Hy0. rewrite Tx.
  destruct (Z.eqb_spec t 2) as [E2|N2].
  - eapply returns_mono.
    + apply (for_den cls_surj t (dkeys (data x)) _ (fun k g => faceval (fun _ _ _ => 1) g k) cv); [|exact Hy0]. intros k F y _ Hy.
      eapply returns_mono; [apply (face_loop dt t cv k (fun z => z) (fun _ => Ok 1) (fun _ _ _ => 1) x 1) with (F := F); auto; exact Hy|].
      intros z Hz. eapply den_ext; [|exact Hz]. intros g _. cbn beta. apply eqm_eq. ring.
    + intros z Hz. eapply den_ext; [|exact Hz]. intros g _. cbn beta. rewrite Z.add_0_l. unfold dkeys. rewrite sumf_map. unfold ev. rewrite E2. apply sumf_eqm.
      intros [k v] Hin. cbn [fst snd]. destruct (wf_onto x k v Wx Hin) as (r & Hr & Ho & _). destruct Wx as [_ [_ W]]. destruct (W k v Hin) as [[_ Hv] _].
      rewrite Tx, E2 in Hv. specialize (Hv ltac:(lia)). replace v with 1 by lia. rewrite Z.mul_1_l. eapply eqm_sd_mod2; eauto.
  - destruct HK as [E|[E|E]]; [| |contradiction].
    + rewrite Ax. rewrite E in *. eapply returns_mono.
      * apply (loop_den cls_surj ok_surj t BF (data x) _ (fun k g => faceval bf_face_sign g k)); [|exact Hy0].
        intros k v F y Hin Hy. rewrite bf_signs_ok. cbn [bind]. apply (face_loop dt t BF k (fun z => z) (fun idx => py_get (map (sigk k) (zrange 0 (zlen k))) idx)); auto.
        intros l1 a l2 Ek Em. rewrite py_get_zrange by (rewrite Ek, zlen_app, zlen_cons; pose proof (zlen_nonneg l1); pose proof (zlen_nonneg l2); lia).
        rewrite Ek, sigk_app. unfold code_sign. now rewrite Em.
      * intros z Hz. eapply den_ext; [|exact Hz]. intros g _. cbn beta. apply eqm_eq. rewrite Z.add_0_l. apply ev_ext. intros k v Hin.
        destruct (wf_onto x k v Wx Hin) as (r & Hr & Ho & _). now rewrite (sd_faces BF g k r Ho).
    + rewrite Ax. rewrite E in *. eapply returns_mono.
      * apply (loop_den cls_surj ok_surj t MS (data x) _ (fun k g => sd MS g k)); [|exact Hy0].
        intros k v F y Hin Hy. destruct (wf_onto x k v Wx Hin) as (r & Hr & Ho & _). rewrite (onto_max r k Hr Ho). cbn [bind].
        eapply returns_bind; [apply (ms_outer dt t MS Ht Hdt k v (onto_ne r k Hr Ho)); exact Hy|]. intros [z s] Hz. apply returns_ok. cbn [fst] in *.
        eapply den_ext; [|exact Hz]. intros g _. cbn beta. apply eqm_eq. now rewrite (msum_ok k r).
      * intros z Hz. eapply den_ext; [|exact Hz]. intros g _. cbn beta. apply eqm_eq. rewrite Z.add_0_l. reflexivity.
Qed.
Lemma sdl_in cv k u s : In (u, s) (sdl cv k) -> zlen u = zlen k - 1 /\ (forall c, In c u <-> In c k).
Proof. unfold sdl. intros Hin. apply in_map_iff in Hin. destruct Hin as ([u' s'] & [= <- <-] & Hin). now apply bfl_in in Hin. Qed.
Definition sface_closed (P Q : list Z -> Prop) : Prop := forall k u, P k -> zlen u = zlen k - 1 -> (forall c, In c u <-> In c k) -> Q u.
Lemma rep_sd cv P Q : sface_closed P Q -> rep P Q (sd cv).
Proof.
  intros HPQ k Hk. exists (sdl cv k). split; [|intros g; apply sd_ev]. intros u s Hin. apply sdl_in in Hin. eapply HPQ; [exact Hk|apply Hin|apply Hin].
Qed.
Lemma adm_sd cv P Q : sface_closed P Q -> (forall k, P k -> k <> []) -> admop cls_surj cls_surj P Q (sd cv).
Proof.
  intros HPQ HP g Hg. apply admP_keyeq. intros k Pk Hb. destruct Hg as [_ Hg]. cbn in Hb.
  destruct (adj k) eqn:Ek.
  - idtac.
    rewrite <- (sd_adj cv (fun u => if (zlen u =? zlen k - 1) && forallb (fun c => mem c k) u && forallb (fun c => mem c u) k then g u else 0) k).
    + rewrite !sd_ev. apply ev_ext. intros u s Hin. apply sdl_in in Hin. destruct Hin as [L S]. rewrite L, Z.eqb_refl. cbn [andb].
      replace (forallb (fun c => mem c k) u) with true by (symmetry; apply forallb_forall; intros c Hc; apply mem_in, S, Hc).
      replace (forallb (fun c => mem c u) k) with true by (symmetry; apply forallb_forall; intros c Hc; apply mem_in, S, Hc). reflexivity.
    + intros u Hu S. destruct ((zlen u =? zlen k - 1) && forallb (fun c => mem c k) u && forallb (fun c => mem c u) k) eqn:Eu; [|reflexivity].
      apply andb_true_iff in Eu. destruct Eu as [Eu _]. apply andb_true_iff in Eu. destruct Eu as [Eu _]. apply Z.eqb_eq in Eu. apply Hg; [eapply HPQ; eauto|].
      cbn. specialize (HP _ Pk). destruct u as [|a u]; [exfalso; destruct k as [|b k]; [contradiction|]; destruct (proj2 (S b)); now left|].
      unfold surj_bad. cbn [py_max bind]. f_equal. apply orb_true_iff. right. exact Hu.
    + exact Ek.
  - rewrite sd_ev. apply ev_zero. intros u s Hin. apply sdl_in in Hin. destruct Hin as [L S]. apply Hg; [eapply HPQ; eauto|]. cbn. eapply surj_bad_supp; eauto.
Qed.
Lemma linop_sb dt t cv P Q : 0 <= t -> dt_ok dt t -> known cv t -> kpred Q -> sface_closed P Q -> linop cls_surj cls_surj t cv cv P Q (sd cv) (surj_boundary dt).
Proof.
  intros Ht Hdt HK HQ HPQ. apply (linop_intro cls_surj cls_surj ok_surj); auto.
  - apply rep_local. now apply rep_sd.
  - apply (rep_zero _ _ _ (rep_sd cv P Q HPQ)).
  - intros x Wx Tx Ax _. now apply surj_boundary_den.
Qed.
