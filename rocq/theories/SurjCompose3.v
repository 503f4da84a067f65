(** * Surjections: composition, the code.  Proof library. *)
From Coq Require Import Setoid Morphisms.
From Verif Require Import PyBase Dict FreeModule Symmetric Simplicial Utils Surjection Eqm Spec SpecChain SpecOperad SpecSurj FreeModuleFacts FreeModuleLaws ListFacts
  ClassFacts LinearFacts BilFacts SymmetricFacts CycleFacts SymmetricLaws RingFacts TensorAct LoopFacts AW SimplicialDiag SurjFacts SurjBoundary SurjLaws SurjCompose SurjCompose2.

(** ** counting caesuras *)
Definition cnt (k : list Z) (i j : Z) : Z := zlen (filter (fun e => (i <=? e) && (e <? j)) (caesuras k)).
Fixpoint cntr (off : Z) (k : list Z) (i j : Z) : Z :=
  match k with [] => 0 | a :: k' => (if mem a k' && ((i <=? off) && (off <? j)) then 1 else 0) + cntr (off + 1) k' i j end.
Lemma zlen_filter_sumf {B} (p : B -> bool) l : zlen (filter p l) = sumf (fun e => if p e then 1 else 0) l.
Proof. induction l as [|a l IH]; [reflexivity|]. rewrite sumf_cons. cbn [filter]. destruct (p a); rewrite ?zlen_cons; lia. Qed.
Lemma cntr_splits k i j : forall off, cntr off k i j = sumf (fun s => if mem (snd (fst s)) (snd s) && ((i <=? off + zlen (fst (fst s))) && (off + zlen (fst (fst s)) <? j)) then 1 else 0) (splits k).
Proof.
  induction k as [|a k IH]; intros off; [reflexivity|]. rewrite splits_cons, sumf_cons, sumf_map. cbn [cntr fst snd]. rewrite Z.add_0_r. f_equal. rewrite IH.
  apply sumf_ext. intros [[l1 b] l2] _. cbn [fst snd]. rewrite zlen_cons. replace (off + (zlen l1 + 1)) with (off + 1 + zlen l1) by lia. reflexivity.
Qed.
Lemma cnt_cntr k i j : cnt k i j = cntr 0 k i j.
Proof.
  unfold cnt, caesuras. rewrite zlen_filter_sumf, sumf_map, sumf_filter, sumf_enumerate, cntr_splits. apply sumf_ext. intros [[l1 b] l2] Hin. apply splits_in in Hin. cbn [fst snd].
  rewrite Hin, slice_from_app_S, Z.add_0_l. destruct (mem b l2); reflexivity.
Qed.
Lemma cntr_0 k i j : forall off, j <= off -> cntr off k i j = 0.
Proof. induction k as [|a k IH]; intros off Ho; [reflexivity|]. cbn [cntr]. rewrite IH by lia. destruct (Z.ltb_spec off j); [lia|]. now rewrite !andb_false_r. Qed.
Lemma cntr_skip pre w i j : forall off, off + zlen pre <= i -> cntr off (pre ++ w) i j = cntr (off + zlen pre) w i j.
Proof.
  induction pre as [|a pre IH]; intros off Ho; [now rewrite Z.add_0_r|]. try rewrite zlen_cons in *. pose proof (zlen_nonneg pre). cbn [cntr app]. rewrite IH by lia.
  destruct (Z.leb_spec i off); [lia|]. cbn [andb]. rewrite andb_false_r. replace (off + 1 + zlen pre) with (off + (zlen pre + 1)) by lia. reflexivity.
Qed.
Lemma cntr_in A B : forall off i, i <= off -> cntr off (A ++ B) i (off + zlen A) = caesuras_in A B.
Proof.
  induction A as [|a A IH]; intros off i Ho; [cbn [app]; apply cntr_0; unfold zlen; cbn [length]; lia|]. rewrite zlen_cons. pose proof (zlen_nonneg A). cbn [cntr app caesuras_in].
  replace (off + (zlen A + 1)) with (off + 1 + zlen A) by lia. rewrite IH by lia. destruct (Z.leb_spec i off); [|lia]. destruct (Z.ltb_spec off (off + 1 + zlen A)); [|lia].
  now rewrite !andb_true_r.
Qed.
Lemma cnt_mid pre A B i j : i = zlen pre -> j = i + zlen A -> cnt (pre ++ A ++ B) i j = caesuras_in A B.
Proof. intros -> ->. rewrite cnt_cntr, cntr_skip by lia. rewrite Z.add_0_l. apply cntr_in. lia. Qed.
Lemma cnt_tail pre A i : A <> [] -> i = zlen pre -> cnt (pre ++ A) i (zlen (pre ++ A) - 1) = caesuras_in A [].
Proof.
  intros N E. destruct (exists_last N) as (A' & b & ->). rewrite (cnt_mid pre A' [b]); [|exact E|rewrite !zlen_app; change (zlen [b]) with 1; lia].
  rewrite caesuras_snoc. cbn. lia.
Qed.
Lemma cntr_split k i j l : forall off, i <= j <= l -> cntr off k i l = cntr off k i j + cntr off k j l.
Proof.
  induction k as [|a k IH]; intros off Hij; [reflexivity|]. cbn [cntr]. rewrite (IH (off + 1)) by assumption.
  destruct (mem a k); cbn [andb]; destruct (Z.leb_spec i off), (Z.leb_spec j off), (Z.ltb_spec off j), (Z.ltb_spec off l); cbn [andb]; lia.
Qed.
Lemma cnt_split k i j l : i <= j <= l -> cnt k i l = cnt k i j + cnt k j l.
Proof. rewrite !cnt_cntr. apply cntr_split. Qed.

(** ** the sign *)
Fixpoint EE (w1 w2 : list Z) : Z := match w2 with [] => 0 | w :: w2' => (if w =? 0 then 0 else zsum (tl w1) mod 2) + EE (tl w1) w2' end.
Lemma EE_code w2 : forall w1, zsum (map (fun '(idx, w) => if w =? 0 then 0 else zsum (slice_from w1 (idx + 1)) mod 2) (enumerate w2)) = EE w1 w2.
Proof.
  induction w2 as [|w w2 IH]; intros w1; [reflexivity|]. rewrite enumerate_cons. cbn [map EE]. rewrite map_map. cbn [zsum fold_right].
  replace (zsum (slice_from w1 (0 + 1))) with (zsum (tl w1)).
  2:{ rewrite slice_from_skipn by lia. now destruct w1. }
  f_equal. rewrite <- IH. unfold zsum. f_equal. apply map_ext_in. intros [idx w'] Hin. cbn [fst snd]. destruct (w' =? 0); [reflexivity|].
  apply in_enumerate in Hin. destruct Hin as (l1 & l2 & _ & ->). pose proof (zlen_nonneg l1). f_equal. f_equal. rewrite !slice_from_skipn by lia.
  destruct w1; [now rewrite !skipn_nil|]. replace (Z.to_nat (zlen l1 + 1 + 1)) with (Datatypes.S (Z.to_nat (zlen l1 + 1))) by lia. reflexivity.
Qed.
Fixpoint sgE (i : Z) (k : list Z) (ws : list Z) : Z :=
  match k with
  | [] => 0
  | a :: k' => if a =? i then match ws with w :: ws' => w * nc k + sgE i k' ws' | [] => 0 end else sgE i k' ws
  end.
Fixpoint pos (i off : Z) (k : list Z) : list Z := match k with [] => [] | a :: k' => if a =? i then off :: pos i (off + 1) k' else pos i (off + 1) k' end.
Lemma pos_code_off i k : forall off, map (fun p => fst p + off) (filter (fun p => snd p =? i) (enumerate k)) = pos i off k.
Proof.
  induction k as [|a k IH]; intros off; [reflexivity|]. rewrite enumerate_cons. cbn [filter snd pos].
  assert (E : map (fun p => fst p + off) (filter (fun p => snd p =? i) (map (fun p => (fst p + 1, snd p)) (enumerate k))) = pos i (off + 1) k).
  { rewrite <- IH. generalize (enumerate k) as l. induction l as [|[b c] l IHl]; [reflexivity|]. cbn [map filter snd fst]. destruct (c =? i); cbn [map fst snd]; [f_equal; [lia|]|]; apply IHl. }
  destruct (a =? i); cbn [map fst]; [f_equal|]; apply E.
Qed.
Lemma pos_code i k : map fst (filter (fun p => snd p =? i) (enumerate k)) = pos i 0 k.
Proof. rewrite <- pos_code_off. apply map_ext. intros p. lia. Qed.
Lemma zlen_pos i k : forall off, zlen (pos i off k) = times_in i k.
Proof. induction k as [|a k IH]; intros off; [reflexivity|]. cbn [pos times_in]. destruct (a =? i); rewrite ?zlen_cons, IH; lia. Qed.
Lemma pos_hd i k : forall off last e r, off + zlen k - 1 <= last -> off <= last + 1 -> pos i off k ++ [last] = e :: r -> off <= e + 1 /\ e <= last /\ (mem i k = true -> off <= e).
Proof.
  induction k as [|a k IH]; intros off last e r Hl Ho; [cbn; intros [= <- <-]; repeat split; try lia; discriminate|]. rewrite zlen_cons in Hl. pose proof (zlen_nonneg k).
  cbn [pos]. destruct (Z.eq_dec a i) as [->|N].
  - rewrite Z.eqb_refl. cbn [app]. intros [= <- <-]. lia.
  - rewrite (proj2 (Z.eqb_neq _ _) N). intros E. rewrite (mem_other i a) by congruence. 
    destruct k as [|a' k]; [cbn in *; injection E as <- <-; repeat split; try lia; discriminate|]. try rewrite zlen_cons in *. pose proof (zlen_nonneg k).
    destruct (IH (off + 1) last e r) as (H1 & H2 & H3); [rewrite ?zlen_cons; lia|lia|exact E|]. split; [lia|]. split; [lia|]. intros Hm. specialize (H3 Hm). lia.
Qed.
Lemma tele K i k : forall off b last, off + zlen k - 1 <= last -> b < off -> b <= last -> off <= last + 1 ->
  zsum (map (fun '(p, q) => cnt K p q mod 2) (pairwise (b :: pos i off k ++ [last]))) mod 2 = cnt K b last mod 2.
Proof.
  induction k as [|a k IH]; intros off b last Hl Hb Hb' Ho.
  - cbn [pos app]. rewrite pairwise_cons. cbn. rewrite Z.add_0_r. apply Z.mod_mod. lia.
  - rewrite zlen_cons in Hl. pose proof (zlen_nonneg k). cbn [pos]. destruct (Z.eqb_spec a i) as [->|N].
    + cbn [app]. rewrite pairwise_cons. cbn [map zsum fold_right]. destruct (Z.eq_dec off last) as [->|N2].
      * assert (k = []) by (destruct k; [reflexivity|try rewrite zlen_cons in *; pose proof (zlen_nonneg k); lia]). subst k. cbn [pos app]. rewrite pairwise_cons. cbn [map fold_right].
        change (pairwise [last]) with (@nil (Z * Z)). cbn [map fold_right]. rewrite (cnt_cntr K last last), (proj2 (Z.mul_cancel_l 0 0 1 ltac:(lia)) eq_refl) || idtac.
        assert (E : cnt K last last = 0). { pose proof (cnt_split K last last last ltac:(lia)). lia. } rewrite E, Z.mod_0_l, !Z.add_0_r by lia. apply Z.mod_mod. lia.
      * change (fold_right Z.add 0 ?l) with (zsum l). rewrite <- Zplus_mod_idemp_r, IH by lia. rewrite <- Zplus_mod. f_equal. rewrite (cnt_split K b off last) by lia. reflexivity.
    + destruct k as [|a' k]; [cbn [pos app]; rewrite pairwise_cons; cbn; rewrite Z.add_0_r; apply Z.mod_mod; lia|].
      try rewrite zlen_cons in *. pose proof (zlen_nonneg k). apply IH; rewrite ?zlen_cons; lia.
Qed.
Lemma mod2_eqb w x : (if w mod 2 =? 0 then 0 else x) mod 2 = (w * x) mod 2.
Proof. destruct (Z.eqb_spec (w mod 2) 0) as [E|E]; rewrite Zmult_mod; [now rewrite E|]. assert (E1 : w mod 2 = 1) by (pose proof (Z.mod_pos_bound w 2); lia). rewrite E1, Z.mul_1_l, Z.mod_mod by lia. reflexivity. Qed.
Lemma sgE_EE i k : forall pre K b ws, K = pre ++ k -> zlen ws = times_in i k ->
  EE (map (fun '(p, q) => cnt K p q mod 2) (pairwise (b :: pos i (zlen pre) k ++ [zlen K - 1]))) (map (fun w => w mod 2) ws) mod 2 = sgE i k ws mod 2.
Proof.
  induction k as [|a k IH]; intros pre K b ws EK Hw.
  - destruct ws as [|w ws]; [reflexivity|]. rewrite zlen_cons in Hw. cbn in Hw. pose proof (zlen_nonneg ws). lia.
  - cbn [pos sgE times_in] in *. assert (EK' : K = (pre ++ [a]) ++ k) by (rewrite <- app_assoc; exact EK).
    assert (L : zlen (pre ++ [a]) = zlen pre + 1) by (rewrite zlen_app; reflexivity). pose proof (zlen_nonneg k). pose proof (zlen_nonneg pre).
    destruct (Z.eqb_spec a i) as [->|N].
    + destruct ws as [|w ws]. { pose proof (times_nonneg i k). change (zlen (@nil Z)) with 0 in Hw. cbv iota in Hw. lia. } rewrite zlen_cons in Hw. cbv iota in Hw. assert (Hw' : zlen ws = times_in i k) by lia. cbn [app]. rewrite pairwise_cons. cbn [map EE tl].
      rewrite Zplus_mod, mod2_eqb. rewrite <- L, (IH (pre ++ [i]) K) by assumption. rewrite L.
      rewrite Zmult_mod, Z.mod_mod by lia. rewrite (tele K i k (zlen pre + 1) (zlen pre) (zlen K - 1)); try (rewrite EK, zlen_app, zlen_cons; lia); try lia.
      rewrite <- Zmult_mod, <- Zplus_mod. f_equal. f_equal. f_equal. unfold nc. rewrite EK. apply cnt_tail; [discriminate|reflexivity].
    + rewrite <- L. apply IH; [exact EK'|lia].
Qed.
Lemma bf_sign_code i k1 p k2 : zlen p = times_in i k1 + 1 -> 
  bf_sign (pos i 0 k1) k1 p k2 = sgn (sgE i k1 (map (fun '(a, b) => cnt k2 a b) (pairwise p))).
Proof.
  intros Hp. unfold bf_sign, cae_weights. rewrite EE_code. apply sgn_eqm. unfold eqm.
  pose proof (sgE_EE i k1 [] k1 0 (map (fun '(a, b) => cnt k2 a b) (pairwise p)) eq_refl) as H. cbn [app zlen length Z.of_nat] in H. rewrite map_map in H.
  assert (E : zlen (map (fun '(a, b) => cnt k2 a b) (pairwise p)) = times_in i k1).
  { unfold zlen at 1. rewrite map_length. unfold pairwise. rewrite combine_length. destruct p as [|a p]; [change (zlen (@nil Z)) with 0 in Hp; pose proof (times_nonneg i k1); lia|]. cbn [tl]. rewrite zlen_cons in Hp. unfold zlen in Hp. cbn [length]. lia. }
  specialize (H E). unfold cnt in *. cbn [app]. 
  replace (map (fun '(i0, j) => zlen (filter (fun e => (i0 <=? e) && (e <? j)) (caesuras k2)) mod 2) (pairwise p))
    with (map (fun x : Z * Z => (let '(a, b) := x in zlen (filter (fun e => (a <=? e) && (e <? b)) (caesuras k2))) mod 2) (pairwise p)).
  2:{ apply map_ext. intros [a b]. reflexivity. }
  match goal with |- (2 | ?a - ?b) => change (eqm 2 a b); rewrite <- (eqm_mod 2 a), <- (eqm_mod 2 b) by lia end. change (zlen (@nil Z)) with 0 in H. rewrite H. reflexivity.
Qed.

(** ** the sum over the decompositions *)
Definition up (i s a : Z) : Z := if a <? i then a else a + s - 1.
Definition sh (i c : Z) : Z := c + i - 1.
Fixpoint ck (i s : Z) (k : list Z) (ins : list (list Z)) : list Z :=
  match k with
  | [] => []
  | a :: k' => if a =? i then match ins with part :: ins' => part ++ ck i s k' ins' | [] => [] end else up i s a :: ck i s k' ins
  end.
Lemma compose_key_ck i s k : forall ins, zlen ins = times_in i k -> compose_key k i (Some s) ins = Ok (ck i s k ins).
Proof.
  induction k as [|a k IH]; intros ins Hi; [reflexivity|]. cbn [compose_key ck times_in] in *. unfold up. destruct (Z.ltb_spec a i) as [L|L].
  - destruct (Z.eqb_spec a i); [lia|]. rewrite IH by lia. reflexivity.
  - destruct (Z.eqb_spec a i) as [->|N]; [|rewrite IH by lia; reflexivity].
    destruct ins as [|p ins]. { pose proof (times_nonneg i k). change (zlen (@nil (list Z))) with 0 in Hi. lia. } rewrite zlen_cons in Hi. rewrite IH by lia. reflexivity.
Qed.
Lemma ck_notin i s k ins : times_in i k = 0 -> ck i s k ins = map (up i s) k.
Proof.
  induction k as [|a k IH]; intros E; [reflexivity|]. cbn [ck times_in map] in *. pose proof (times_nonneg i k). destruct (Z.eqb_spec a i) as [->|N]; [lia|]. now rewrite IH by lia.
Qed.
Lemma sgE_notin i k ws : times_in i k = 0 -> sgE i k ws = 0.
Proof. induction k as [|a k IH]; intros E; [reflexivity|]. cbn [sgE times_in] in *. pose proof (times_nonneg i k). destruct (Z.eqb_spec a i) as [->|N]; [lia|]. now rewrite IH by lia. Qed.
Lemma mem_times i k : mem i k = (0 <? times_in i k).
Proof.
  induction k as [|a k IH]; [reflexivity|]. pose proof (times_nonneg i k). cbn [mem existsb times_in]. change (existsb (Z.eqb i) k) with (mem i k). rewrite IH, Z.eqb_sym.
  destruct (Z.eqb_spec a i); cbn [orb]; destruct (Z.ltb_spec 0 (times_in i k)); destruct (Z.ltb_spec 0 (1 + times_in i k)); try lia; reflexivity.
Qed.
Definition term (i s : Z) (k1 k2 : list Z) (g : list Z -> Z) (q : list Z) : Z :=
  sgn (sgE i k1 (map (fun '(a, b) => cnt k2 a b) (pairwise q))) * g (ck i s k1 (map (map (sh i)) (map (fun ab => slice k2 (fst ab) (snd ab + 1)) (pairwise q)))).
Lemma pairwise_snoc_ne {B} (b : B) p c : exists e r, p ++ [c] = e :: r /\ pairwise (b :: p ++ [c]) = (b, e) :: pairwise (p ++ [c]).
Proof. destruct (p ++ [c]) as [|e r] eqn:E; [now destruct p|]. exists e, r. split; [reflexivity|]. rewrite pairwise_cons. reflexivity. Qed.
Lemma ev_flat_map {B} g (f : B -> list (list Z * Z)) l : ev g (flat_map f l) = sumf (fun b => ev g (f b)) l.
Proof. unfold ev. now rewrite sumf_flat_map. Qed.
Lemma code_composites i s k2 k1 : 1 <= times_in i k1 -> forall pre suf g, suf <> [] -> k2 = pre ++ suf ->
  sumf (fun p => term i s k1 k2 g (zlen pre :: p ++ [zlen k2 - 1])) (cwr (Z.to_nat (times_in i k1 - 1)) (zrange (zlen pre) (zlen k2))) = ev g (surj_composites i s k1 suf).
Proof.
  induction k1 as [|a k1 IH]; intros Hn pre suf g Ns E2; [cbn [times_in] in Hn; lia|]. cbn [times_in surj_composites] in *. unfold term. cbn [ck sgE].
  destruct (Z.eqb_spec a i) as [->|N].
  - rewrite mem_times. pose proof (times_nonneg i k1) as Hk. replace (1 + times_in i k1 - 1) with (times_in i k1) by lia. destruct (Z.ltb_spec 0 (times_in i k1)) as [L|L].
    + replace (Z.to_nat (times_in i k1)) with (Datatypes.S (Z.to_nat (times_in i k1 - 1))) by lia. rewrite cwr_zrange, sumf_flat_map, ev_flat_map.
      assert (E3 : zlen k2 = zlen pre + zlen suf) by (subst; apply zlen_app). pose proof (zlen_nonneg pre). pose proof (zlen_nonneg suf).
      replace (zrange (zlen pre) (zlen k2)) with (map (fun i => i + zlen pre) (zrange 0 (zlen suf))) by (rewrite <- zrange_shift; f_equal; lia).
      rewrite sumf_map, sumf_zrange_splits, cuts_splits. apply sumf_ext. intros [[A b] B] Hin. apply splits_in in Hin. cbn [fst snd].
      assert (E4 : k2 = (pre ++ A) ++ b :: B) by (subst; now rewrite app_assoc). assert (L4 : zlen (pre ++ A) = zlen A + zlen pre) by (rewrite zlen_app; ring).
      transitivity (sgn (caesuras_in A (b :: B) * caesuras_in (i :: k1) []) * ev (fun w => g (map (sh i) (A ++ [b]) ++ w)) (surj_composites i s k1 (b :: B))).
      2:{ unfold ev. rewrite sumf_map, <- sumf_scal. apply sumf_ext. intros [w v] _. cbn [fst snd]. unfold sh. ring. }
      specialize (IH ltac:(lia) (pre ++ A) (b :: B) (fun w => g (map (sh i) (A ++ [b]) ++ w)) ltac:(discriminate) E4). rewrite L4 in IH. rewrite <- IH, sumf_map, <- sumf_scal.
      apply sumf_ext. intros p _. unfold term. cbn [app].
      rewrite pairwise_cons. destruct (pairwise_snoc_ne (zlen A + zlen pre) p (zlen k2 - 1)) as (e & r & Ee & ->). cbn [map fst snd].
      rewrite sgn_add. rewrite E2, Hin at 1. rewrite (cnt_mid pre A (b :: B)) by (reflexivity || lia).
      replace (slice k2 (zlen pre) (zlen A + zlen pre + 1)) with (A ++ [b]) by (rewrite E2, Hin; symmetry; apply slice_app_mid; lia).
      rewrite <- Z.mul_assoc. f_equal.
    + assert (E0 : times_in i k1 = 0) by lia. rewrite E0. cbn [Z.to_nat cwr]. rewrite sumf_cons, sumf_nil, Z.add_0_r. cbn [app]. rewrite pairwise_cons. cbn [map fst snd].
      change (pairwise [zlen k2 - 1]) with (@nil (Z * Z)). cbn [map]. rewrite sgE_notin, ck_notin by assumption. rewrite Z.add_0_r. unfold ev. rewrite sumf_cons, sumf_nil, Z.add_0_r. cbn [fst snd].
      rewrite E2, cnt_tail by (auto). rewrite slice_tail by (auto; lia). f_equal. 
  - rewrite Z.add_0_l in Hn |- *. specialize (IH Hn pre suf (fun w => g (up i s a :: w)) Ns E2). unfold term in IH. etransitivity; [exact IH|]. unfold ev. rewrite sumf_map. apply sumf_ext. intros [w v] _. reflexivity.
Qed.
