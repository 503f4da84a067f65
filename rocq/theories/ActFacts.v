(** * The action of a word on a simplex: combinatorics.  Proof library. *)
From Coq Require Import Setoid Morphisms.
From Verif Require Import PyBase Dict FreeModule Symmetric Simplicial Utils Surjection Eqm Spec SpecChain SpecOperad SpecSurj SpecAction FreeModuleFacts FreeModuleLaws ListFacts
  ClassFacts LinearFacts Tensor SymmetricFacts SimplicialFacts AW SimplicialDiag SurjFacts SurjBoundary CycleFacts CubicalFacts.

Definition wt (L : list (Z * list Z)) : list (Z * Z) := map (fun p => (fst p, spx_dim (snd p))) L.
Definition joins (r : Z) (L : list (Z * list Z)) : list (list Z) := map (fun i => joined i L) (zrange 1 (r + 1)).
Lemma joined_app i L M : joined i (L ++ M) = joined i L ++ joined i M.
Proof. unfold joined. now rewrite filter_app, map_app, concat_app. Qed.
Lemma joined_cons i b s L : joined i ((b, s) :: L) = (if b =? i then s else []) ++ joined i L.
Proof. unfold joined. cbn [filter fst]. destruct (b =? i); reflexivity. Qed.
Lemma fdS_app h s s' : fdS h (s ++ s') = fdS (fun u => h (u ++ s')) s + sgn (zlen s) * fdS (fun u => h (s ++ u)) s'.
Proof.
  revert h. induction s as [|v s IH]; intros h; cbn [app].
  - rewrite (fdS_nil (fun u => h (u ++ s'))). change (zlen (@nil Z)) with 0. rewrite sgn_0, Z.mul_1_l, Z.add_0_l. reflexivity.
  - rewrite !fdS_cons, IH, zlen_cons, sgn_S. cbn [app]. ring.
Qed.
Lemma fdS_joined a L : forall h, fdS h (joined a L) =
  sumf (fun '(l1, p, l2) => if fst p =? a then sgn (zlen (joined a l1)) * fdS (fun s' => h (joined a l1 ++ s' ++ joined a l2)) (snd p) else 0) (splits L).
Proof.
  induction L as [|[b s] L IH]; intros h; [reflexivity|]. rewrite joined_cons, fdS_app, splits_cons, sumf_cons, sumf_map.
  cbn [fst snd]. rewrite (IH (fun u => h ((if b =? a then s else []) ++ u))). f_equal.
  - destruct (b =? a); [|reflexivity]. change (joined a []) with (@nil Z). rewrite zlen_nil, sgn_0. rewrite Z.mul_1_l. reflexivity.
  - rewrite <- sumf_scal. apply sumf_ext. intros [[l1 [c u]] l2] _. cbn [fst snd]. destruct (c =? a); [|ring].
    rewrite joined_cons, zlen_app, sgn_add. rewrite (fdS_ext _ (fun s' => h (((if b =? a then s else []) ++ joined a l1) ++ s' ++ joined a l2))); [ring|].
    intros w. now rewrite <- app_assoc.
Qed.
Lemma tD_joins r g L : (forall p, In p L -> 1 <= fst p <= r) ->
  tDS g (joins r L) =
  sumf (fun '(l1, p, l2) => sgn (sumf (fun c => spx_dim (joined c L)) (zrange 1 (fst p)) + zlen (joined (fst p) l1)) *
    fdS (fun s' => g (joins r (l1 ++ (fst p, s') :: l2))) (snd p)) (splits L).
Proof.
  intros HL. unfold joins at 1. rewrite tD_map by apply NoDup_zrange.
  transitivity (sumf (fun i => sumf (fun '(l1, p, l2) => if fst p =? i then sgn (sumf (fun c => spx_dim (joined c L)) (zrange 1 (fst p)) + zlen (joined (fst p) l1)) *
    fdS (fun s' => g (joins r (l1 ++ (fst p, s') :: l2))) (snd p) else 0) (splits L)) (zrange 1 (r + 1))).
  - apply sumf_ext. intros i Hi. apply in_zrange in Hi. rewrite (zrange_split 1 (r + 1) i) at 1 by lia. rewrite before_app.
    2:{ rewrite <- zrange_split by lia. apply NoDup_zrange. }
    rewrite (fdS_joined i L). rewrite <- sumf_scal. apply sumf_ext. intros [[l1 [b s]] l2] Hs. apply splits_in in Hs. cbn [fst snd].
    destruct (Z.eqb_spec b i) as [->|N]; [|ring]. rewrite sgn_add, Z.mul_assoc. f_equal.
    apply fdS_ext. intros w. f_equal. unfold joins. apply map_ext_in. intros j _. unfold upd. destruct (Z.eqb_spec j i) as [->|Nj].
    + rewrite joined_app, joined_cons, Z.eqb_refl. reflexivity.
    + rewrite Hs, !joined_app, !joined_cons. destruct (Z.eqb_spec i j); [congruence|]. reflexivity.
  - rewrite sumf_exch. apply sumf_ext. intros [[l1 [b s]] l2] Hs. apply splits_in in Hs. cbn [fst snd].
    assert (Hb : 1 <= b <= r) by (apply (HL (b, s)); rewrite Hs; apply in_or_app; right; now left).
    rewrite (zrange_split 1 (r + 1) b) by lia. rewrite sumf_app, sumf_cons, Z.eqb_refl.
    rewrite (sumf_0 _ (zrange 1 b)), (sumf_0 _ (zrange (b + 1) (r + 1))); [ring| |].
    + intros c Hc. apply in_zrange in Hc. destruct (Z.eqb_spec b c); [lia|reflexivity].
    + intros c Hc. apply in_zrange in Hc. destruct (Z.eqb_spec b c); [lia|reflexivity].
Qed.

(** ** Parities *)
Lemma sumf_1 {B} (l : list B) : sumf (fun _ => 1) l = zlen l.
Proof. induction l as [|b l IH]; [reflexivity|]. rewrite sumf_cons, IH, zlen_cons. ring. Qed.
Definition wsum (P : Z -> bool) (l : list (Z * Z)) : Z := sumf (fun p => if P (fst p) then snd p else 0) l.
Definition cnt (P : Z -> bool) (l : list (Z * Z)) : Z := sumf (fun p => if P (fst p) then 1 else 0) l.
Lemma aex_cons r a v l : action_exponent r ((a, v) :: l) = v * (r - a) + sumf (fun p => if fst p <? a then v * snd p + snd p else v) l + action_exponent r l.
Proof. cbn [action_exponent]. do 2 f_equal. apply (sumf_ext (fun '(b, w) => if b <? a then v * w + w else v)). now intros [b w] _. Qed.
Lemma aex_mid r l1 a v l2 : action_exponent r (l1 ++ (a, v) :: l2) =
  action_exponent r (l1 ++ l2) + v * (r - a) + sumf (fun p => if fst p <? a then v * snd p + snd p else v) l2 + sumf (fun p => if a <? fst p then snd p * v + v else snd p) l1.
Proof.
  induction l1 as [|[b w] l1 IH]; cbn [app].
  - rewrite aex_cons, sumf_nil. ring.
  - rewrite !aex_cons, IH, !sumf_app, !sumf_cons. cbn [fst snd]. ring.
Qed.
Lemma len_joined a L : zlen (joined a L) = sumf (fun p => if fst p =? a then snd p + 1 else 0) (wt L).
Proof.
  induction L as [|[b s] L IH]; [reflexivity|]. rewrite joined_cons, zlen_app, IH. change (wt ((b, s) :: L)) with ((b, spx_dim s) :: wt L). rewrite sumf_cons. cbn [fst snd]. unfold spx_dim.
  destruct (b =? a); [ring|]. rewrite zlen_nil. ring.
Qed.
Lemma dim_sum a L : 1 <= a -> (forall p, In p L -> 1 <= fst p) ->
  sumf (fun c => spx_dim (joined c L)) (zrange 1 a) = sumf (fun p => if fst p <? a then snd p + 1 else 0) (wt L) - (a - 1).
Proof.
  intros Ha HL. unfold spx_dim. rewrite sumf_sub, sumf_1, zlen_zrange, Z.max_r by lia. f_equal.
  rewrite (sumf_ext _ (fun c => sumf (fun p => if fst p =? c then snd p + 1 else 0) (wt L))) by (intros; apply len_joined).
  rewrite sumf_exch. apply sumf_ext. intros [b w] Hb. cbn [fst snd].
  assert (H1 : 1 <= b) by (unfold wt in Hb; apply in_map_iff in Hb; destruct Hb as (p & [= <- _] & Hp); auto).
  destruct (Z.ltb_spec b a).
  - rewrite (zrange_split 1 a b) by lia. rewrite sumf_app, sumf_cons, Z.eqb_refl, (sumf_0 _ (zrange 1 b)), (sumf_0 _ (zrange (b + 1) a)); [ring| |];
      intros c Hc; apply in_zrange in Hc; destruct (Z.eqb_spec b c); lia.
  - apply sumf_0. intros c Hc. apply in_zrange in Hc. destruct (Z.eqb_spec b c); lia.
Qed.
Lemma par_face r W1 a v W2 :
  eqm 2 (action_exponent r (W1 ++ (a, v) :: W2) + (sumf (fun p => if fst p <? a then snd p + 1 else 0) (W1 ++ (a, v) :: W2) - (a - 1) + sumf (fun p => if fst p =? a then snd p + 1 else 0) W1))
        (zlen W1 + zlen W2 + 1 - r + sumf snd W1 + action_exponent r (W1 ++ (a, v - 1) :: W2)).
Proof.
  assert (E2 : eqm 2 (sumf (fun p => (if fst p <? a then v * snd p + snd p else v) - (if fst p <? a then (v - 1) * snd p + snd p else v - 1) + (if fst p <? a then snd p + 1 else 0)) W2) (zlen W2)).
  { rewrite <- sumf_1. apply sumf_eqm. intros [b w] _. cbn [fst snd]. destruct (b <? a); [exists w|exists 0]; ring. }
  assert (E1 : eqm 2 (sumf (fun p => (if a <? fst p then snd p * v + v else snd p) - (if a <? fst p then snd p * (v - 1) + (v - 1) else snd p) + (if fst p <? a then snd p + 1 else 0) + (if fst p =? a then snd p + 1 else 0)) W1) (zlen W1 + sumf snd W1)).
  { rewrite <- sumf_1, <- sumf_add. apply sumf_eqm. intros [b w] _. cbn [fst snd]. exists 0.
    destruct (Z.ltb_spec a b), (Z.ltb_spec b a), (Z.eqb_spec b a); try lia; ring. }
  rewrite !sumf_add, sumf_sub in E1. rewrite !sumf_add, sumf_sub in E2. destruct E1 as [z1 E1], E2 as [z2 E2].
  rewrite !aex_mid, !sumf_app, !sumf_cons. cbn [fst snd]. rewrite Z.ltb_irrefl. exists (z1 + z2 + r - a).
  replace (v * (r - a)) with ((v - 1) * (r - a) + (r - a)) by ring. generalize ((v - 1) * (r - a)). lia.
Qed.
Lemma par_drop r W1 a W2 :
  eqm 2 (action_exponent r (W1 ++ (a, 0) :: W2) + (sumf (fun p => if fst p <? a then snd p + 1 else 0) (W1 ++ (a, 0) :: W2) - (a - 1) + sumf (fun p => if fst p =? a then snd p + 1 else 0) W1))
        (lessn a (map fst (W1 ++ (a, 0) :: W2)) - (a - 1) + times_in a (map fst W1) + action_exponent r (W1 ++ W2)).
Proof.
  assert (L : forall W : list (Z * Z), lessn a (map fst W) = sumf (fun p => if fst p <? a then 1 else 0) W).
  { induction W as [|[b w] W IH]; [reflexivity|]. cbn [map fst]. rewrite sumf_cons. unfold lessn in *. cbn [filter fst]. destruct (b <? a); rewrite ?zlen_cons, IH; ring. }
  assert (T : forall W : list (Z * Z), times_in a (map fst W) = sumf (fun p => if fst p =? a then 1 else 0) W).
  { induction W as [|[b w] W IH]; [reflexivity|]. cbn [map fst times_in]. now rewrite sumf_cons, IH. }
  rewrite L, T, !aex_mid, !sumf_app, !sumf_cons. cbn [fst snd]. rewrite Z.ltb_irrefl.
  assert (E2 : eqm 2 (sumf (fun p => (if fst p <? a then 0 * snd p + snd p else 0) + (if fst p <? a then snd p + 1 else 0)) W2) (sumf (fun p => if fst p <? a then 1 else 0) W2)).
  { apply sumf_eqm. intros [b w] _. cbn [fst snd]. destruct (b <? a); [exists w|exists 0]; ring. }
  assert (E1 : eqm 2 (sumf (fun p => (if a <? fst p then snd p * 0 + 0 else snd p) + (if fst p <? a then snd p + 1 else 0) + (if fst p =? a then snd p + 1 else 0)) W1)
     (sumf (fun p => if fst p <? a then 1 else 0) W1 + sumf (fun p => if fst p =? a then 1 else 0) W1)).
  { rewrite <- sumf_add. apply sumf_eqm. intros [b w] _. cbn [fst snd]. 
    destruct (Z.ltb_spec a b), (Z.ltb_spec b a), (Z.eqb_spec b a); try lia; [exists 0|exists w|exists w]; ring. }
  rewrite !sumf_add in E1. rewrite !sumf_add in E2. destruct E1 as [z1 E1], E2 as [z2 E2]. exists (z1 + z2). lia.
Qed.

(** ** The boundary of the joined pieces *)
Definition hasnil (u : list (list Z)) : bool := existsb (fun b => match b with [] => true | _ => false end) u.
Definition J (r : Z) (k : list Z) (g : list (list Z) -> Z) (u : list (list Z)) : Z :=
  if hasnil u then 0 else sgn (action_exponent r (wt (combine k u))) * g (joins r (combine k u)).
Lemma J_nil r k g u : In [] u -> J r k g u = 0.
Proof. intros H. unfold J, hasnil. rewrite (proj2 (existsb_exists _ u)); [reflexivity|]. exists []. auto. Qed.
Lemma fdS_nz G s : s <> [] -> fdS G s = fdS (fun s' => match s' with [] => 0 | _ => G s' end) s + (if zlen s =? 1 then G [] else 0).
Proof.
  destruct s as [|v [|w s]]; [congruence| |]; intros _.
  - rewrite !fdS_cons, !fdS_nil. change (zlen [v] =? 1) with true. cbv beta iota. ring.
  - rewrite !zlen_cons. pose proof (zlen_nonneg s). destruct (Z.eqb_spec (zlen s + 1 + 1) 1); [lia|]. rewrite Z.add_0_r.
    apply ev_ext. intros [|c u] e Hin; [|reflexivity]. apply dim_fbS in Hin. unfold spx_dim in Hin. rewrite !zlen_cons, zlen_nil in Hin. lia.
Qed.
Lemma combine_split (L : list (Z * list Z)) : combine (map fst L) (map snd L) = L.
Proof. induction L as [|[a b] L IH]; [reflexivity|]. cbn. now rewrite IH. Qed.
Lemma wt_app L M : wt (L ++ M) = wt L ++ wt M. Proof. apply map_app. Qed.
Lemma wt_cons a s L : wt ((a, s) :: L) = (a, spx_dim s) :: wt L. Proof. reflexivity. Qed.
Lemma zlen_wt L : zlen (wt L) = zlen L. Proof. apply zlen_map. Qed.
Lemma fst_wt L : map fst (wt L) = map fst L. Proof. unfold wt. rewrite map_map. reflexivity. Qed.
Lemma snd_wt L : sumf snd (wt L) = tdeg spx_dim (map snd L).
Proof. unfold wt, tdeg, sumf. now rewrite !map_map. Qed.
Definition msn (l1 : list Z) (a : Z) (l2 : list Z) : Z := lessn a (l1 ++ a :: l2) - (a - 1) + times_in a l1.
Lemma hasnil_app u v : hasnil (u ++ v) = hasnil u || hasnil v. Proof. apply existsb_app. Qed.
Lemma hasnil_cons b u : hasnil (b :: u) = (match b with [] => true | _ => false end) || hasnil u. Proof. reflexivity. Qed.
Lemma joins_nil r l1 a l2 : joins r (l1 ++ (a, []) :: l2) = joins r (l1 ++ l2).
Proof. unfold joins. apply map_ext. intros i. rewrite !joined_app, joined_cons. destruct (a =? i); reflexivity. Qed.
Lemma claimA r g L : (forall p, In p L -> 1 <= fst p <= r) -> hasnil (map snd L) = false ->
  sgn (action_exponent r (wt L)) * tDS g (joins r L) =
  sgn (zlen L - r) * tDS (J r (map fst L) g) (map snd L) +
  sumf (fun '(l1, p, l2) => if zlen (snd p) =? 1 then sgn (msn (map fst l1) (fst p) (map fst l2)) * J r (map fst (l1 ++ l2)) g (map snd (l1 ++ l2)) else 0) (splits L).
Proof.
  intros HL HN. rewrite tD_joins by exact HL. rewrite <- sumf_scal. rewrite tD_splits, splits_map, sumf_map, <- sumf_scal, <- sumf_add.
  apply sumf_ext. intros [[l1 [a s]] l2] Hs. apply splits_in in Hs. cbn [fst snd].
  assert (Ha : 1 <= a <= r) by (apply (HL (a, s)); rewrite Hs; apply in_or_app; right; now left).
  rewrite Hs, map_app, hasnil_app in HN. apply orb_false_iff in HN. destruct HN as [N1 HN]. cbn [map snd] in HN. rewrite hasnil_cons in HN. apply orb_false_iff in HN. destruct HN as [Ns N2].
  assert (Hne : s <> []) by (intros ->; discriminate).
  rewrite dim_sum by (try lia; intros p Hp; apply HL in Hp; lia). rewrite len_joined. 
  rewrite Hs, wt_app, wt_cons.
  set (A := sumf _ (wt l1 ++ _ :: wt l2) - (a - 1) + sumf _ (wt l1)).
  set (G := fun s' => g (joins r (l1 ++ (a, s') :: l2))).
  rewrite Z.mul_assoc, <- sgn_add. rewrite (fdS_nz G s Hne), Z.mul_add_distr_l. f_equal.
  - pose proof (par_face r (wt l1) a (spx_dim s) (wt l2)) as PF. fold A in PF. rewrite (sgn_eqm _ _ PF). rewrite !sgn_add, snd_wt, !zlen_wt.
    replace (zlen l1 + zlen l2 + 1 - r) with (zlen (l1 ++ (a, s) :: l2) - r) by (rewrite zlen_app, zlen_cons; ring).
    rewrite <- !Z.mul_assoc. do 2 f_equal. rewrite <- fdS_scal. apply ev_ext. intros s' e Hin. apply dim_fbS in Hin.
    unfold J. replace (map fst (l1 ++ (a, s) :: l2)) with (map fst (l1 ++ (a, s') :: l2)) by (rewrite !map_app; reflexivity).
    replace (map snd l1 ++ s' :: map snd l2) with (map snd (l1 ++ (a, s') :: l2)) by (rewrite !map_app; reflexivity).
    rewrite combine_split, map_app, hasnil_app, N1. cbn [map snd]. rewrite hasnil_cons.
    destruct s' as [|c s']; [cbn [orb]; ring|]. cbn [orb]. rewrite N2. rewrite wt_app, wt_cons, Hin. reflexivity.
  - destruct (Z.eqb_spec (zlen s) 1) as [E|E]; [|ring]. unfold J. rewrite combine_split, map_app, hasnil_app, N1, N2. cbn [orb].
    assert (D : spx_dim s = 0) by (unfold spx_dim; lia). unfold A. rewrite D.
    rewrite (sgn_eqm _ _ (par_drop r (wt l1) a (wt l2))). rewrite sgn_add. unfold G. rewrite joins_nil, wt_app.
    rewrite map_app. cbn [map fst]. rewrite !fst_wt. unfold msn. ring.
Qed.

(** ** Deleting a letter whose piece is a vertex *)
Lemma at_pos_S j (F : list (list Z) -> list Z -> list (list Z) -> Z) b u : 0 <= j -> at_pos (j + 1) F (b :: u) = at_pos j (fun u1 c u2 => F (b :: u1) c u2) u.
Proof.
  intros Hj. unfold at_pos. rewrite splits_cons, sumf_cons, sumf_map, zlen_nil. destruct (Z.eqb_spec 0 (j + 1)); [lia|]. rewrite Z.add_0_l.
  apply sumf_ext. intros [[u1 c] u2] _. cbn [fst snd]. rewrite zlen_cons. destruct (Z.eqb_spec (zlen u1 + 1) (j + 1)), (Z.eqb_spec (zlen u1) j); (lia || reflexivity).
Qed.
Lemma at_pos_0 (F : list (list Z) -> list Z -> list (list Z) -> Z) b u : at_pos 0 F (b :: u) = F [] b u.
Proof. exact (at_pos_app 0 F [] b u eq_refl). Qed.
Lemma aw_last H (s : list Z) : s <> [] -> (forall f b, zlen b <> 1 -> H f b = 0) -> exists x, aw H s = H s [x].
Proof.
  intros Hs HH. destruct (exists_last Hs) as (s0 & x & ->). exists x. rewrite aw_app_snoc, sumf_0; [ring|].
  intros [[m1 b] m2] _. apply HH. rewrite zlen_cons, zlen_app, zlen_cons, zlen_nil. pose proof (zlen_nonneg m2). lia.
Qed.
Lemma claimB m : forall j (h : list (list Z) -> Z) (s : list Z), s <> [] -> 0 <= j <= Z.of_nat m + 1 ->
  S (Datatypes.S m) (at_pos j (fun u1 b u2 => if zlen b =? 1 then h (u1 ++ u2) else 0)) s = S m h s.
Proof.
  induction m as [|m IH]; intros j h s Hs Hj.
  - cbn [S]. destruct (Z.eq_dec j 0) as [->|N].
    + destruct s as [|v w]; [congruence|]. rewrite aw_cons, at_pos_0. change (zlen [v] =? 1) with true. cbv iota. cbn [app].
      match goal with |- _ + ?e = _ => replace e with 0; [ring|] end. symmetry. apply sumf_0. intros [[l1 a] l2] _. rewrite at_pos_0.
      rewrite !zlen_cons, zlen_app, zlen_cons, zlen_nil. pose proof (zlen_nonneg l1). destruct (Z.eqb_spec (zlen l1 + (0 + 1) + 1) 1); [lia|reflexivity].
    + assert (j = 0 + 1) as -> by lia.
      destruct (aw_last (fun f b : list Z => at_pos (0 + 1) (fun u1 b u2 => if zlen b =? 1 then h (u1 ++ u2) else 0) [f; b]) s Hs) as (x & E).
      * intros f b Hb. rewrite at_pos_S, at_pos_0 by lia. destruct (Z.eqb_spec (zlen b) 1); [lia|reflexivity].
      * rewrite E. rewrite at_pos_S, at_pos_0 by lia. reflexivity.
  - destruct (Z.eq_dec j 0) as [->|N].
    + change (S (Datatypes.S (Datatypes.S m)) (at_pos 0 (fun u1 b u2 => if zlen b =? 1 then h (u1 ++ u2) else 0)) s) with
        (aw (fun f b => S (Datatypes.S m) (fun u => at_pos 0 (fun u1 b u2 => if zlen b =? 1 then h (u1 ++ u2) else 0) (f :: u)) b) s).
      destruct s as [|v w]; [congruence|]. rewrite aw_cons.
      match goal with |- _ + ?e = _ => replace e with 0 end.
      * rewrite Z.add_0_r. change (S (Datatypes.S m) (fun u => at_pos 0 (fun u1 b u2 => if zlen b =? 1 then h (u1 ++ u2) else 0) ([v] :: u)) (v :: w) = S (Datatypes.S m) h (v :: w)).
        apply S_ext. intros u. rewrite at_pos_0. reflexivity.
      * symmetry. apply sumf_0. intros [[l1 a] l2] _. rewrite S_sum. apply sumf_0. intros u _. rewrite at_pos_0.
        rewrite !zlen_cons, zlen_app, zlen_cons, zlen_nil. pose proof (zlen_nonneg l1). destruct (Z.eqb_spec (zlen l1 + (0 + 1) + 1) 1); [lia|reflexivity].
    + change (S (Datatypes.S (Datatypes.S m)) (at_pos j (fun u1 b u2 => if zlen b =? 1 then h (u1 ++ u2) else 0)) s) with
        (aw (fun f b => S (Datatypes.S m) (fun u => at_pos j (fun u1 b u2 => if zlen b =? 1 then h (u1 ++ u2) else 0) (f :: u)) b) s).
      change (S (Datatypes.S m) h s) with (aw (fun f b => S m (fun u => h (f :: u)) b) s).
      apply aw_ext. intros l1 a l2 _. replace j with (j - 1 + 1) by lia.
      rewrite (S_ext _ _ (at_pos (j - 1) (fun u1 b u2 => if zlen b =? 1 then h ((l1 ++ [a]) :: u1 ++ u2) else 0))) by (intros u; now rewrite at_pos_S by lia).
      apply (IH (j - 1) (fun u => h ((l1 ++ [a]) :: u))); [discriminate|lia].
Qed.
Lemma sum_pos (k : list Z) : forall (u : list (list Z)) (F : list Z -> Z -> list Z -> list (list Z) -> list Z -> list (list Z) -> Z), length u = length k ->
  sumf (fun '(l1, p, l2) => F (map fst l1) (fst p) (map fst l2) (map snd l1) (snd p) (map snd l2)) (splits (combine k u)) =
  sumf (fun '(k1, a, k2) => at_pos (zlen k1) (fun u1 b u2 => F k1 a k2 u1 b u2) u) (splits k).
Proof.
  induction k as [|a k IH]; intros [|b u] F L; try discriminate; [reflexivity|]. cbn [combine]. rewrite !splits_cons, !sumf_cons, !sumf_map. f_equal.
  - change (zlen (@nil Z)) with 0. rewrite at_pos_0. cbn [fst snd map]. injection L as L.
    assert (E1 : map fst (combine k u) = k) by (clear -L; revert u L; induction k as [|x k IH]; intros [|y u] L; try discriminate; [reflexivity|]; cbn; f_equal; auto).
    assert (E2 : map snd (combine k u) = u) by (clear -L; revert u L; induction k as [|x k IH]; intros [|y u] L; try discriminate; [reflexivity|]; cbn; f_equal; auto).
    now rewrite E1, E2.
  - injection L as L. pose proof (IH u (fun k1 c k2 u1 => F (a :: k1) c k2 (b :: u1)) L) as E.
    etransitivity; [|etransitivity; [exact E|]]; apply sumf_ext; intros [[l1 p] l2] _; cbn [fst snd map]; [reflexivity|].
    rewrite zlen_cons, at_pos_S by apply zlen_nonneg. reflexivity.
Qed.
Lemma front_back_nonnil t : forall (s : list Z) u, s <> [] -> In u (front_back t s) -> hasnil u = false.
Proof.
  induction t as [|t IH]; intros s u Hs Hu.
  - destruct Hu as [<-|[]]. destruct s; [congruence|reflexivity].
  - apply front_back_inv in Hu. destruct Hu as (l1 & a & l2 & u' & -> & -> & Hu'). rewrite hasnil_cons, (IH (a :: l2)) by (auto; discriminate). now destruct l1.
Qed.
Lemma front_back_len t (s : list Z) u : In u (front_back t s) -> length u = Datatypes.S t.
Proof. intros H. apply front_back_deg in H. destruct H as [_ H]. unfold zlen in H. lia. Qed.
Definition Psi (r : Z) (k : list Z) (g : list (list Z) -> Z) (s : list Z) : Z := S (length k - 1) (J r k g) s.
Lemma S_ext_in t (G G' : list (list Z) -> Z) s : (forall u, In u (front_back t s) -> G u = G' u) -> S t G s = S t G' s.
Proof. intros E. rewrite !S_sum. now apply sumf_ext. Qed.
Lemma map_fst_combine (k : list Z) (u : list (list Z)) : length u = length k -> map fst (combine k u) = k.
Proof. revert u. induction k as [|x k IH]; intros [|y u] L; try discriminate; [reflexivity|]. cbn. f_equal. auto. Qed.
Lemma map_snd_combine (k : list Z) (u : list (list Z)) : length u = length k -> map snd (combine k u) = u.
Proof. revert u. induction k as [|x k IH]; intros [|y u] L; try discriminate; [reflexivity|]. cbn. f_equal. auto. Qed.
Lemma S_add t (G G' : list (list Z) -> Z) s : S t (fun u => G u + G' u) s = S t G s + S t G' s.
Proof. rewrite !S_sum. apply sumf_add. Qed.
Lemma S_scal t c (G : list (list Z) -> Z) s : S t (fun u => c * G u) s = c * S t G s.
Proof. rewrite !S_sum. apply sumf_scal. Qed.
Lemma S_sumf {B} t (G : B -> list (list Z) -> Z) (l : list B) s : S t (fun u => sumf (fun b => G b u) l) s = sumf (fun b => S t (G b) s) l.
Proof. rewrite S_sum, sumf_exch. apply sumf_ext. intros b _. now rewrite S_sum. Qed.
Lemma ms_msn r l1 a l2 : onto r (l1 ++ a :: l2) -> ms_face_sign l1 a l2 = sgn (msn l1 a l2).
Proof.
  intros H. assert (Ha : 1 <= a) by (apply H; apply in_or_app; right; now left).
  unfold ms_face_sign, msn. f_equal. f_equal. rewrite lessn_sum by (intros b Hb; apply H in Hb; lia).
  change (zsum (map ?f ?l)) with (sumf f l). rewrite sumf_sub, sumf_1, zlen_zrange, Z.max_r by lia. reflexivity.
Qed.
Lemma joined_none a L : mem a (map fst L) = false -> joined a L = [].
Proof.
  induction L as [|[b s] L IH]; [reflexivity|]. cbn [map fst mem existsb]. rewrite joined_cons. intros E. apply orb_false_iff in E. destruct E as [E1 E2].
  rewrite Z.eqb_sym in E1. rewrite E1. exact (IH E2).
Qed.
Lemma act_chain r k g s : onto r k -> k <> [] -> s <> [] -> (forall v, In [] v -> g v = 0) ->
  Psi r k (tDS g) s = sgn (zlen k - r) * fdS (Psi r k g) s + sd MS (fun k' => Psi r k' g s) k.
Proof.
  intros Hk Nk Ns Hg. unfold Psi at 1 2. rewrite <- S_chain by (intros; now apply J_nil).
  transitivity (S (length k - 1) (fun u => sgn (zlen k - r) * tDS (J r k g) u +
     sumf (fun '(k1, a, k2) => at_pos (zlen k1) (fun u1 b u2 => if zlen b =? 1 then sgn (msn k1 a k2) * J r (k1 ++ k2) g (u1 ++ u2) else 0) u) (splits k)) s).
  - apply S_ext_in. intros u Hu. pose proof (front_back_nonnil _ _ _ Ns Hu) as Nu. apply front_back_len in Hu.
    assert (L : length u = length k) by (destruct k; [congruence|cbn in *; lia]).
    unfold J at 1. rewrite Nu. pose proof (map_fst_combine k u L) as E1. pose proof (map_snd_combine k u L) as E2.
    rewrite claimA.
    + rewrite E1, E2. f_equal.
      * f_equal. f_equal. f_equal. rewrite <- (map_length fst), E1 || (unfold zlen; rewrite combine_length, L, Nat.min_id; reflexivity).
      * rewrite <- (sum_pos k u (fun k1 a k2 u1 b u2 => if zlen b =? 1 then sgn (msn k1 a k2) * J r (k1 ++ k2) g (u1 ++ u2) else 0) L).
        apply sumf_ext. intros [[l1 p] l2] _. rewrite !map_app. reflexivity.
    + intros p Hp. apply Hk. rewrite <- E1. now apply in_map.
    + now rewrite E2.
  - rewrite S_add, S_scal. f_equal. rewrite (sd_faces MS _ k r Hk). unfold faceval.
    etransitivity; [apply (S_sumf _ (fun (p : list Z * Z * list Z) u => let '(k1, a, k2) := p in at_pos (zlen k1) (fun u1 b u2 => if zlen b =? 1 then sgn (msn k1 a k2) * J r (k1 ++ k2) g (u1 ++ u2) else 0) u))|].
    apply sumf_ext. intros [[k1 a] k2] Hs. apply splits_in in Hs. destruct (mem a (k1 ++ k2)) eqn:Em.
    + rewrite (ms_msn r) by (now rewrite <- Hs). unfold Psi. rewrite <- S_scal.
      assert (L : (length (k1 ++ k2) >= 1)%nat) by (destruct (k1 ++ k2); [discriminate|cbn; lia]).
      assert (L' : length k = Datatypes.S (length (k1 ++ k2))) by (rewrite Hs, !app_length; cbn; lia).
      replace (length k - 1)%nat with (Datatypes.S (length (k1 ++ k2) - 1)) by lia.
      apply (claimB _ (zlen k1) (fun w => sgn (msn k1 a k2) * J r (k1 ++ k2) g w)); [exact Ns|]. pose proof (zlen_nonneg k1). rewrite app_length in *. unfold zlen in *. lia.
    + rewrite S_sum. apply sumf_0. intros u Hu. apply sumf_0. intros [[u1 b] u2] _. destruct (zlen u1 =? zlen k1); [|reflexivity]. destruct (zlen b =? 1); [|reflexivity].
      unfold J. destruct (hasnil (u1 ++ u2)); [ring|]. rewrite Hg; [ring|]. unfold joins. apply in_map_iff. exists a. split.
      * apply joined_none. apply mem_notin. intros Hin. apply in_map_iff in Hin. destruct Hin as ([c w] & Ec & Hin). cbn in Ec. subst c. apply in_combine_l in Hin.
        apply (mem_in a) in Hin. congruence.
      * apply in_zrange. assert (In a k) by (rewrite Hs; apply in_or_app; right; now left). apply Hk in H. lia.
Qed.
