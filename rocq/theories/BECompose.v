(** * Barratt-Eccles: operadic composition.  Proof library. *)
From Coq Require Import Setoid Morphisms.
From Verif Require Import PyBase Dict FreeModule Symmetric Simplicial Utils Surjection BarrattEccles Eqm Spec SpecOperad FreeModuleFacts FreeModuleLaws ListFacts
  ClassFacts LinearFacts SymmetricFacts CycleFacts SymmetricLaws RingFacts TensorAct LoopFacts ActGeneric BEFacts EZ.

(** ** sign of a path *)
Definition vert (v : Z * Z) : bool := (fst v =? 0) && (snd v =? 1).
Definition hor (v : Z * Z) : bool := (fst v =? 1) && (snd v =? 0).
Definition steps (path : list (Z * Z)) : list (Z * Z) := map (fun ba : (Z * Z) * (Z * Z) => (fst (snd ba) - fst (fst ba), snd (snd ba) - snd (fst ba))) (pairwise path).
Fixpoint crossings (vs : list (Z * Z)) : Z :=
  match vs with [] => 0 | v :: vs' => (if vert v then zlen (filter hor vs') else 0) + crossings vs' end.
Lemma sign_of_path_eq path : sign_of_path path = sgn (crossings (steps path)).
Proof.
  unfold sign_of_path. f_equal. change (map _ (pairwise path)) with (steps path). generalize (steps path). intros vs.
  change (sumf (fun '(idx, (a, b)) => if (a =? 0) && (b =? 1) then zlen (filter (fun '(a', b') => (a' =? 1) && (b' =? 0)) (slice_from vs (idx + 1))) else 0) (enumerate vs) = crossings vs).
  rewrite sumf_enumerate. transitivity (sumf (fun s : list (Z * Z) * (Z * Z) * list (Z * Z) => if vert (snd (fst s)) then zlen (filter hor (snd s)) else 0) (splits vs)).
  - apply sumf_ext. intros [[l1 [a b]] l2] Hin. apply splits_in in Hin. cbn [fst snd]. unfold vert. cbn [fst snd]. destruct (_ && _); [|reflexivity].
    subst vs. rewrite slice_from_app_S. f_equal. apply filter_ext. now intros [a' b'].
  - induction vs as [|v vs IH]; [reflexivity|]. rewrite splits_cons, sumf_cons, sumf_map. cbn [fst snd crossings]. f_equal. rewrite <- IH.
    apply sumf_ext. intros [[l1 a] l2] _. reflexivity.
Qed.
Lemma crossings_snoc vs v : crossings (vs ++ [v]) = crossings vs + (if hor v then zlen (filter vert vs) else 0).
Proof.
  induction vs as [|u vs IH]; cbn [app crossings filter].
  - rewrite zlen_nil. destruct (vert v), (hor v); reflexivity.
  - rewrite IH. rewrite filter_app, zlen_app. cbn [filter]. destruct (vert u), (hor v); cbn [filter]; rewrite ?zlen_cons, ?zlen_nil; lia.
Qed.
Lemma pairwise_snoc {B} (l : list B) a b : pairwise (l ++ [a; b]) = pairwise (l ++ [a]) ++ [(a, b)].
Proof.
  induction l as [|c l IH]; [reflexivity|]. cbn [app] in *. destruct l as [|c' l]; [reflexivity|]. cbn [app] in *. rewrite !pairwise_cons, IH. reflexivity.
Qed.
Lemma steps_snoc l a b : steps (l ++ [a; b]) = steps (l ++ [a]) ++ [(fst b - fst a, snd b - snd a)].
Proof. unfold steps. rewrite pairwise_snoc, map_app. reflexivity. Qed.
Lemma paths_ends p : forall q path, In path (paths p q) ->
  (exists l, path = l ++ [(Z.of_nat p, Z.of_nat q)]) /\ zlen (filter vert (steps path)) = Z.of_nat q.
Proof.
  assert (V : forall l (a b : Z * Z) m, zlen (filter vert (steps (l ++ [a]))) = m ->
     zlen (filter vert (steps (l ++ [a; b]))) = m + (if vert (fst b - fst a, snd b - snd a) then 1 else 0)).
  { intros l a b m E. rewrite steps_snoc, filter_app, zlen_app, E. cbn [filter]. destruct (vert _); reflexivity. }
  induction p as [|p IHp].
  - induction q as [|q IHq]; intros path Hin.
    + destruct Hin as [<-|[]]. split; [now exists []|reflexivity].
    + cbn [paths] in Hin. apply in_map_iff in Hin. destruct Hin as (path' & <- & Hin). destruct (IHq _ Hin) as [(l & ->) E]. split; [eauto|].
      rewrite <- app_assoc. cbn [app]. rewrite (V _ _ _ _ E). cbn [fst snd]. unfold vert. cbn [fst snd].
      replace (Z.of_nat (S q) - Z.of_nat q) with 1 by lia. cbn. lia.
  - induction q as [|q IHq]; intros path Hin.
    + cbn [paths] in Hin. rewrite app_nil_r in Hin. apply in_map_iff in Hin. destruct Hin as (path' & <- & Hin). destruct (IHp _ _ Hin) as [(l & ->) E]. split; [eauto|].
      rewrite <- app_assoc. cbn [app]. rewrite (V _ _ _ _ E). unfold vert. cbn [fst snd]. destruct (Z.eqb_spec (Z.of_nat (S p) - Z.of_nat p) 0); cbn; lia.
    + cbn [paths] in Hin. apply in_app_iff in Hin. destruct Hin as [Hin|Hin].
      * apply in_map_iff in Hin. destruct Hin as (path' & <- & Hin). destruct (IHp _ _ Hin) as [(l & ->) E]. split; [eauto|].
        rewrite <- app_assoc. cbn [app]. rewrite (V _ _ _ _ E). unfold vert. cbn [fst snd]. destruct (Z.eqb_spec (Z.of_nat (S p) - Z.of_nat p) 0); cbn [andb]; lia.
      * apply in_map_iff in Hin. destruct Hin as (path' & <- & Hin). destruct (IHq _ Hin) as [(l & ->) E]. split; [eauto|].
        rewrite <- app_assoc. cbn [app]. rewrite (V _ _ _ _ E). unfold vert. cbn [fst snd].
        replace (Z.of_nat (S q) - Z.of_nat q) with 1 by lia. replace (Z.of_nat (S p) - Z.of_nat (S p)) with 0 by lia. cbn [Z.eqb andb Pos.eqb]. lia.
Qed.
(** ** the sum over the paths *)
Definition EP (G : list (Z * Z) -> Z) (l : list (list (Z * Z))) : Z := sumf (fun path => sign_of_path path * G path) l.
Lemma EP_right G p q : EP G (map (fun path => path ++ [(Z.of_nat (S p), Z.of_nat q)]) (paths p q)) =
  sgn (Z.of_nat q) * EP (fun w => G (w ++ [(Z.of_nat (S p), Z.of_nat q)])) (paths p q).
Proof.
  unfold EP. rewrite sumf_map, <- sumf_scal. apply sumf_ext. intros path Hin. destruct (paths_ends _ _ _ Hin) as [(l & ->) E].
  rewrite !sign_of_path_eq, <- app_assoc. cbn [app]. rewrite steps_snoc, crossings_snoc. cbn [fst snd]. unfold hor at 1. cbn [fst snd].
  replace (Z.of_nat (S p) - Z.of_nat p) with 1 by lia. rewrite Z.sub_diag. cbn [Z.eqb andb Pos.eqb]. rewrite E, sgn_add. ring.
Qed.
Lemma EP_up G p q : EP G (map (fun path => path ++ [(Z.of_nat p, Z.of_nat (S q))]) (paths p q)) =
  EP (fun w => G (w ++ [(Z.of_nat p, Z.of_nat (S q))])) (paths p q).
Proof.
  unfold EP. rewrite sumf_map. apply sumf_ext. intros path Hin. destruct (paths_ends _ _ _ Hin) as [(l & ->) E].
  rewrite !sign_of_path_eq, <- app_assoc. cbn [app]. rewrite steps_snoc, crossings_snoc. cbn [fst snd]. unfold hor at 1. cbn [fst snd].
  rewrite Z.sub_diag. cbn [Z.eqb andb]. rewrite Z.add_0_r. reflexivity.
Qed.
Lemma zrange_0_S n : zrange 0 (Z.of_nat (S n) + 1) = zrange 0 (Z.of_nat n + 1) ++ [Z.of_nat (S n)].
Proof. replace (Z.of_nat (S n)) with (Z.of_nat n + 1) by lia. rewrite zrange_snoc by lia. reflexivity. Qed.
Lemma EE_paths p : forall q G, EE pair G (zrange 0 (Z.of_nat p + 1)) (zrange 0 (Z.of_nat q + 1)) = EP G (paths p q).
Proof.
  induction p as [|p IHp].
  - induction q as [|q IHq]; intros G.
    + change (zrange 0 (Z.of_nat 0 + 1)) with [0]. rewrite EE_single_l. unfold EP. cbn [paths]. rewrite sumf_cons, sumf_nil. cbn. destruct (G [(0,0)]); reflexivity.
    + rewrite zrange_0_S. change (zrange 0 (Z.of_nat 0 + 1)) with ([] ++ [0]) at 1. rewrite EE_snoc. cbn [app]. change [0] with (zrange 0 (Z.of_nat 0 + 1)). rewrite IHq, EE_nil_l.
      change (paths 0 (S q)) with (map (fun path => path ++ [(Z.of_nat 0, Z.of_nat (S q))]) (paths 0 q)). rewrite EP_up.
      replace (one [] (zrange 0 (Z.of_nat q + 1))) with 0 by (rewrite zrange_cons by lia; reflexivity). change (Z.of_nat 0) with 0. ring.
  - induction q as [|q IHq]; intros G.
    + change (zrange 0 (Z.of_nat 0 + 1)) with ([] ++ [0]). rewrite zrange_0_S, EE_snoc. change ([] ++ [0]) with (zrange 0 (Z.of_nat 0 + 1)). rewrite IHp, EE_nil_r.
      change (paths (S p) 0) with (map (fun path => path ++ [(Z.of_nat (S p), Z.of_nat 0)]) (paths p 0) ++ []). rewrite app_nil_r, EP_right. 
      replace (one (zrange 0 (Z.of_nat p + 1)) []) with 0 by (rewrite zrange_cons by lia; reflexivity). change (zlen (@nil Z)) with 0. change (Z.of_nat 0) with 0. ring.
    + rewrite (zrange_0_S p), (zrange_0_S q), EE_snoc. rewrite <- (zrange_0_S p), <- (zrange_0_S q), IHp, IHq.
      replace (one (zrange 0 (Z.of_nat p + 1)) (zrange 0 (Z.of_nat q + 1))) with 0 by (rewrite zrange_cons by lia; reflexivity).
      change (paths (S p) (S q)) with (map (fun path => path ++ [(Z.of_nat (S p), Z.of_nat (S q))]) (paths p (S q)) ++ map (fun path => path ++ [(Z.of_nat (S p), Z.of_nat (S q))]) (paths (S p) q)). unfold EP at 3. rewrite sumf_app. fold (EP G (map (fun path => path ++ [(Z.of_nat (S p), Z.of_nat (S q))]) (paths p (S q)))).
      fold (EP G (map (fun path => path ++ [(Z.of_nat (S p), Z.of_nat (S q))]) (paths (S p) q))). rewrite EP_right, EP_up.
      replace (zlen (zrange 0 (Z.of_nat q + 1))) with (Z.of_nat (S q)) by (rewrite zlen_zrange; lia). ring.
Qed.
Lemma EE_map {X Y X' Y' W} (f : X -> Y -> W) (h : X' -> X) (k : Y' -> Y) A : forall B g,
  EE f g (map h A) (map k B) = EE (fun x y => f (h x) (k y)) g A B.
Proof.
  induction A as [|a A IHA]; [reflexivity|]. induction B as [|b B IHB]; intros g; [reflexivity|]. cbn [map]. rewrite !EE_cons.
  change (k b :: map k B) with (map k (b :: B)). change (h a :: map h A) with (map h (a :: A)). rewrite IHA, IHB, zlen_map. f_equal. f_equal. f_equal.
  now destruct A, B.
Qed.
Lemma EE_pair {X Y W} (f : X -> Y -> W) A : forall B g, EE f g A B = EE pair (fun w => g (map (fun p => f (fst p) (snd p)) w)) A B.
Proof.
  induction A as [|a A IHA]; [reflexivity|]. induction B as [|b B IHB]; intros g; [reflexivity|]. rewrite !EE_cons, IHA, IHB. reflexivity.
Qed.
Lemma EE_fun {X Y W} (f f' : X -> Y -> W) A : forall B g, (forall a b, In a A -> In b B -> f a b = f' a b) -> EE f g A B = EE f' g A B.
Proof.
  induction A as [|a A IHA]; [reflexivity|]. induction B as [|b B IHB]; intros g E; [reflexivity|]. rewrite !EE_cons, E, IHA, IHB; cbn; auto.
  - intros. apply E; cbn; tauto.
  - intros. apply E; cbn; tauto.
Qed.
Lemma nth_zrange {B} (d : B) l : map (fun i => nth (Z.to_nat i) l d) (zrange 0 (zlen l)) = l.
Proof.
  induction l as [|b l IH]; [reflexivity|]. rewrite zlen_cons. pose proof (zlen_nonneg l). rewrite zrange_cons by lia. cbn [map].
  change (nth (Z.to_nat 0) (b :: l) d) with b. f_equal. rewrite <- IH at 2.
  replace (zrange (0 + 1) (zlen l + 1)) with (map (fun i => i + 1) (zrange 0 (zlen l))).
  - rewrite map_map. apply map_ext_in. intros i Hi. apply in_zrange in Hi. replace (Z.to_nat (i + 1)) with (S (Z.to_nat i)) by lia. reflexivity.
  - symmetry. apply zrange_shift.
Qed.

(** every vertex of a path lies in the grid *)
Lemma paths_bounds p : forall q path i j, In path (paths p q) -> In (i, j) path -> 0 <= i <= Z.of_nat p /\ 0 <= j <= Z.of_nat q.
Proof.
  induction p as [|p IHp].
  - induction q as [|q IHq]; intros path i j Hin Hij.
    + destruct Hin as [<-|[]]. destruct Hij as [[= <- <-]|[]]. lia.
    + change (paths 0 (S q)) with (map (fun path => path ++ [(Z.of_nat 0, Z.of_nat (S q))]) (paths 0 q)) in Hin.
      apply in_map_iff in Hin. destruct Hin as (path' & <- & Hin). apply in_app_iff in Hij. destruct Hij as [Hij|[[= <- <-]|[]]]; [|lia].
      specialize (IHq _ _ _ Hin Hij). lia.
  - induction q as [|q IHq]; intros path i j Hin Hij.
    + change (paths (S p) 0) with (map (fun path => path ++ [(Z.of_nat (S p), Z.of_nat 0)]) (paths p 0) ++ []) in Hin. rewrite app_nil_r in Hin.
      apply in_map_iff in Hin. destruct Hin as (path' & <- & Hin). apply in_app_iff in Hij. destruct Hij as [Hij|[[= <- <-]|[]]]; [|lia].
      specialize (IHp _ _ _ _ Hin Hij). lia.
    + change (paths (S p) (S q)) with (map (fun path => path ++ [(Z.of_nat (S p), Z.of_nat (S q))]) (paths p (S q)) ++ map (fun path => path ++ [(Z.of_nat (S p), Z.of_nat (S q))]) (paths (S p) q)) in Hin.
      apply in_app_iff in Hin. destruct Hin as [Hin|Hin]; apply in_map_iff in Hin; destruct Hin as (path' & <- & Hin); apply in_app_iff in Hij; (destruct Hij as [Hij|[[= <- <-]|[]]]; [|lia]).
      * specialize (IHp _ _ _ _ Hin Hij). lia.
      * specialize (IHq _ _ _ Hin Hij). lia.
Qed.

(** ** composition of elements *)
Definition gc (i : Z) (a b : list Z) : list Z := gcomp a b i.
Definition Pcomp (i : Z) (g : bkey -> Z) (k1 k2 : bkey) : Z := EE (gc i) g k1 k2.
Lemma good_ne (x : bee) k v : wf cls_be x -> In (k, v) (data x) -> k <> [].
Proof. intros Wx Hin ->. assert (Hb := proj2 (proj2 (proj2 Wx) [] v Hin)). discriminate. Qed.
Section Compose.
Variable dt : Z.
Lemma compose_den t n1 n2 p q i x y : 0 <= t -> dt_ok dt t -> 1 <= n1 -> 1 <= n2 -> 1 <= i <= n1 ->
  wf cls_be x -> torsion x = t -> keys_in (be_cell n1 p) x -> wf cls_be y -> torsion y = t -> keys_in (be_cell n2 q) y -> data x <> [] -> data y <> [] ->
  returns (be_compose dt x y i) (den cls_be t tt (fun g => ev (fun k1 => ev (fun k2 => Pcomp i g k1 k2) (data y)) (data x))).
Proof.
  intros Ht Hdt Hn1 Hn2 Hi Wx Tx Kx Wy Ty Ky Nx Ny. unfold be_compose, be_compose_check.
  rewrite Tx, Ty, Z.eqb_refl. cbn [negb]. rewrite (be_arity_ok n1) by (auto; eapply bdeg_bsim; eauto). rewrite (be_arity_ok n2) by (auto; eapply bdeg_bsim; eauto).
  rewrite (be_degree_ok n1 p), (be_degree_ok n2 q) by auto. 
  assert (E0 : dempty (data x) || dempty (data y) = false) by (destruct (data x), (data y); try congruence; reflexivity). rewrite E0. cbn [bind].
  destruct (Z.ltb_spec n1 i); [lia|]. cbn [bind].
  eapply returns_bind; [apply (zero_den cls_be ok_be dt t); auto|]. intros ans Hans. rewrite be_attr in Hans.
  eapply returns_mono.
  - apply (pair_loop_den cls_be ok_be t tt (data x) (data y) _ (fun k1 k2 g => Pcomp i g k1 k2)); [|exact Hans].
    intros k1 v1 k2 v2 F z H1 H2 Hz. pose proof (good_ne x k1 v1 Wx H1) as N1. pose proof (good_ne y k2 v2 Wy H2) as N2. apply Kx in H1. apply Ky in H2. destruct H1 as [S1 L1]. destruct H2 as [S2 L2].
    assert (P0 : 0 <= p) by (destruct k1; [congruence|]; rewrite zlen_cons in L1; pose proof (zlen_nonneg k1); lia).
    assert (Q0 : 0 <= q) by (destruct k2; [congruence|]; rewrite zlen_cons in L2; pose proof (zlen_nonneg k2); lia).
    set (new := fun path : list (Z * Z) => map (fun ij => gc i (znth [] k1 (fst ij)) (znth [] k2 (snd ij))) path).
    eapply returns_mono.
    + apply (for_den cls_be t (paths (Z.to_nat p) (Z.to_nat q)) _ (fun path g => (if t =? 2 then 1 else sign_of_path path) * v1 * v2 * g (new path)) tt); [|exact Hz].
      intros path F' z' Hin Hz'. cbn beta.
      rewrite (mapM_map _ (fun ij => gc i (znth [] k1 (fst ij)) (znth [] k2 (snd ij)))).
      * cbn [bind]. eapply returns_mono; [eapply (add_term_den cls_be ok_be dt t); eauto; apply be_okey|]. intros z1 Hz1. exact Hz1.
      * intros [a b] Hab. pose proof (paths_bounds _ _ _ _ _ Hin Hab). cbn [fst snd]. rewrite (py_get_in []) by lia. cbn [bind]. rewrite (py_get_in []) by lia. cbn [bind].
        apply (sg_compose_perm n1); auto. apply S1. apply nth_In. unfold zlen in L1. lia.
    + intros z1 Hz1. eapply den_ext; [|exact Hz1]. intros g Hg. cbn beta. apply eqm_add; [apply eqm_refl|].
      assert (EX : v1 * v2 * Pcomp i g k1 k2 = sumf (fun path => sign_of_path path * v1 * v2 * g (new path)) (paths (Z.to_nat p) (Z.to_nat q))).
      { unfold Pcomp. rewrite <- (nth_zrange [] k1) at 1. rewrite <- (nth_zrange [] k2) at 1. rewrite EE_map, EE_pair, L1, L2.
        replace (p + 1) with (Z.of_nat (Z.to_nat p) + 1) by lia. replace (q + 1) with (Z.of_nat (Z.to_nat q) + 1) by lia.
          rewrite EE_paths. unfold EP. rewrite <- sumf_scal. apply sumf_ext. intros path _. unfold new, znth. ring. }
      rewrite EX. apply sumf_eqm. intros path _. destruct (Z.eqb_spec t 2) as [->|]; [|apply eqm_refl].
      replace (1 * v1 * v2 * g (new path)) with (1 * (v1 * v2 * g (new path))) by ring. replace (sign_of_path path * v1 * v2 * g (new path)) with (sign_of_path path * (v1 * v2 * g (new path))) by ring.
      apply eqm_mul; [|apply eqm_refl]. symmetry. apply sgn_eqm2.
  - intros z Hz. eapply den_ext; [|exact Hz]. intros g _. cbn beta. apply eqm_eq. ring.
Qed.
Definition compose0 i := extended dt cls_be (fun x y => be_compose dt x y i).
Lemma bil_compose t n1 n2 p q i : 0 <= t -> dt_ok dt t -> 1 <= n1 -> 1 <= n2 -> 1 <= i <= n1 ->
  bilop cls_be cls_be cls_be t tt tt tt (be_cell n1 p) (be_cell n2 q) (Pcomp i) (compose0 i).
Proof.
  intros Ht Hdt Hn1 Hn2 Hi x y Wx Tx _ Kx Wy Ty _ Ky. unfold compose0, extended.
  destruct (data x) as [|px x'] eqn:Ex; [|destruct (data y) as [|py y'] eqn:Ey].
  - cbn [dempty orb]. eapply returns_mono; [apply (zero_den cls_be ok_be dt t); auto|]. intros z Hz. rewrite be_attr in Hz. exact Hz.
  - cbn [dempty orb]. eapply returns_mono; [apply (zero_den cls_be ok_be dt t); auto|]. intros z Hz. rewrite be_attr in Hz.
    eapply den_ext; [|exact Hz]. intros g _. cbn beta. apply eqm_eq. symmetry. apply ev_zero. reflexivity.
  - cbn [dempty orb]. rewrite <- Ex, <- Ey. apply (compose_den t n1 n2 p q); auto; congruence.
Qed.
Lemma grid_bdeg n1 n2 p q i k1 k2 w s : 1 <= n1 -> 1 <= n2 -> 1 <= i <= n1 -> be_cell n1 p k1 -> be_cell n2 q k2 -> In (w, s) (grid_paths (gc i) k1 k2) -> be_cell (n1 + n2 - 1) (p + q) w.
Proof.
  intros Hn1 Hn2 Hi [S1 L1] [S2 L2] Hin. destruct (grid_in _ _ _ _ _ Hin) as (L & C & _). split; [|lia].
  intros c Hc. destruct (C _ Hc) as (a & b & Ha & Hb & ->). apply perm_gcomp; auto; try lia.
Qed.
Lemma rep_compose n1 n2 p q i : 1 <= n1 -> 1 <= n2 -> 1 <= i <= n1 -> rep2 (be_cell n1 p) (be_cell n2 q) (be_cell (n1 + n2 - 1) (p + q)) (Pcomp i).
Proof.
  intros Hn1 Hn2 Hi k1 k2 H1 H2. exists (grid_paths (gc i) k1 k2). split; [|reflexivity]. intros w s Hin. eapply grid_bdeg; eauto.
Qed.
Lemma Pcomp_bad_l i g k1 k2 : (forall w s, In (w, s) (grid_paths (gc i) k1 k2) -> bbad w = true -> g w = 0) -> bbad k1 = true -> Pcomp i g k1 k2 = 0.
Proof.
  intros Hg Hb. unfold Pcomp, EE. apply ev_zero. intros w s Hin. apply (Hg _ _ Hin). destruct k1 as [|a k1]; [destruct Hin|].
  apply bdup_bad, bdup_repeats. eapply grid_repeats_l; [|exact Hin]. now apply bdup_repeats.
Qed.
Lemma Pcomp_bad_r i g k1 k2 : (forall w s, In (w, s) (grid_paths (gc i) k1 k2) -> bbad w = true -> g w = 0) -> bbad k2 = true -> Pcomp i g k1 k2 = 0.
Proof.
  intros Hg Hb. unfold Pcomp. destruct k2 as [|b k2]; [apply EE_nil_r|]. apply ev_zero. intros w s Hin. apply (Hg _ _ Hin). 
  apply bdup_bad, bdup_repeats. eapply grid_repeats_r; [|exact Hin]. now apply bdup_repeats.
Qed.
Lemma adm_compose n1 n2 p q i : 1 <= n1 -> 1 <= n2 -> 1 <= i <= n1 -> adm2 cls_be cls_be cls_be (be_cell n1 p) (be_cell n2 q) (be_cell (n1 + n2 - 1) (p + q)) (Pcomp i).
Proof.
  intros Hn1 Hn2 Hi g [_ Hg]. split; intros k H _; apply admP_keyeq; intros k' H' Hb; rewrite be_bad in Hb; injection Hb as Hb.
  - apply Pcomp_bad_l; auto. intros w s Hin Hw. apply Hg; [eapply grid_bdeg; eauto|]. now rewrite be_bad, Hw.
  - apply Pcomp_bad_r; auto. intros w s Hin Hw. apply Hg; [eapply grid_bdeg; eauto|]. now rewrite be_bad, Hw.
Qed.
End Compose.
