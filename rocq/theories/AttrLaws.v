(** * Arity and degree of group ring, surjection and Barratt-Eccles elements (C72) *)
From Verif Require Import PyBase Dict FreeModule Symmetric Simplicial Cubical Utils Surjection BarrattEccles Eqm Spec SpecChain SpecOperad FreeModuleFacts FreeModuleLaws ListFacts
  ClassFacts LinearFacts SymmetricFacts SymmetricLaws RingFacts TensorAct LoopFacts SimplicialLaws SpecAttr BEFacts BELaws BECompose ZeroLaws.

Lemma py_max_some l : l <> [] -> exists m, py_max l = Ok m.
Proof. destruct l; [congruence|]. intros _. eexists. reflexivity. Qed.
Definition mx (l : list Z) : Z := match py_max l with Ok m => m | Err _ => 0 end.
Lemma mx_ok l : l <> [] -> py_max l = Ok (mx l).
Proof. intros N. destruct (py_max_some l N) as [m E]. unfold mx. now rewrite E. Qed.
Lemma mx_largest l m : l <> [] -> mx l = m <-> largest m l.
Proof.
  intros N. rewrite <- (py_max_spec l m), (mx_ok l N). split; [now intros ->|now intros [= ->]].
Qed.
Lemma dempty_nil {K} (d : list (K * Z)) : dempty d = true <-> d = [].
Proof. destruct d; split; try discriminate; reflexivity. Qed.
Lemma res_some (o : option Z) n (P : Prop) : (o = Some n <-> P) -> ((Ok o : res (option Z)) = Ok (Some n) <-> P).
Proof. intros <-. split; [now intros [= ->]|now intros ->]. Qed.
Lemma match_ok l : match zset l with [m] => Ok (Some m) | _ => Ok None end = (Ok (match zset l with [m] => Some m | _ => None end) : res (option Z)).
Proof. now destruct (zset l) as [|? [|? ?]]. Qed.
Lemma zero_none {K A} (x : elt K A) n (P : Prop) : dempty (data x) = true -> (Ok None : res (option Z)) = Ok (Some n) <-> ~ is_zero x /\ P.
Proof. intros E. apply dempty_nil in E. split; [discriminate|]. intros [N _]. now destruct N. Qed.
Lemma keys_in_iff {K A} (P Q R : K -> Prop) (x : elt K A) : keys_in R x -> (forall k, R k -> P k <-> Q k) -> keys_in P x <-> keys_in Q x.
Proof. intros HR E. split; intros H k v Hin; apply (E k (HR _ _ Hin)); exact (H _ _ Hin). Qed.

(** #C72_ring_arity# The arity of a group ring element is [n] exactly when the element is not zero and [n] is the largest value of every one of its keys; otherwise it is [None]. *)
Lemma C72_ring_arity_l (x : ring) : keys_in (fun k => kval k <> []) x ->
  exists o, ring_arity x = Ok o /\ forall n, o = Some n <-> ~ is_zero x /\ keys_in (fun k => largest n (kval k)) x.
Proof.
  intros Kx. unfold ring_arity. destruct (dempty (data x)) eqn:E.
  - exists None. split; [reflexivity|]. intros n. apply dempty_nil in E. split; [discriminate|]. intros [N _]. now destruct N.
  - rewrite (mapM_map _ (fun k => mx (kval k))) by (intros k Hk; apply in_map_iff in Hk; destruct Hk as ([k' v] & <- & Hk); apply mx_ok; exact (Kx _ _ Hk)). cbn [bind]. rewrite match_ok. eexists. split; [reflexivity|]. intros n.
    rewrite opt_of_zset, keys_of. rewrite (keys_in_iff (fun k => mx (kval k) = n) (fun k => largest n (kval k)) _ x Kx); [reflexivity|]. intros k Hk. now apply mx_largest.
Qed.
(** #C72_surj_arity_degree# The same for surjection elements; the degree is [d] exactly when every key has [d] entries more than its largest value. *)
Lemma C72_surj_arity_degree_l (x : surj) : keys_in (fun k => k <> []) x ->
  (exists o, surj_arity x = Ok o /\ forall n, o = Some n <-> ~ is_zero x /\ keys_in (largest n) x) /\
  (exists o, surj_degree x = Ok o /\ forall d, o = Some d <-> ~ is_zero x /\ keys_in (fun k => largest (zlen k - d) k) x).
Proof.
  intros Kx. unfold surj_arity, surj_degree. destruct (dempty (data x)) eqn:E.
  - apply dempty_nil in E. split; exists None; (split; [reflexivity|]); intros n; (split; [discriminate|]); intros [N _]; now destruct N.
  - split.
    + rewrite (mapM_map _ mx) by (intros k Hk; apply in_map_iff in Hk; destruct Hk as ([k' v] & <- & Hk); apply mx_ok; exact (Kx _ _ Hk)). cbn [bind]. rewrite match_ok. eexists. split; [reflexivity|]. intros n.
      rewrite opt_of_zset, keys_of. rewrite (keys_in_iff (fun k => mx k = n) (largest n) _ x Kx); [reflexivity|]. intros k Hk. now apply mx_largest.
    + rewrite (mapM_map _ (fun k => zlen k - mx k)) by (intros k Hk; apply in_map_iff in Hk; destruct Hk as ([k' v] & <- & Hk); rewrite mx_ok by exact (Kx _ _ Hk); reflexivity). cbn [bind]. rewrite match_ok. eexists. split; [reflexivity|]. intros d.
      rewrite opt_of_zset, keys_of. rewrite (keys_in_iff (fun k => zlen k - mx k = d) (fun k => largest (zlen k - d) k) _ x Kx); [reflexivity|]. intros k Hk. rewrite <- (mx_largest k _ Hk). lia.
Qed.
(** #C72_be_arity# For Barratt-Eccles elements: every entry of every key has the largest value [n]. *)
Lemma C72_be_arity_l (x : bee) : keys_in (fun k => k <> [] /\ forall s, In s k -> s <> []) x ->
  exists o, be_arity x = Ok o /\ forall n, o = Some n <-> ~ is_zero x /\ keys_in (fun k => forall s, In s k -> largest n s) x.
Proof.
  intros Kx. unfold be_arity. destruct (dempty (data x)) eqn:E.
  - exists None. split; [reflexivity|]. intros n. apply dempty_nil in E. split; [discriminate|]. intros [N _]. now destruct N.
  - rewrite (mapM_map _ (fun k => map mx k)).
    2:{ intros k Hk. apply in_map_iff in Hk. destruct Hk as ([k' v] & <- & Hk). apply mapM_map. intros s Hs. apply mx_ok. exact (proj2 (Kx _ _ Hk) s Hs). }
    cbn [bind]. rewrite match_ok. eexists. split; [reflexivity|]. intros n. rewrite opt_of_zset. rewrite <- flat_map_concat_map. split.
    + intros [N Ha]. split; [intros Z0; unfold is_zero in Z0; unfold bee, bkey in *; rewrite Z0 in E; discriminate|]. intros k v Hin s Hs. apply mx_largest; [exact (proj2 (Kx _ _ Hin) s Hs)|]. apply Ha.
      apply in_flat_map. exists k. split; [apply in_map_iff; now exists (k, v)|now apply in_map].
    + intros [N Ha]. split.
      * unfold is_zero in N. unfold bee, bkey in *. destruct (data x) as [|[k v] d] eqn:Ed; [congruence|]. assert (Hin : In (k, v) (data x)) by (rewrite Ed; now left).
        destruct (Kx _ _ Hin) as [Nk _]. unfold dkeys. cbn [map fst flat_map]. destruct k; [congruence|discriminate].
      * intros m Hm. apply in_flat_map in Hm. destruct Hm as (k & Hk & Hm). apply in_map_iff in Hk. destruct Hk as ([k' v] & <- & Hk). apply in_map_iff in Hm. destruct Hm as (s & <- & Hs).
        apply mx_largest; [exact (proj2 (Kx _ _ Hk) s Hs)|exact (Ha _ _ Hk s Hs)].
Qed.
(** #C72_be_degree# The degree of a Barratt-Eccles element is [d] exactly when it is not zero and every key has d + 1 entries; otherwise it is None. *)
Lemma C72_be_degree_l (x : bee) (d : Z) : be_degree x = Some d <-> ~ is_zero x /\ keys_in (fun k => zlen k = d + 1) x.
Proof.
  rewrite (proj2 (C34_arity_degree_l 0 d x)). split; intros [N Hk]; (split; [exact N|]); intros k v Hin; specialize (Hk k v Hin); cbn beta in *; lia.
Qed.
(** #C72_support# The basis elements of a sum, difference, multiple or negative occur in the operands: homogeneous elements stay homogeneous. *)
Lemma C72_support_l {K A} `{KeyOk K} (c : pycls K) (dt n : Z) (x y : elt K A) (P : K -> Prop) :
  cls_ok c -> wf c x -> wf c y -> torsion y = torsion x -> attr y = attr x -> dt_ok dt (torsion x) ->
  (forall k, P k \/ ~ P k) -> (forall k k', keqb k k' = true -> P k -> P k') -> keys_in P x -> keys_in P y ->
  (exists z, add dt c x y = Ok z /\ keys_in P z) /\ (exists z, sub dt c x y = Ok z /\ keys_in P z) /\
  (exists z, neg dt c x = Ok z /\ keys_in P z) /\ (exists z, scale dt c n x = Ok z /\ keys_in P z).
Proof.
  intros Hc Wx Wy Ty Ay Hdt P1 P2 Kx Ky. pose proof (proj1 Wx) as Ht.
  assert (Dx : den c (torsion x) (attr x) (fun g => ev g (data x)) x) by (now apply den_self).
  assert (Dy : den c (torsion x) (attr x) (fun g => ev g (data y)) y) by (rewrite <- Ty, <- Ay; now apply den_self).
  assert (KP : kpred P) by (split; assumption).
  assert (Zx : forall g, (forall k, P k -> g k = 0) -> ev g (data x) = 0) by (intros g HZ; apply ev_zero; intros k v Hin; apply HZ; exact (Kx _ _ Hin)).
  assert (Zy : forall g, (forall k, P k -> g k = 0) -> ev g (data y) = 0) by (intros g HZ; apply ev_zero; intros k v Hin; apply HZ; exact (Ky _ _ Hin)).
  assert (Q : forall F z, den c (torsion x) (attr x) F z -> (forall g, (forall k, P k -> g k = 0) -> F g = 0) -> keys_in P z).
  { intros F z D HZ. apply (den_keys c Hc (torsion x) (attr x) F z P Ht KP D). intros g _ Hg. apply eqm_eq. now apply HZ. }
  split; [|split; [|split]].
  - destruct (add_den c Hc dt (torsion x) Ht Hdt (attr x) (attr x) _ _ x y Dx Dy) as (z & E & D). exists z. split; [exact E|]. apply (Q _ _ D). intros g HZ. rewrite Zx, Zy by exact HZ. ring.
  - destruct (sub_den c Hc dt (torsion x) Ht Hdt (attr x) (attr x) _ _ x y Dx Dy) as (z & E & D). exists z. split; [exact E|]. apply (Q _ _ D). intros g HZ. rewrite Zx, Zy by exact HZ. ring.
  - destruct (neg_den c Hc dt (torsion x) Ht Hdt (attr x) _ x Dx) as (z & E & D). exists z. split; [exact E|]. apply (Q _ _ D). intros g HZ. rewrite Zx by exact HZ. ring.
  - destruct (scale_den c Hc dt (torsion x) Ht Hdt (attr x) _ n x Dx) as (z & E & D). exists z. split; [exact E|]. apply (Q _ _ D). intros g HZ. rewrite Zx by exact HZ. ring.
Qed.
(** #C72_example# Homogeneous and mixed elements. *)
Example C72_example_l :
  let x := mkElt [([1; 2; 1; 3], 2); ([3; 2; 1; 2], -1)] 0 BF in let y := mkElt [([1; 2; 1], 1); ([3; 2; 1; 2], -1)] 0 BF in
  keys_in (fun k => k <> []) x /\ keys_in (largest 3) x /\ surj_arity x = Ok (Some 3) /\ surj_degree x = Ok (Some 1) /\
  surj_arity y = Ok None /\ surj_degree y = Ok (Some 1) /\
  be_arity (mkElt [([[1; 2]; [2; 1]], 3)] 0 tt) = Ok (Some 2) /\ ring_arity (mkElt [(SGE [2; 1], 3); (SGE [1], 1)] 0 tt) = Ok None.
Proof.
  cbn zeta. split; [intros k v [[= <- <-]|[[= <- <-]|[]]]; discriminate|]. split; [|repeat split].
  intros k v [[= <- <-]|[[= <- <-]|[]]]; (split; [cbn [In]; tauto|intros i Hi; cbn [In] in Hi; lia]).
Qed.
Lemma paths_ne p : forall q, paths p q <> [].
Proof.
  induction p as [|p IHp].
  - induction q as [|q IHq]; [discriminate|]. cbn [paths]. intros E. apply map_eq_nil in E. now apply IHq.
  - intros q E. destruct q; cbn [paths] in E; apply app_eq_nil in E; destruct E as [E _]; apply map_eq_nil in E; now apply (IHp _ E).
Qed.
Lemma paths_start p : forall q w, In w (paths p q) -> exists l, w = (0, 0) :: l.
Proof.
  induction p as [|p IHp].
  - induction q as [|q IHq]; intros w Hw; [destruct Hw as [<-|[]]; now exists []|]. cbn [paths] in Hw. apply in_map_iff in Hw. destruct Hw as (w' & <- & Hw). destruct (IHq _ Hw) as [l ->]. eexists. reflexivity.
  - induction q as [|q IHq]; intros w Hw; cbn [paths] in Hw; apply in_app_iff in Hw; destruct Hw as [Hw|Hw].
    + apply in_map_iff in Hw. destruct Hw as (w' & <- & Hw). destruct (IHp _ _ Hw) as [l ->]. eexists. reflexivity.
    + destruct Hw.
    + apply in_map_iff in Hw. destruct Hw as (w' & <- & Hw). destruct (IHp _ _ Hw) as [l ->]. eexists. reflexivity.
    + apply in_map_iff in Hw. destruct Hw as (w' & <- & Hw). destruct (IHq _ Hw) as [l ->]. eexists. reflexivity.
Qed.
(** #C37_errors# Composition raises [TypeError] for different torsions, for operands that are not homogeneous in arity or degree and for a position above the arity, and [ValueError] for a position below 1. *)
Lemma C37_errors_l (dt i : Z) (x y : bee) :
  keys_in (fun k => k <> [] /\ forall s, In s k -> s <> []) x -> keys_in (fun k => k <> [] /\ forall s, In s k -> s <> []) y ->
  (torsion x <> torsion y -> be_compose dt x y i = Err TypeError) /\
  (forall z, z = x \/ z = y -> (forall n, ~ keys_in (fun k => forall s, In s k -> largest n s) z) -> be_compose dt x y i = Err TypeError) /\
  (forall z, z = x \/ z = y -> (forall d, ~ keys_in (fun k => zlen k = d + 1) z) -> be_compose dt x y i = Err TypeError) /\
  (forall n, wf cls_be x -> 1 <= n -> keys_in (be_simplex n) x -> n < i -> be_compose dt x y i = Err TypeError) /\
  (forall n m p q, wf cls_be x -> wf cls_be y -> torsion x = torsion y -> ~ is_zero x -> ~ is_zero y -> 1 <= n -> 1 <= m -> keys_in (be_cell n p) x -> keys_in (be_cell m q) y -> i < 1 -> be_compose dt x y i = Err ValueError).
Proof.
  intros Kx Ky. 
  assert (G : (exists e, e <> Ok tt /\ be_compose_check x y i = e /\ e = Err TypeError) \/ is_zero x \/ is_zero y -> be_compose dt x y i = Err TypeError).
  { intros [(e & _ & E & ->)|Hz]; [unfold be_compose; now rewrite E|]. now apply compose_zero_refuted_l. }
  assert (G' : be_compose_check x y i = Err TypeError \/ is_zero x \/ is_zero y -> be_compose dt x y i = Err TypeError).
  { intros [E|Hz]; [|apply G; now right]. unfold be_compose. now rewrite E. }
  assert (G2 : (forall a b c d, be_arity x = Ok a -> be_arity y = Ok b -> be_degree x = c -> be_degree y = d -> a = None \/ b = None \/ c = None \/ d = None \/ (exists n, a = Some n /\ n < i)) -> be_compose dt x y i = Err TypeError).
  { intros Hn. apply G'. destruct (dempty (data x)) eqn:Ex; [right; left; now apply dempty_nil|]. destruct (dempty (data y)) eqn:Ey; [right; right; now apply dempty_nil|]. left.
    unfold be_compose_check. destruct (negb _); [reflexivity|]. rewrite Ex, Ey. cbn [orb].
    destruct (C72_be_arity_l x Kx) as (a & Ea & _). destruct (C72_be_arity_l y Ky) as (b & Eb & _). rewrite Ea, Eb. cbn [bind]. specialize (Hn a b _ _ Ea Eb eq_refl eq_refl).
    destruct a, b, (be_degree x), (be_degree y); try reflexivity. destruct (Z.ltb_spec z i); [reflexivity|]. exfalso. destruct Hn as [Hn|[Hn|[Hn|[Hn|(n & [= <-] & L)]]]]; try discriminate. lia. }
  split; [|split; [|split; [|split]]].
  - intros N. apply G'. left. unfold be_compose_check. rewrite (proj2 (Z.eqb_neq _ _) N). reflexivity.
  - intros z Hz Hn. apply G2. intros a b c d Ea Eb _ _. destruct (C72_be_arity_l x Kx) as (a' & Ea' & Ha). destruct (C72_be_arity_l y Ky) as (b' & Eb' & Hb). assert (a' = a) by congruence. assert (b' = b) by congruence. subst a' b'.
    destruct Hz as [-> | ->]; [destruct a as [a|]; [|tauto]; destruct (proj1 (Ha a) eq_refl) as [_ Q]; now apply Hn in Q|destruct b as [b|]; [|tauto]; destruct (proj1 (Hb b) eq_refl) as [_ Q]; now apply Hn in Q].
  - intros z Hz Hn. apply G2. intros a b c d _ _ <- <-. assert (Hz' : be_degree z = None).
    { destruct (be_degree z) as [d|] eqn:E; [|reflexivity]. apply (proj2 (C34_arity_degree_l 0 d z)) in E. exfalso. apply (Hn d). intros k v Hin. pose proof (proj2 E _ _ Hin). cbn beta in *. lia. }
    destruct Hz as [-> | ->]; rewrite Hz'; tauto.
  - intros n Wx Hn Kn Hi. destruct (dempty (data x)) eqn:Ex; [apply G'; right; left; now apply dempty_nil|]. apply G2. intros a b c d Ea _ _ _. rewrite (be_arity_ok n) in Ea; auto. 2:{ intros Z0. unfold bee, bkey in *. rewrite Z0 in Ex. discriminate. }
    injection Ea as <-. do 4 right. exists n. split; [reflexivity|lia].
  - intros n m p q Wx Wy Et Nx Ny Hn Hm Cx Cy Hi. unfold be_compose, be_compose_check. rewrite Et, Z.eqb_refl. cbn [negb].
    destruct (dempty (data x)) eqn:Ex; [apply dempty_nil in Ex; contradiction|]. destruct (dempty (data y)) eqn:Ey; [apply dempty_nil in Ey; contradiction|]. cbn [orb].
    rewrite (be_arity_ok n), (be_arity_ok m), (be_degree_ok n p), (be_degree_ok m q) by (auto; intros k v Hin; first [exact (proj1 (Cx _ _ Hin))|exact (proj1 (Cy _ _ Hin))]). cbn [bind].
    rewrite (proj2 (Z.ltb_ge n i)) by lia. cbn [bind]. rewrite zero_data. cbn [bind].
    unfold is_zero in *. unfold bee, bkey in *. destruct (data x) as [|[k1 v1] d1] eqn:Dx; [congruence|]. destruct (data y) as [|[k2 v2] d2] eqn:Dy; [congruence|].
    assert (H1 : In (k1, v1) (data x)) by (rewrite Dx; now left). assert (H2 : In (k2, v2) (data y)) by (rewrite Dy; now left).
    destruct (paths (Z.to_nat p) (Z.to_nat q)) as [|w ws] eqn:Pw; [now apply paths_ne in Pw|]. destruct (paths_start (Z.to_nat p) (Z.to_nat q) w) as (l & ->); [rewrite Pw; now left|].
    cbn [list_prod map app for_ mapM].
    pose proof (Cx _ _ H1) as [S1 L1]. pose proof (proj1 (Kx _ _ H1)) as N1. pose proof (proj1 (Ky _ _ H2)) as N2. destruct k1 as [|a k1]; [congruence|]. destruct k2 as [|b k2]; [congruence|].
    change (py_get (a :: k1) 0) with (Ok a). change (py_get (b :: k2) 0) with (Ok b). cbn [bind]. unfold sg_compose.
    assert (Ei : py_index a i = Err ValueError).
    { apply py_index_notin. intros Hin. apply (perm_in n a i) in Hin; [lia|apply S1; now left]. }
    rewrite Ei. reflexivity.
Qed.
(** #C37_errors_example# *)
Example C37_errors_example_l :
  let x := mkElt [([[1; 2]; [2; 1]], 1)] 0 tt in let m := mkElt [([[1; 2]; [2; 1]], 1); ([[1; 2]], 1)] 0 tt in let z := mkElt [([[1; 2]; [2; 1]], 1)] 3 tt in
  be_compose 0 x x 3 = Err TypeError /\ be_compose 0 x x 0 = Err ValueError /\ be_compose 0 x m 1 = Err TypeError /\ be_compose 0 x z 1 = Err TypeError /\
  (exists r, be_compose 0 x x 1 = Ok r /\ zlen (data r) = 2).
Proof. cbn zeta. repeat split. eexists. split; vm_compute; reflexivity. Qed.
