(** * The complexity filtration is compatible with composition. *)
From Coq Require Import Setoid Morphisms.
From Verif Require Import PyBase Dict FreeModule Symmetric Simplicial Utils Surjection Eqm Spec SpecChain SpecOperad SpecSurj FreeModuleFacts FreeModuleLaws ListFacts
  ClassFacts LinearFacts BilFacts SymmetricFacts CycleFacts SymmetricLaws RingFacts TensorAct LoopFacts AW SimplicialDiag SurjFacts SurjBoundary SurjLaws SurjAct SurjLaws3 SurjCompose SurjCompose2 SurjCompose3 SurjCompose4 SurjLaws6.

(** [l] arises from [l'] by deleting and repeating letters. *)
Inductive R : list Z -> list Z -> Prop :=
| R_nil : R [] []
| R_keep a l l' : R l l' -> R (a :: l) (a :: l')
| R_dup a l l' : R (a :: l) (a :: l') -> R (a :: a :: l) (a :: l')
| R_del a l l' : R l l' -> R l (a :: l').

Definition dd (a b : Z) : Z := if a =? b then 0 else 1.
Lemma changes2 a b l : changes (a :: b :: l) = dd a b + changes (b :: l). Proof. reflexivity. Qed.
Lemma changes_tri a b l : changes (a :: l) <= dd a b + changes (b :: l).
Proof.
  destruct l as [|c l]; [change (changes [a]) with 0; change (changes [b]) with 0; unfold dd; destruct (a =? b); lia|].
  rewrite !changes2. unfold dd. destruct (Z.eqb_spec a c), (Z.eqb_spec a b), (Z.eqb_spec b c); lia.
Qed.
Lemma changes_tail a l : changes l <= changes (a :: l).
Proof. destruct l as [|c l]; [change (changes []) with 0; change (changes [a]) with 0; lia|]. rewrite changes2. unfold dd. destruct (a =? c); lia. Qed.
Lemma R_changes_p l l' : R l l' -> forall p, changes (p :: l) <= changes (p :: l').
Proof.
  induction 1 as [|a l l' H IH|a l l' H IH|a l l' H IH]; intros p; [lia| | |].
  - rewrite !changes2. specialize (IH a). lia.
  - specialize (IH p). rewrite changes2 in IH |- *. rewrite changes2. replace (dd a a) with 0 by (unfold dd; now rewrite Z.eqb_refl). lia.
  - rewrite changes2. specialize (IH a). pose proof (changes_tri p a l). lia.
Qed.
Lemma R_changes l l' : R l l' -> changes l <= changes l'.
Proof.
  induction 1 as [|a l l' H IH|a l l' H IH|a l l' H IH]; [lia| | |].
  - now apply R_changes_p.
  - rewrite changes2. replace (dd a a) with 0 by (unfold dd; now rewrite Z.eqb_refl). lia.
  - pose proof (changes_tail a l'). lia.
Qed.
Lemma R_refl l : R l l. Proof. induction l; constructor; auto. Qed.
Lemma R_app a l l' : R l l' -> R (a ++ l) (a ++ l').
Proof. intros H. induction a as [|c a IH]; [exact H|]. cbn [app]. now constructor. Qed.
Lemma R_rep b l l' : R l (b :: l') -> R (b :: l) (b :: l').
Proof. inversion 1; subst; now constructor. Qed.
Lemma R_filter f l l' : R l l' -> R (filter f l) (filter f l').
Proof.
  induction 1 as [|a l l' H IH|a l l' H IH|a l l' H IH]; cbn [filter] in *; [constructor| | |]; destruct (f a); solve [exact IH | now apply R_keep | now apply R_dup | now apply R_del].
Qed.
Lemma R_sub f g (l : list Z) : (forall a, In a l -> f a = true -> g a = true) -> R (filter f l) (filter g l).
Proof.
  induction l as [|a l IH]; intros H; [constructor|]. cbn [filter]. specialize (IH (fun b Hb => H b (or_intror Hb))). specialize (H a (or_introl eq_refl)).
  destruct (f a); [rewrite H by reflexivity; now constructor|]. destruct (g a); [now constructor|exact IH].
Qed.
Lemma filter_map_comm {X Y} (f : Y -> bool) (g : X -> Y) l : filter f (map g l) = map g (filter (fun a => f (g a)) l).
Proof. induction l as [|a l IH]; [reflexivity|]. cbn [map filter]. rewrite IH. now destruct (f (g a)). Qed.
Lemma switches_R (f : Z -> Z) p q w u : R (map f w) u -> (f p = f q -> p = q) -> switches p q w <= switches (f p) (f q) u.
Proof.
  intros H Hf. unfold switches. set (P := fun a => (a =? p) || (a =? q)). set (Q := fun a => (a =? f p) || (a =? f q)).
  assert (HP : forall a, P a = true -> a = p \/ a = q) by (intros a E; apply orb_true_iff in E; destruct E as [E|E]; apply Z.eqb_eq in E; auto).
  transitivity (changes (map f (filter P w))).
  - rewrite changes_map; [lia|]. intros a b Ha Hb E. apply filter_In in Ha, Hb. destruct (HP _ (proj2 Ha)) as [-> | ->], (HP _ (proj2 Hb)) as [-> | ->]; auto. symmetry. apply Hf. now symmetry.
  - transitivity (changes (map f (filter (fun a => Q (f a)) w))).
    + apply R_changes. assert (M : forall l l', R l l' -> R (map f l) (map f l')) by (induction 1; cbn [map] in *; solve [apply R_nil | now apply R_keep | now apply R_dup | now apply R_del]).
      apply M, R_sub. intros a _ E. unfold Q. destruct (HP _ E) as [-> | ->]; rewrite Z.eqb_refl, ?orb_true_r; reflexivity.
    + rewrite <- filter_map_comm. apply R_changes, R_filter, H.
Qed.

Definition inY (i s c : Z) : bool := (i <=? c) && (c <=? i + s - 1).
Definition back (i s c : Z) : Z := if inY i s c then i else if c <? i then c else c - s + 1.
Lemma inY_sh i s y : (forall a, In a y -> 1 <= a <= s) -> filter (inY i s) (map (fun c => c + i - 1) y) = map (fun c => c + i - 1) y.
Proof.
  induction y as [|b y IH]; intros H; [reflexivity|]. cbn [map filter]. rewrite IH by (intros; apply H; now right). specialize (H b (or_introl eq_refl)).
  unfold inY. rewrite (proj2 (Z.leb_le _ _)), (proj2 (Z.leb_le _ _)) by lia. reflexivity.
Qed.
Lemma inY_up i s a : 1 <= s -> a <> i -> inY i s (if a <? i then a else a + s - 1) = false.
Proof. intros Hs N. unfold inY. destruct (Z.ltb_spec a i), (Z.leb_spec i a), (Z.leb_spec i (a + s - 1)), (Z.leb_spec a (i + s - 1)), (Z.leb_spec (a + s - 1) (i + s - 1)); cbn; try reflexivity; lia. Qed.
Lemma back_up i s a : 1 <= s -> a <> i -> back i s (if a <? i then a else a + s - 1) = a.
Proof. intros Hs N. unfold back. rewrite inY_up by assumption. destruct (Z.ltb_spec a i); [rewrite (proj2 (Z.ltb_lt _ _)); lia|]. rewrite (proj2 (Z.ltb_ge _ _)); lia. Qed.
Lemma back_sh i s y : (forall a, In a y -> 1 <= a <= s) -> map (back i s) (map (fun c => c + i - 1) y) = map (fun _ => i) y.
Proof.
  intros H. rewrite map_map. apply map_ext_in. intros a Ha. specialize (H a Ha). unfold back, inY. rewrite (proj2 (Z.leb_le _ _)), (proj2 (Z.leb_le _ _)) by lia. reflexivity.
Qed.
Lemma R_reps {X} i (y : list X) l l' : y <> [] -> R l l' -> R (map (fun _ => i) y ++ l) (i :: l').
Proof.
  intros N H. induction y as [|b y IH]; [congruence|]. cbn [map app]. destruct y as [|c y]; [now apply R_keep|]. apply R_rep, IH. discriminate.
Qed.
Lemma up_rest i s u : 1 <= s -> mem i u = false -> filter (inY i s) (map (fun c => if c <? i then c else c + s - 1) u) = [] /\ map (back i s) (map (fun c => if c <? i then c else c + s - 1) u) = u.
Proof.
  intros Hs. induction u as [|a u IH]; intros M; [split; reflexivity|]. cbn [mem existsb] in M. apply orb_false_iff in M. destruct M as [N M]. apply Z.eqb_neq in N. destruct (IH M) as [I1 I2].
  cbn [map filter]. rewrite inY_up, back_up, I1, I2 by (auto; lia). now split.
Qed.
Lemma comp_R i s u : 1 <= s -> forall y w v, (forall a, In a y -> 1 <= a <= s) -> y <> [] -> In (w, v) (surj_composites i s u y) ->
  R (filter (inY i s) w) (map (fun c => c + i - 1) y) /\ R (map (back i s) w) u.
Proof.
  intros Hs. induction u as [|a u IH]; intros y w v Hy Ny Hin; cbn [surj_composites] in Hin.
  - destruct Hin as [[= <- _]|[]]. split; [|constructor]. cbn [filter]. induction y as [|b y IHy]; [constructor|]. cbn [map]. constructor. destruct y; [constructor|]. apply IHy; [|discriminate]. intros; apply Hy; now right.
  - destruct (Z.eqb_spec a i) as [->|N].
    + destruct (mem i u) eqn:M.
      * apply in_flat_map in Hin. destruct Hin as ([[A b] B] & Hc & Hin). apply in_map_iff in Hin. destruct Hin as ([w' v'] & [= <- _] & Hin).
        rewrite cuts_splits in Hc. apply splits_in in Hc. subst y.
        assert (HB : forall a, In a (b :: B) -> 1 <= a <= s) by (intros; apply Hy, in_app_iff; now right).
        assert (HA : forall a, In a (A ++ [b]) -> 1 <= a <= s) by (intros c Hc; apply Hy; rewrite in_app_iff in *; cbn [In] in *; tauto).
        destruct (IH (b :: B) w' v' HB ltac:(discriminate) Hin) as [I1 I2]. split.
        -- rewrite filter_app, inY_sh by exact HA. rewrite !map_app, <- app_assoc. apply R_app. cbn [map app] in *. apply R_rep, I1.
        -- rewrite map_app, back_sh by exact HA. apply R_reps; [now destruct A|exact I2].
      * destruct Hin as [[= <- _]|[]]. destruct (up_rest i s u Hs M) as [U1 U2]. rewrite filter_app, map_app, inY_sh, back_sh, U1, U2, app_nil_r by exact Hy.
        split; [apply R_refl|]. apply R_reps; [exact Ny|apply R_refl].
    + apply in_map_iff in Hin. destruct Hin as ([w' v'] & [= <- _] & Hin). destruct (IH y w' v' Hy Ny Hin) as [I1 I2]. cbn [filter map]. rewrite inY_up, back_up by auto.
      split; [exact I1|now constructor].
Qed.
Lemma comp_switches i s r u y w v p q : 1 <= s -> onto r u -> onto s y -> In (w, v) (surj_composites i s u y) -> p <> q ->
  (exists a b, switches p q w <= switches a b u) \/ (exists a b, switches p q w <= switches a b y).
Proof.
  intros Hs Hu Hy Hin N. assert (Ny : y <> []) by (intros ->; apply (proj2 (Hy 1)); lia).
  destruct (comp_R i s u Hs y w v (fun a Ha => proj1 (Hy a) Ha) Ny Hin) as [H1 H2].
  destruct (inY i s p && inY i s q) eqn:E.
  - right. apply andb_true_iff in E. destruct E as [Ep Eq]. exists (p - i + 1), (q - i + 1).
    transitivity (switches p q (filter (inY i s) w)).
    + unfold switches. apply Z.eq_le_incl. f_equal. clear - Ep Eq. induction w as [|c w IH]; [reflexivity|]. cbn [filter].
      destruct (inY i s c) eqn:Ec; cbn [filter]; rewrite IH; [reflexivity|]. destruct (Z.eqb_spec c p) as [->|]; [congruence|]. destruct (Z.eqb_spec c q) as [->|]; [congruence|]. reflexivity.
    + apply (switches_R (fun c => c - i + 1)); [|intros; lia]. 
      assert (M : forall l l', R l l' -> R (map (fun c => c - i + 1) l) (map (fun c => c - i + 1) l')) by (induction 1; cbn [map] in *; solve [apply R_nil | now apply R_keep | now apply R_dup | now apply R_del]).
      apply M in H1. rewrite (map_map (fun c => c + i - 1)) in H1. rewrite (map_ext (fun c => c + i - 1 - i + 1) (fun c => c)) in H1 by (intros; lia). rewrite map_id in H1. exact H1.
  - left. exists (back i s p), (back i s q). apply switches_R; [exact H2|]. unfold back. intros Eb.
    apply andb_false_iff in E. destruct (inY i s p) eqn:Ep, (inY i s q) eqn:Eq; destruct E as [E|E]; try discriminate;
      unfold inY in Ep, Eq; destruct (Z.ltb_spec p i), (Z.ltb_spec q i), (Z.leb_spec i p), (Z.leb_spec i q), (Z.leb_spec p (i + s - 1)), (Z.leb_spec q (i + s - 1)); cbn in Ep, Eq; try discriminate; lia.
Qed.

(** #C65_suboperad# The complexity of a composite is at most the larger of
    the complexities of the two factors: for every n the elements of
    complexity at most n form a suboperad. *)
Lemma C65_suboperad_l (dt n1 n2 i : Z) (x y : surj) :
  1 <= i <= n1 -> 1 <= n2 -> wf cls_surj x -> wf cls_surj y -> torsion y = torsion x -> dt_ok dt (torsion x) ->
  attr x = BF \/ torsion x = 2 -> keys_in (onto n1) x -> keys_in (onto n2) y ->
  exists z cx cy cz, surj_compose dt x y i = Ok z /\ surj_complexity x = Ok cx /\ surj_complexity y = Ok cy /\ surj_complexity z = Ok cz /\
    cz <= Z.max cx cy.
Proof.
  intros Hi Hn Wx Wy Ty Hdt Hc Kx Ky. assert (Ki : keys_in (fun k => In i k) x) by (intros k v Hin; apply (Kx _ _ Hin); lia).
  pose proof (C48_compose_formula_l dt n2 i x y Hn Wx Wy Ty Hdt Hc Ki Ky) as G.
  pose proof G as (z & E & Wz & _). exists z.
  destruct (nested_max (dkeys (data x)) (wf_keys_onto x Wx) 0 ltac:(lia)) as (cx & Ex & X0 & X1 & _).
  destruct (nested_max (dkeys (data y)) (wf_keys_onto y Wy) 0 ltac:(lia)) as (cy & Ey & Y0 & Y1 & _).
  destruct (C54_complexity_value_l z Wz) as (cz & Ez & _ & Z2).
  exists cx, cy, cz. repeat (split; [assumption|]).
  destruct Z2 as [->|(k & v & a & b & Hin & Hab & _ & _ & <-)]; [lia|].
  destruct (gives_keys _ _ _ _ _ _ _ _ G E Hin) as (k' & s & Hl & Hk). apply keqb_eq in Hk. subst k'.
  unfold extend2 in Hl. apply in_flat_map in Hl. destruct Hl as ([k1 v1] & Hin1 & Hl). apply in_flat_map in Hl. destruct Hl as ([k2 v2] & Hin2 & Hl).
  apply in_map_iff in Hl. destruct Hl as ([w c] & [= <- _] & Hw). cbn [fst] in Hw.
  destruct (comp_switches i n2 n1 k1 k2 w c a b Hn (Kx _ _ Hin1) (Ky _ _ Hin2) Hw ltac:(lia)) as [(a' & b' & L)|(a' & b' & L)].
  - apply Z.le_trans with (1 := L). apply Z.le_trans with cx; [|lia]. apply X1. apply in_dkeys. now exists v1.
  - apply Z.le_trans with (1 := L). apply Z.le_trans with cy; [|lia]. apply Y1. apply in_dkeys. now exists v2.
Qed.
(** #C65_example# A composite of (1,2,1,2) (complexity 3) and (1,2,1)
    (complexity 2): complexity 3. *)
Example C65_example_l :
  let x := mkElt [([1; 2; 1; 2], 1)] 0 BF in let y := mkElt [([1; 2; 1], 1)] 0 BF in
  wf cls_surj x /\ wf cls_surj y /\
  surj_complexity x = Ok 3 /\ surj_complexity y = Ok 2 /\
  exists z, surj_compose 0 x y 1 = Ok z /\ (3 <=? zlen (data z)) = true /\ surj_complexity z = Ok 3.
Proof. cbn zeta. split; [apply wfb_wf; reflexivity|]. split; [apply wfb_wf; reflexivity|]. split; [reflexivity|]. split; [reflexivity|]. eexists. split; [vm_compute; reflexivity|]. split; vm_compute; reflexivity. Qed.
