(** * The Cartan-Serre map, diagonals and the action.  Proof library. *)
From Coq Require Import Setoid Morphisms.
From Verif Require Import PyBase Dict FreeModule Symmetric Simplicial Cubical Utils Surjection Eqm Spec SpecChain SpecOperad SpecSurj SpecAction SpecCube SpecCubAction FreeModuleFacts FreeModuleLaws ListFacts
  ClassFacts LinearFacts BilFacts SymmetricFacts CycleFacts SymmetricLaws RingFacts Tensor TensorAct LoopFacts AW SimplicialFacts SimplicialDiag SurjFacts SurjBoundary SurjLaws ActFacts ActSign ActCore SpecCube CubicalFacts CubicalDiag CubicalJoin CubicalSerre CubActFacts CubActCore SpecCartan.

(** ** Diagonals *)
Lemma cg_ext_all o G G' c : (forall s, G s = G' s) -> cg o G c = cg o G' c.
Proof. intros E. unfold cg. destruct (collapse o c); auto. Qed.
Lemma cg_zero o c : cg o (fun _ => 0) c = 0. Proof. unfold cg. now destruct (collapse o c). Qed.
Lemma cg_sumf {B} o (G : B -> list Z -> Z) (l : list B) c : cg o (fun s => sumf (fun b => G b s) l) c = sumf (fun b => cg o (G b) c) l.
Proof. unfold cg. destruct (collapse o c); [reflexivity|]. symmetry. now apply sumf_0. Qed.
Lemma se_ext_all H H' c : (forall f b, H f b = H' f b) -> se H c = se H' c.
Proof. intros E. apply se_ext. auto. Qed.
Lemma e0_sgn f : sgn (cube_dim f) * e0 f = e0 f.
Proof. destruct (e0_cases f) as [[E ->]|[_ ->]]; [rewrite E, sgn_0; ring|ring]. Qed.
Lemma se_cg c : forall o (H : list Z -> list Z -> Z), se (fun f b => cg o (fun s => cg o (fun u => H s u) b) f) c = cg o (aw H) c.
Proof.
  induction c as [|a w IH]; intros o H.
  - cbn [se]. unfold cg. cbn [collapse]. rewrite aw_cons, aw_nil. ring.
  - destruct (Z.eq_dec a 2) as [->|N2].
    + rewrite se_2, cg_2. rewrite (cg_ext_all _ _ (fun s => H [o] (o :: s) + aw (fun f b => H (o :: f) b) s)) by (intros; apply aw_cons). rewrite cg_add.
      rewrite Z.add_comm. f_equal.
      * rewrite (se_ext_all _ (fun f b => e0 f * cg (o + 1) (fun s => H [o] (o :: s)) b)); [apply (se_counit_l (fun b => cg (o + 1) (fun s => H [o] (o :: s)) b))|].
        intros f b. rewrite cg_0, cg_2, Z.mul_assoc, e0_sgn. reflexivity.
      * rewrite <- (IH (o + 1)). apply se_ext_all. intros f b. rewrite cg_2. apply cg_ext_all. intros s. rewrite cg_n by lia. reflexivity.
    + rewrite se_n by assumption. destruct (Z.eq_dec a 0) as [->|N0].
      * rewrite cg_0, aw_cons, aw_nil, Z.add_0_r.
        rewrite (se_ext_all _ (fun f b => e0 f * (e0 b * H [o] [o]))) by (intros; now rewrite !cg_0).
        rewrite (se_counit_l (fun b => e0 b * H [o] [o])). reflexivity.
      * rewrite cg_n by assumption. rewrite <- (IH (o + 1)). apply se_ext_all. intros f b. rewrite cg_n by assumption. apply cg_ext_all. intros s. now rewrite cg_n.
Qed.
Lemma S_cg t : forall G c, SC t (DC G) c = cg 0 (S t G) c.
Proof.
  induction t as [|t IH]; intros G c.
  - cbn [SC S]. rewrite DC_cons. reflexivity.
  - rewrite SC_S. change (S (Datatypes.S t) G) with (aw (fun f b => S t (fun u => G (f :: u)) b)). rewrite <- (se_cg c 0 (fun f b => S t (fun u => G (f :: u)) b)). apply se_ext_all. intros f b.
    rewrite (SC_ext t _ (fun u => cg 0 (fun s => DC (fun r => G (s :: r)) u) f)) by (intros; apply DC_cons).
    rewrite SC_sum. rewrite <- (cg_exch 0 (fun u s => DC (fun r => G (s :: r)) u)). apply cg_ext_all. intros s. rewrite <- SC_sum. apply IH.
Qed.
Lemma DC_app g k k' : DC g (k ++ k') = DC (fun r => DC (fun r' => g (r ++ r')) k') k.
Proof.
  revert g. induction k as [|c k IH]; intros g; [reflexivity|]. cbn [app]. rewrite !DC_cons. apply cg_ext_all. intros s. rewrite IH. reflexivity.
Qed.
Lemma collapses_len k r : collapses k = Some r -> length r = length k.
Proof.
  revert r. induction k as [|c k IH]; intros r; cbn [collapses]; [intros [= <-]; reflexivity|]. destruct (collapse 0 c); [|discriminate]. destruct (collapses k); [|discriminate].
  intros [= <-]. cbn. f_equal. now apply IH.
Qed.
Lemma DC_in g h k : (forall r, length r = length k -> tdeg spx_dim r = tdeg cube_dim k -> g r = h r) -> DC g k = DC h k.
Proof.
  intros E. unfold DC. destruct (collapses_spec k) as [[E1 E2]|[-> _]]; [|reflexivity]. rewrite E1. apply E; [now apply collapses_len|exact E2].
Qed.
Lemma DC_scal n g k : DC (fun r => n * g r) k = n * DC g k. Proof. unfold DC. destruct (collapses k); ring. Qed.
Lemma SC_exch_DC t (H : list (list Z) -> list (list Z) -> Z) k s : SC t (fun u => DC (H u) k) s = DC (fun r => SC t (fun u => H u r) s) k.
Proof. unfold DC. destruct (collapses k); [reflexivity|]. rewrite SC_sum. now apply ev_zero. Qed.
Lemma SdC_DC t coord g l1 s l2 : zlen l1 = coord - 1 -> SdC t coord (DC g) (l1 ++ s :: l2) = DC (Sd t coord g) (l1 ++ s :: l2).
Proof.
  intros E. rewrite SdC_app by exact E. rewrite (SC_ext t _ (fun u => DC (fun r => DC (fun r' => DC (fun r'' => g (r ++ r' ++ r'')) l2) u) l1)).
  2:{ intros u _ _. rewrite DC_app. apply DC_ext. intros r. now rewrite DC_app. }
  rewrite (SC_exch_DC t (fun u r => DC (fun r' => DC (fun r'' => g (r ++ r' ++ r'')) l2) u)).
  rewrite DC_app. apply DC_in. intros r Lr _. rewrite S_cg, DC_cons. apply cg_ext_all. intros x.
  rewrite S_sum. unfold DC. destruct (collapses l2) as [r2|]; [|now apply sumf_0]. rewrite <- S_sum. rewrite Sd_app by (unfold zlen in *; lia). reflexivity.
Qed.

(** ** Joins *)
Definition below : list Z -> list Z -> Prop := Forall2 (fun a b => a = 0 \/ b = 1).
Lemma jj_dim0 K c1 c2 : zlen c1 = zlen c2 -> jj (fun v => e0 v * K) c1 c2 = 0.
Proof.
  intros L. rewrite (jj_in _ (fun _ => 0)); [apply jj_zero|exact L|]. intros v Hv. destruct (e0_cases v) as [[E _]|[_ ->]]; [contradiction|ring].
Qed.
Lemma jj_cg c1 c2 : below c1 c2 -> is_cube c1 -> is_cube c2 -> forall o (H : list Z -> Z), (forall l, dupb l = true -> H l = 0) ->
  jj (cg o H) c1 c2 = sgn (cube_dim c1) * cg o (fun s => cg o (fun s' => H (s ++ s')) c2) c1.
Proof.
  induction 1 as [|a b u w Hab Huw IH]; intros C1 C2 o H HH.
  - cbn [jj]. unfold cg. cbn [collapse app]. rewrite HH; [ring|]. cbn. now rewrite Z.eqb_refl.
  - assert (Cu : is_cube u) by (intros x Hx; apply C1; now right). assert (Cw : is_cube w) by (intros x Hx; apply C2; now right).
    assert (Ca : a = 0 \/ a = 1 \/ a = 2) by (apply C1; now left). assert (Cb : b = 0 \/ b = 1 \/ b = 2) by (apply C2; now left).
    assert (L : zlen u = zlen w) by (unfold zlen; f_equal; clear -Huw; induction Huw; cbn; lia).
    rewrite cube_dim_cons.
    destruct (Z.eq_dec a 0) as [->|Na].
    + change (0 =? 2) with false. cbv iota. rewrite cg_0. destruct (Z.eq_dec b 2) as [->|Nb].
      * rewrite jj_n2. rewrite cg_2. rewrite (cg_ext_all _ _ (fun _ => 0)), cg_zero; [ring|]. intros s. apply HH. cbn [app]. now rewrite dupb_cons2, Z.eqb_refl.
      * rewrite jj_nn by lia. rewrite (jj_ext_all _ (fun v => e0 v * H [o])) by (intros; apply cg_0). rewrite jj_dim0 by exact L. rewrite Z.add_0_r.
        assert (Es : sgn (cube_dim u) * e0 u = e0 u) by apply e0_sgn.
        destruct (Z.eq_dec b 0) as [->|Nb0].
        -- rewrite cg_0. cbn [app]. rewrite HH by (cbn; now rewrite Z.eqb_refl). change (delta 0 0) with 0. ring.
        -- assert (b = 1) as -> by lia. rewrite cg_2, (cg_n o _ 1) by lia. cbn [app]. change (delta 0 1) with 1. rewrite Z.add_0_l, Z.mul_assoc, Es. ring.
    + assert (b = 1) as -> by lia. destruct (Z.eq_dec a 2) as [->|Na2].
      * rewrite jj_2n by lia. rewrite cg_2. rewrite (jj_ext_all _ (cg (o + 1) (fun s => H (o :: s)))) by (intros; apply cg_2).
        rewrite (IH Cu Cw (o + 1) (fun s => H (o :: s))) by (intros l Hl; apply HH; now apply dupb_tl).
        change (2 =? 2) with true. cbv iota. replace (1 + cube_dim u) with (cube_dim u + 1) by ring. rewrite sgn_S. rewrite (cg_ext_all (o + 1) (fun s => cg o _ _) (fun s => cg (o + 1) (fun s' => H (o :: s ++ s')) w)) by (intros; rewrite cg_n by lia; reflexivity). ring.
      * assert (a = 1) as -> by lia. rewrite jj_nn by lia. change (delta 1 1) with 0. change (1 =? 2) with false. cbv iota. rewrite (cg_n o _ 1 u) by lia.
        rewrite (jj_ext_all _ (cg (o + 1) H)) by (intros; now rewrite cg_n by lia). rewrite (IH Cu Cw (o + 1) H HH).
        rewrite (cg_ext_all (o + 1) (fun s => cg o _ _) (fun s => cg (o + 1) (fun s' => H (s ++ s')) w)) by (intros; rewrite cg_n by lia; reflexivity). rewrite Z.add_0_l. ring.
Qed.
Fixpoint jl (c1 c2 : list Z) : dict (list Z) :=
  match c1, c2 with
  | a :: u, b :: w => if b =? 2 then [] else
      (if cube_dim (a :: u) =? 0 then if (a =? 0) && (b =? 1) then [(2 :: w, 1)] else if (a =? 1) && (b =? 0) then [(2 :: w, -1)] else [] else []) ++
      map (fun p => (a :: fst p, (if a =? 2 then -1 else 1) * snd p)) (jl u w)
  | _, _ => []
  end.
Lemma jl_jj c1 : forall c2 G, jj G c1 c2 = ev G (jl c1 c2).
Proof.
  induction c1 as [|a u IH]; intros [|b w] G; try reflexivity. cbn [jj jl]. destruct (b =? 2); [reflexivity|]. rewrite ev_app, IH. f_equal.
  - unfold e0, delta. destruct (cube_dim (a :: u) =? 0); [|now rewrite !Z.mul_0_l, ev_nil]. destruct ((a =? 0) && (b =? 1)); [rewrite ev_cons, ev_nil; ring|]. destruct ((a =? 1) && (b =? 0)); [rewrite ev_cons, ev_nil; ring|rewrite ev_nil; ring].
  - unfold ev. rewrite sumf_map, <- sumf_scal. apply sumf_ext. intros [v e] _. cbn [fst snd]. ring.
Qed.
Lemma jl_in b c : below b c -> is_cube b -> is_cube c -> forall v e, In (v, e) (jl b c) ->
  cube_dim v = cube_dim b + cube_dim c + 1 /\ is_cube v /\ zlen v = zlen b /\ forall x, below b x -> below c x -> below v x.
Proof.
  induction 1 as [|a b u w Hab Huw IH]; intros C1 C2 v e; [intros []|]. cbn [jl]. destruct (Z.eqb_spec b 2) as [|Nb]; [intros []|]. rewrite in_app_iff. intros [Hin|Hin].
  - destruct (Z.eqb_spec (cube_dim (a :: u)) 0) as [E0|]; [|destruct Hin]. 
    assert (E : a = 0 /\ b = 1 /\ v = 2 :: w).
    { destruct (Z.eqb_spec a 0), (Z.eqb_spec b 1); cbn [andb] in Hin; [destruct Hin as [[= <- _]|[]]; auto| | |]; (destruct (Z.eqb_spec a 1), (Z.eqb_spec b 0); cbn [andb] in Hin; try (destruct Hin as [[= <- _]|[]]); [exfalso; lia|destruct Hin|destruct Hin|destruct Hin]) || idtac; exfalso; lia. }
    destruct E as (-> & -> & ->). rewrite E0, !cube_dim_cons. change (2 =? 2) with true. change (1 =? 2) with false. cbv iota. split; [lia|]. split; [|split].
    + intros x [<-|Hx]; [auto|]. apply C2. now right.
    + rewrite !zlen_cons. f_equal. unfold zlen. f_equal. clear -Huw. induction Huw; cbn; lia.
    + intros x H1 H2. inversion H2 as [|? y ? x' Hy Hx']; subst. constructor; [right; lia|exact Hx'].
  - apply in_map_iff in Hin. destruct Hin as ([v' e'] & [= <- _] & Hin). cbn [fst snd].
    destruct (IH (fun x Hx => C1 x (or_intror Hx)) (fun x Hx => C2 x (or_intror Hx)) v' e' Hin) as (D & C & L & B). rewrite !cube_dim_cons, !zlen_cons. destruct (Z.eqb_spec b 2); [contradiction|]. split; [lia|]. split; [|split].
    + intros x [<-|Hx]; [apply C1; now left|now apply C].
    + lia.
    + intros x H1 H2. inversion H1; subst. inversion H2; subst. constructor; [assumption|]. now apply B.
Qed.
(** exponent of the sign of an iterated join *)
Fixpoint jexp (w : Z) (ws : list Z) : Z := match ws with [] => 0 | w' :: ws' => w + jexp (w + w' + 1) ws' end.
Definition jexps (ws : list Z) : Z := match ws with [] => 0 | w :: ws' => jexp w ws' end.
Definition chainb (K : list (list Z)) : Prop := ForallOrdPairs below K.
Lemma Jg_cg : forall K c, chainb (c :: K) -> (forall x, In x (c :: K) -> is_cube x) -> forall H, (forall l, dupb l = true -> H l = 0) ->
  Jg (cg 0 H) (c :: K) = sgn (jexps (map cube_dim (c :: K))) * DC (fun r => H (concat r)) (c :: K).
Proof.
  induction K as [|d K IH]; intros c HC HK H HH.
  - rewrite Jg_1, DC_cons. cbn [map jexps jexp]. rewrite sgn_0, Z.mul_1_l. apply cg_ext_all. intros s. cbn. now rewrite app_nil_r.
  - assert (Bcd : below c d /\ forall x, In x K -> below c x /\ below d x).
    { inversion HC as [|? ? H1 H2]; subst. inversion H2 as [|? ? H3 H4]; subst. rewrite Forall_forall in H1, H3. split; [apply H1; now left|]. intros x Hx. split; [apply H1; now right|now apply H3]. }
    destruct Bcd as [Bcd Bx]. assert (Cc : is_cube c) by (apply HK; now left). assert (Cd : is_cube d) by (apply HK; right; now left).
    rewrite Jg_2, join2_jj, jl_jj.
    rewrite (ev_ext _ (fun v => sgn (jexps (map cube_dim (c :: d :: K)) - cube_dim c) * cg 0 (fun s => DC (fun r => H (s ++ concat r)) K) v)).
    2:{ intros v e Hv. destruct (jl_in c d Bcd Cc Cd v e Hv) as (D & Cv & _ & B). rewrite IH.
        - rewrite DC_cons. cbn [concat]. f_equal. f_equal. cbn [map jexps jexp]. rewrite D. ring.
        - inversion HC as [|? ? _ H2]; subst. inversion H2 as [|? ? _ H4]; subst. constructor; [|exact H4]. apply Forall_forall. intros x Hx. apply B; now apply Bx.
        - intros x [<-|Hx]; [exact Cv|]. apply HK. right. now right.
        - exact HH. }
    rewrite ev_scal, <- jl_jj. rewrite (jj_cg c d Bcd Cc Cd).
    2:{ intros l Hl. transitivity (DC (fun _ => 0) K); [|apply DC_zero]. apply DC_ext. intros r. apply HH. now apply dupb_l. }
    rewrite Z.mul_assoc, <- sgn_add. f_equal; [f_equal; ring|]. rewrite DC_cons. apply cg_ext_all. intros s. rewrite DC_cons. apply cg_ext_all. intros s'. apply DC_ext. intros r. cbn [concat]. now rewrite app_assoc.
Qed.

(** ** Products of joins *)
Fixpoint DM (is : list Z) (g : list (list Z) -> Z) (L : list (Z * list Z)) : Z :=
  match is with
  | [] => g []
  | i :: is' => DC (fun r => DM is' (fun w => g (concat r :: w)) L) (grouped i L)
  end.
Lemma DM_ext is g g' L : (forall w, g w = g' w) -> DM is g L = DM is g' L.
Proof. revert g g'. induction is as [|i is IH]; intros g g' E; cbn [DM]; [apply E|]. apply DC_ext. intros r. apply IH. intros w. apply E. Qed.
Lemma DM_zero is L : DM is (fun _ => 0) L = 0.
Proof. induction is as [|i is IH]; cbn [DM]; [reflexivity|]. rewrite (DC_ext _ (fun _ => 0)) by (intros; exact IH). apply DC_zero. Qed.
Lemma MJ_cg is (H : list Z -> list (list Z) -> Z) L b : MJ is (fun w => cg 0 (fun s => H s w) b) L = cg 0 (fun s => MJ is (H s) L) b.
Proof. rewrite MJ_tensor. rewrite <- (cg_exch 0 (fun w s => H s w)). apply cg_ext_all. intros s. now rewrite MJ_tensor. Qed.
Lemma MJ_DM L : (forall p, In p L -> is_cube (snd p)) -> chainb (map snd L) -> forall is g, (forall i, In i is -> grouped i L <> []) -> (forall w, existsb dupb w = true -> g w = 0) ->
  MJ is (DC g) L = sgn (sumf (fun i => jexps (map cube_dim (grouped i L))) is) * DM is g L.
Proof.
  intros HL HC. assert (CG : forall i, chainb (grouped i L)).
  { intros i. unfold grouped, chainb in *. clear -HC. induction L as [|[a c] L IH]; cbn [map filter]; [constructor|]. inversion HC as [|? ? H1 H2]; subst. cbn [fst]. destruct (a =? i); [|now apply IH].
    cbn [map snd]. constructor; [|now apply IH]. rewrite Forall_forall in *. intros x Hx. apply H1. apply in_map_iff in Hx. destruct Hx as (p & <- & Hp). apply filter_In in Hp. apply in_map. tauto. }
  assert (GG : forall i c, In c (grouped i L) -> is_cube c).
  { intros i c Hc. unfold grouped in Hc. apply in_map_iff in Hc. destruct Hc as (p & <- & Hp). apply filter_In in Hp. now apply HL. }
  induction is as [|i is IH]; intros g Hi Hg.
  - cbn [MJ DM]. rewrite sumf_nil, sgn_0. rewrite DC_nil. ring.
  - cbn [MJ DM]. rewrite sumf_cons, sgn_add. specialize (Hi i (or_introl eq_refl)) as Hne. specialize (CG i). specialize (GG i). destruct (grouped i L) as [|c K] eqn:EK; [congruence|].
    set (E := sgn (sumf (fun i => jexps (map cube_dim (grouped i L))) is)).
    rewrite (Jg_ext _ (fun b => E * cg 0 (fun s => DM is (fun w => g (s :: w)) L) b)).
    2:{ intros b. rewrite (MJ_ext is _ (fun w => cg 0 (fun s => DC (fun r => g (s :: r)) w) b)) by (intros; apply DC_cons). rewrite (MJ_cg is (fun s w => DC (fun r => g (s :: r)) w)).
        unfold E. rewrite <- cg_scal. apply cg_ext_all. intros s. apply IH; [intros j Hj; apply Hi; now right|]. intros w Hw. apply Hg. cbn [existsb]. rewrite Hw. apply orb_true_r. }
    rewrite Jg_scal. change (fun w => cg 0 (fun s => DM is (fun w0 => g (s :: w0)) L) w) with (cg 0 (fun s => DM is (fun w0 => g (s :: w0)) L)). rewrite (Jg_cg K c CG GG).
    2:{ intros l Hl. transitivity (DM is (fun _ => 0) L); [|apply DM_zero]. apply DM_ext. intros w. apply Hg. cbn [existsb]. now rewrite Hl. }
    ring.
Qed.
Lemma grouped_collapses i : forall k u r, length u = length k -> collapses u = Some r -> collapses (grouped i (combine k u)) = Some (grouped i (combine k r)).
Proof.
  induction k as [|a k IH]; intros [|c u] r Lu; try discriminate; [reflexivity|]. cbn [collapses]. destruct (collapse 0 c) as [s|] eqn:Es; [|discriminate]. destruct (collapses u) as [r'|] eqn:Eu; [|discriminate].
  intros [= <-]. cbn [combine]. rewrite !grouped_cons. cbn in Lu. specialize (IH u r' ltac:(lia) Eu). destruct (a =? i); [|exact IH]. cbn [app collapses]. now rewrite Es, IH.
Qed.
Lemma grouped_none : forall k u, length u = length k -> collapses u = None -> exists a, In a k /\ collapses (grouped a (combine k u)) = None.
Proof.
  induction k as [|a k IH]; intros [|c u] Lu; try discriminate. cbn [collapses]. destruct (collapse 0 c) as [s|] eqn:Es.
  - destruct (collapses u) as [r'|] eqn:Eu; [discriminate|]. intros _. destruct (IH u) as (b & Hb & Eb); [cbn in Lu; lia|exact Eu|]. exists b. split; [now right|]. cbn [combine]. rewrite grouped_cons.
    destruct (a =? b); [|exact Eb]. cbn [app collapses]. now rewrite Es, Eb.
  - intros _. exists a. split; [now left|]. cbn [combine]. rewrite grouped_cons, Z.eqb_refl. cbn [app collapses]. now rewrite Es.
Qed.
Lemma joined_grouped i L : joined i L = concat (grouped i L). Proof. reflexivity. Qed.
Lemma DM_DC k u : length u = length k -> forall is g, (forall a, In a k -> In a is) ->
  DM is g (combine k u) = DC (fun r => g (map (fun i => joined i (combine k r)) is)) u.
Proof.
  intros Lu is g Hk. unfold DC at 1. destruct (collapses u) as [r|] eqn:E.
  - clear Hk. revert g. induction is as [|i is IH]; intros g; cbn [DM map]; [reflexivity|]. unfold DC. rewrite (grouped_collapses i k u r Lu E). rewrite IH. reflexivity.
  - destruct (grouped_none k u Lu E) as (a & Ha & Ea). apply Hk in Ha. clear Hk. revert g. induction is as [|i is IH]; intros g; [destruct Ha|]. cbn [DM]. destruct (Z.eq_dec i a) as [->|N].
    + unfold DC. now rewrite Ea.
    + destruct Ha as [Ha|Ha]; [congruence|]. rewrite (DC_ext _ (fun _ => 0)) by (intros; now apply IH). apply DC_zero.
Qed.
(** ** One piece *)
Definition gexp (r : Z) (k : list Z) (u : list (list Z)) : Z := sumf (fun i => jexps (map cube_dim (grouped i (combine k u)))) (zrange 1 (r + 1)).
Lemma grouped_ne {A} i (k : list Z) (u : list A) : length u = length k -> In i k -> grouped i (combine k u) <> [].
Proof.
  revert u. induction k as [|a k IH]; intros [|c u] Lu; try discriminate; [intros []|]. cbn [combine]. rewrite grouped_cons. intros [->|Hi]; [rewrite Z.eqb_refl; discriminate|].
  cbn in Lu. specialize (IH u ltac:(lia) Hi). destruct (grouped i (combine k u)); [contradiction|]. destruct (a =? i); discriminate.
Qed.
Lemma TC_DC r k g u : onto r k -> length u = length k -> (forall c, In c u -> is_cube c) -> chainb u -> (forall w, existsb dupb w = true -> g w = 0) ->
  TC r k (DC g) u = sgn (gexp r k u) * DC (fun r' => g (ActFacts.joins r (combine k r'))) u.
Proof.
  intros Ho Lu Cu HC Hg. unfold TC. rewrite (MJ_DM (combine k u)).
  - f_equal. rewrite (DM_DC k u Lu); [reflexivity|]. intros a Ha. apply Ho in Ha. apply in_zrange. lia.
  - intros [a c] Hp. apply Cu. now apply in_combine_r in Hp.
  - now rewrite (map_snd_combine k u Lu).
  - intros i Hi. apply in_zrange in Hi. apply grouped_ne; [exact Lu|]. apply Ho. lia.
  - exact Hg.
Qed.
Lemma below_refl_serre c f b e : is_cube c -> In (f, b, e) (serre_pairs c) -> below f b /\ forall x, below x c -> below x f /\ below x b.
Proof.
  revert f b e. induction c as [|a w IH]; intros f b e Cc Hin; cbn [serre_pairs] in Hin.
  - destruct Hin as [[= <- <- _]|[]]. split; [constructor|]. auto.
  - apply in_flat_map in Hin. destruct Hin as ([[f' b'] e'] & H1 & H2). destruct (IH f' b' e') as [B X]; [intros x Hx; apply Cc; now right|exact H1|]. assert (Ca : a = 0 \/ a = 1 \/ a = 2) by (apply Cc; now left).
    destruct (Z.eqb_spec a 2).
    + destruct H2 as [[= <- <- _]|[[= <- <- _]|[]]]; (split; [constructor; auto|]); intros x Hx; inversion Hx as [|y z x' ? Hy Hx']; subst; destruct (X _ Hx'); (split; (constructor; [lia|assumption])).
    + destruct H2 as [[= <- <- _]|[]]. split; [constructor; [lia|exact B]|]. intros x Hx; inversion Hx as [|y z x' ? Hy Hx']; subst; destruct (X _ Hx'); (split; (constructor; [lia|assumption])).
Qed.
Lemma serre_below t : forall s u e x, is_cube s -> In (u, e) (serre t s) -> below x s -> forall c, In c u -> below x c.
Proof.
  induction t as [|t IH]; intros s u e x Cs Hu Hx c Hc; cbn [serre] in Hu.
  - destruct Hu as [[= <- _]|[]]. destruct Hc as [<-|[]]. exact Hx.
  - apply in_flat_map in Hu. destruct Hu as ([[f b] e1] & H1 & H2). apply in_map_iff in H2. destruct H2 as ([u' e'] & [= <- _] & H2). pose proof (below_refl_serre s f b e1 Cs H1) as [_ X]. destruct (X x Hx) as [X1 X2].
    destruct Hc as [<-|Hc]; [exact X1|]. eapply (IH b u' e' x); eauto. apply (serre_pairs_cube _ _ _ _ Cs H1).
Qed.
Lemma serre_chain t : forall s u e, is_cube s -> In (u, e) (serre t s) -> chainb u.
Proof.
  induction t as [|t IH]; intros s u e Cs Hu; cbn [serre] in Hu.
  - destruct Hu as [[= <- _]|[]]. repeat constructor.
  - apply in_flat_map in Hu. destruct Hu as ([[f b] e1] & H1 & H2). apply in_map_iff in H2. destruct H2 as ([u' e'] & [= <- _] & H2). pose proof (serre_pairs_cube _ _ _ _ Cs H1) as [_ Cb]. constructor.
    + apply Forall_forall. intros c Hc. apply (serre_below t b u' e' f Cb H2); [exact (proj1 (below_refl_serre s f b e1 Cs H1))|exact Hc].
    + eapply IH; eauto.
Qed.
(** ** The action *)
Lemma collapses_dims u r : collapses u = Some r -> map spx_dim r = map cube_dim u.
Proof.
  revert r. induction u as [|c u IH]; intros r; cbn [collapses]; [intros [= <-]; reflexivity|]. destruct (collapse 0 c) as [s|] eqn:Es; [|discriminate]. destruct (collapses u) as [r'|] eqn:Eu; [|discriminate]. intros [= <-].
  cbn [map]. f_equal; [|now apply IH]. destruct (cs_collapse 0 c) as [[E1 E2]|[E1 _]]; [|congruence]. rewrite Es in E1. injection E1 as ->. exact E2.
Qed.
Lemma cwt_map k u : cwt (combine k u) = combine k (map cube_dim u).
Proof. revert u. induction k as [|a k IH]; intros [|b u]; try reflexivity. cbn [combine map]. unfold cwt in *. cbn [map fst snd]. now rewrite IH. Qed.
Lemma wt_map k u : wt (combine k u) = combine k (map spx_dim u).
Proof. revert u. induction k as [|a k IH]; intros [|b u]; try reflexivity. cbn [combine map]. unfold wt in *. cbn [map fst snd]. now rewrite IH. Qed.
Lemma T1C_DC r k g u : onto r k -> length u = length k -> (forall c, In c u -> is_cube c) -> chainb u -> (forall w, existsb dupb w = true -> g w = 0) ->
  T1C r k (DC g) u = sgn (join_exponent r (cwt (combine k u)) + gexp r k u) * DC (T1 r k g) u.
Proof.
  intros Ho Lu Cu HC Hg. unfold T1C, csg. rewrite TC_DC by assumption. rewrite !sgn_add.
  assert (E : DC (T1 r k g) u = sgn (action_exponent r (cwt (combine k u))) * DC (fun r' => g (ActFacts.joins r (combine k r'))) u).
  { unfold DC. destruct (collapses u) as [r'|] eqn:Eu; [|ring]. unfold T1. rewrite wt_map, cwt_map, (collapses_dims u r' Eu). reflexivity. }
  rewrite E. ring.
Qed.
Lemma PhiC_DC0 r k t eps s g : onto r k -> k <> [] -> is_cube s -> (forall w, existsb dupb w = true -> g w = 0) ->
  (forall u e, In (u, e) (serre (length k - 1) s) -> eqm t (sgn (join_exponent r (cwt (combine k u)) + gexp r k u)) eps) ->
  eqm t (SC (length k - 1) (T1C r k (DC g)) s) (eps * cg 0 (S (length k - 1) (T1 r k g)) s).
Proof.
  intros Ho Nk Cs Hg He. rewrite <- S_cg, <- SC_scal, !SC_sum. apply ev_eqm. intros u e Hu.
  rewrite T1C_DC; [|exact Ho| | |eapply serre_chain; eauto|exact Hg].
  - apply eqm_mul; [|reflexivity]. eapply He; eauto.
  - eapply len_sf; eauto.
  - intros c Hc. apply (serre_eqc _ _ _ _ (zlen s) eq_refl Hu c Hc). exact Cs.
Qed.
Lemma DC_eqm t g h k : (forall r, length r = length k -> tdeg spx_dim r = tdeg cube_dim k -> eqm t (g r) (h r)) -> eqm t (DC g k) (DC h k).
Proof.
  intros E. unfold DC. destruct (collapses_spec k) as [[E1 E2]|[-> _]]; [|reflexivity]. rewrite E1. apply E; [now apply collapses_len|exact E2].
Qed.
Lemma cg_eqm t o g h c : (forall s, eqm t (g s) (h s)) -> eqm t (cg o g c) (cg o h c).
Proof. intros E. unfold cg. destruct (collapse o c); [apply E|reflexivity]. Qed.
Lemma collapses_tdeg k r : collapses k = Some r -> tdeg spx_dim r = tdeg cube_dim k.
Proof. intros E. unfold tdeg. now rewrite (collapses_dims k r E). Qed.
Lemma SC_zero t s : SC t (fun _ => 0) s = 0. Proof. rewrite SC_sum. now apply ev_zero. Qed.
Lemma T1C_ext r k g h u : (forall v, g v = h v) -> T1C r k g u = T1C r k h u.
Proof. intros E. unfold T1C, TC. f_equal. now apply MJ_ext. Qed.
Lemma T1C_zero r k u : T1C r k (fun _ => 0) u = 0.
Proof. unfold T1C, TC. rewrite MJ_tensor, ev_zero by reflexivity. ring. Qed.
Lemma PhiC_DC r k t eps coord g l1 s l2 : zlen l1 = coord - 1 -> onto r k -> k <> [] -> is_cube s -> (forall w, existsb dupb w = true -> g w = 0) ->
  (forall u e, In (u, e) (serre (length k - 1) s) -> eqm t (sgn (join_exponent r (cwt (combine k u)) + gexp r k u)) eps) ->
  eqm t (PhiC r coord (DC g) k (l1 ++ s :: l2)) (eps * DC (Phi r coord g k) (l1 ++ s :: l2)).
Proof.
  intros E1 Ho Nk Cs Hg He. rewrite PhiC_app by exact E1.
  assert (DD : forall v, DC g (l1 ++ v ++ l2) = DC (fun r1 => DC (fun r' => DC (fun r2 => g (r1 ++ r' ++ r2)) l2) v) l1).
  { intros v. rewrite DC_app. apply DC_ext. intros r1. now rewrite DC_app. }
  rewrite (SC_ext _ _ (T1C r k (fun v => DC (fun r1 => DC (fun r' => DC (fun r2 => g (r1 ++ r' ++ r2)) l2) v) l1))) by (intros; apply T1C_ext, DD).
  rewrite DC_app. destruct (collapses l1) as [r1|] eqn:C1.
  2:{ assert (D1 : forall G, DC G l1 = 0) by (intros; unfold DC; now rewrite C1). rewrite D1. rewrite (SC_ext _ _ (fun _ => 0)) by (intros u _ _; rewrite (T1C_ext r k _ (fun _ => 0)) by (intros; apply D1); apply T1C_zero). rewrite SC_zero. apply eqm_eq. ring. }
  assert (D1 : forall G, DC G l1 = G r1) by (intros; unfold DC; now rewrite C1). rewrite D1, DC_cons.
  destruct (collapses l2) as [r2|] eqn:C2.
  2:{ assert (D2 : forall G, DC G l2 = 0) by (intros; unfold DC; now rewrite C2). rewrite (cg_ext_all 0 _ (fun _ => 0)) by (intros; apply D2). rewrite cg_zero.
      rewrite (SC_ext _ _ (fun _ => 0)); [rewrite SC_zero; apply eqm_eq; ring|]. intros u _ _. rewrite (T1C_ext r k _ (fun _ => 0)); [apply T1C_zero|]. intros v. rewrite D1. rewrite (DC_ext _ (fun _ => 0)) by (intros; apply D2). apply DC_zero. }
  assert (D2 : forall G, DC G l2 = G r2) by (intros; unfold DC; now rewrite C2).
  rewrite (SC_ext _ _ (T1C r k (DC (fun v => g (r1 ++ v ++ r2))))) by (intros; apply T1C_ext; intros v; rewrite D1; apply DC_ext; intros; apply D2).
  rewrite (cg_ext_all 0 _ (fun s' => sgn (tdeg cube_dim l1 * (zlen k - r)) * S (length k - 1) (T1 r k (fun v => g (r1 ++ v ++ r2))) s')).
  2:{ intros s'. rewrite D2. rewrite Phi_app; [now rewrite (collapses_tdeg l1 r1 C1)|]. apply collapses_len in C1. unfold zlen in *. lia. }
  rewrite cg_scal. set (A := sgn (tdeg cube_dim l1 * (zlen k - r))). rewrite Z.mul_comm. rewrite (Z.mul_comm A (cg _ _ _)), Z.mul_assoc. apply eqm_mul; [|reflexivity].
  apply (PhiC_DC0 r k t eps s (fun v => g (r1 ++ v ++ r2)) Ho Nk Cs); [|exact He]. intros w Hw. apply Hg. rewrite !existsb_app, Hw. cbn [orb]. apply orb_true_r.
Qed.
(** ** The sign for arity at least three *)
Lemma tri_S n : (n + 1) * (n + 1 - 1) / 2 = n * (n - 1) / 2 + n.
Proof. replace ((n + 1) * (n + 1 - 1)) with (n * (n - 1) + n * 2) by ring. now rewrite Z.div_add by lia. Qed.
Definition wlin (ws : list Z) : Z := zsum (map (fun '(idx, w) => (zlen ws - 1 - idx) * w) (enumerate ws)).
Lemma wlin_cons w ws : wlin (w :: ws) = zlen ws * w + wlin ws.
Proof.
  unfold wlin. rewrite enumerate_cons. cbn [map zsum fold_right]. unfold zsum. cbn [fold_right]. f_equal; [rewrite zlen_cons; ring|]. f_equal. rewrite map_map. apply map_ext. intros [i v]. cbn [fst snd]. rewrite zlen_cons. ring.
Qed.
Lemma jexp_wlin : forall ws w, jexp w ws = zlen ws * w + wlin ws + zlen ws * (zlen ws - 1) / 2.
Proof.
  induction ws as [|w' ws IH]; intros w; cbn [jexp]; [reflexivity|]. rewrite IH, wlin_cons, zlen_cons, tri_S. ring.
Qed.
Lemma jexps_sign ws : ws <> [] -> sgn (wlin ws + (zlen ws - 1) + jexps ws) = sgn (zlen ws * (zlen ws - 1) / 2).
Proof.
  destruct ws as [|w ws]; [congruence|]. intros _. cbn [jexps]. rewrite jexp_wlin, wlin_cons, zlen_cons, tri_S.
  replace (zlen ws * w + wlin ws + (zlen ws + 1 - 1) + (zlen ws * w + wlin ws + zlen ws * (zlen ws - 1) / 2)) with (2 * (zlen ws * w + wlin ws) + (zlen ws * (zlen ws - 1) / 2 + zlen ws)) by ring.
  rewrite sgn_add, sgn_mul_even by reflexivity. ring.
Qed.

Lemma grouped_cwt i k u : grouped i (cwt (combine k u)) = map cube_dim (grouped i (combine k u)).
Proof.
  unfold grouped, cwt. induction (combine k u) as [|[a c] L IH]; [reflexivity|]. cbn [map filter fst snd]. destruct (a =? i); cbn [map snd]; [f_equal|]; exact IH.
Qed.
Lemma grouped_times {A} i k (u : list A) : length u = length k -> zlen (grouped i (combine k u)) = times_in i k.
Proof.
  revert u. induction k as [|a k IH]; intros [|c u] L; try discriminate; [reflexivity|]. cbn [combine times_in]. rewrite grouped_cons, zlen_app, IH by (cbn in L; lia). f_equal. destruct (a =? i); reflexivity.
Qed.
Lemma sgn_sumf {B} (f g : B -> Z) l : (forall b, In b l -> sgn (f b) = sgn (g b)) -> sgn (sumf f l) = sgn (sumf g l).
Proof.
  induction l as [|b l IH]; intros E; [reflexivity|]. rewrite !sumf_cons, !sgn_add. f_equal; [apply E; now left|]. apply IH. intros c Hc. apply E. now right.
Qed.
Lemma jexps_small ws : ws <> [] -> zlen ws <= 2 -> jexps ws = (zlen ws - 1) * hd 0 ws.
Proof.
  destruct ws as [|w [|w' [|w'' ws]]]; intros N L; [congruence| | |].
  - cbn. reflexivity.
  - cbn [jexps jexp hd]. change (zlen [w; w']) with 2. ring.
  - exfalso. rewrite !zlen_cons in L. pose proof (zlen_nonneg ws). lia.
Qed.
Lemma sign_ok r k u : 1 <= r -> onto r k -> length u = length k -> comparable r k ->
  sgn (join_exponent r (cwt (combine k u)) + gexp r k u) = comparison_sign r k.
Proof.
  intros Hr Ho Lu HC. unfold join_exponent, comparison_sign, gexp. change (zsum (map ?f ?l)) with (sumf f l).
  assert (NE : forall i, In i (zrange 1 (r + 1)) -> map cube_dim (grouped i (combine k u)) <> [] /\ zlen (map cube_dim (grouped i (combine k u))) = times_in i k).
  { intros i Hi. apply in_zrange in Hi. rewrite zlen_map, (grouped_times i k u Lu). split; [|reflexivity]. pose proof (grouped_ne i k u Lu ltac:(apply Ho; lia)) as N. destruct (grouped i (combine k u)); [contradiction|discriminate]. }
  destruct (Z.leb_spec r 2).
  - assert (H2 : forall i, times_in i k <= 2) by (destruct HC; [lia|assumption]).
    match goal with |- sgn (?A + ?B + ?C) = _ => assert (E : A = C) end.
    { apply sumf_ext. intros i Hi. destruct (NE i Hi) as [N L]. rewrite grouped_cwt, jexps_small; [reflexivity|exact N|]. rewrite L. apply H2. }
    rewrite E. match goal with |- sgn (?A + ?B + ?A) = _ => replace (A + B + A) with (2 * A + B) by ring end. rewrite sgn_add, sgn_mul_even, Z.mul_1_l by reflexivity.
    assert (Eh : hd 0 (map fst (cwt (combine k u))) = hd 0 k). { destruct k as [|a k]; [reflexivity|]. destruct u; [discriminate|reflexivity]. }
    rewrite Eh, !grouped_cwt, !zlen_map, !(grouped_times _ k u Lu). destruct (Z.eqb_spec r 2) as [->|N2]; cbn [andb].
    + destruct (hd 0 k =? 2); [reflexivity|apply sgn_0].
    + destruct (Z.eqb_spec (hd 0 k) 2) as [E2|]; [|apply sgn_0]. exfalso. assert (r = 1) as -> by lia. destruct k as [|a k]; [cbn in E2; lia|]. cbn in E2. subst a. assert (1 <= 2 <= 1) by (apply Ho; now left). lia.
  - rewrite <- sumf_add. apply sgn_sumf. intros i Hi. destruct (NE i Hi) as [N L]. rewrite grouped_cwt, <- L. rewrite <- (jexps_sign _ N). reflexivity.
Qed.
Lemma adm_dup g : adm cls_simplicial g -> forall w, existsb dupb w = true -> g w = 0.
Proof.
  intros [_ Hg] w Hw. apply Hg. cbn. f_equal. apply existsb_exists in Hw. destruct Hw as (b & Hb1 & Hb2). apply existsb_exists. exists b. split; [exact Hb1|]. now apply dupb_deg.
Qed.
