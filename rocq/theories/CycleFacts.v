(** * Cycle decomposition and sign: proof library for Symmetric.v *)
From Coq Require Import Setoid Morphisms.
From Verif Require Import PyBase Dict FreeModule Symmetric Eqm Spec FreeModuleFacts FreeModuleLaws ListFacts ClassFacts SymmetricFacts.

(** state of the list [p] of the code after the entries [V] were visited *)
Definition cells (n : Z) (p V : list Z) : list cell :=
  map (fun i => if mem i V then None else Some (image p i)) (zrange 1 (n + 1)).
Lemma zrange_split a b i : a <= i < b -> zrange a b = zrange a i ++ i :: zrange (i + 1) b.
Proof. intros H. rewrite (zrange_app a i b) by lia. rewrite (zrange_cons i b) by lia. reflexivity. Qed.
Lemma cells_get n p V i : 1 <= i <= n -> py_get (cells n p V) (i - 1) = Ok (if mem i V then None else Some (image p i)).
Proof.
  intros Hi. unfold cells. rewrite (zrange_split 1 (n + 1) i) by lia. rewrite map_app. cbn [map].
  set (l := map _ (zrange 1 i)). replace (i - 1) with (zlen l) by (subst l; rewrite zlen_map, zlen_zrange; lia).
  apply py_get_app.
Qed.
Lemma cells_set n p V i : 1 <= i <= n -> py_set (cells n p V) (i - 1) None = Ok (cells n p (V ++ [i])).
Proof.
  intros Hi. unfold cells. rewrite (zrange_split 1 (n + 1) i) by lia. rewrite !map_app. cbn [map].
  set (l := map _ (zrange 1 i)). replace (i - 1) with (zlen l) by (subst l; rewrite zlen_map, zlen_zrange; lia).
  rewrite py_set_app. f_equal. f_equal; [|f_equal].
  - subst l. apply map_ext_in. intros j Hj. apply in_zrange in Hj. rewrite mem_app. cbn.
    destruct (Z.eqb_spec j i); [lia|]. now rewrite !orb_false_r.
  - rewrite mem_app. cbn. rewrite Z.eqb_refl. now rewrite orb_true_r.
  - apply map_ext_in. intros j Hj. apply in_zrange in Hj. rewrite mem_app. cbn.
    destruct (Z.eqb_spec j i); [lia|]. now rewrite !orb_false_r.
Qed.
Lemma cells_nil n p : 0 <= n -> perm n p -> cells n p [] = map Some p.
Proof.
  intros Hn Hp. transitivity (map Some (map (image p) (zrange 1 (n + 1)))); [|now rewrite (perm_map_image n p Hn Hp)].
  rewrite map_map. reflexivity.
Qed.

Definition closed (p V : list Z) : Prop := forall v, In v V -> In (image p v) V.

Lemma closed_pre n p V v : perm n p -> (forall u, In u V -> 1 <= u <= n) -> NoDup V -> closed p V ->
  1 <= v <= n -> In (image p v) V -> In v V.
Proof.
  intros Hp HV ND HC Hv Hin.
  assert (E : Permutation (map (image p) V) V).
  { apply NoDup_Permutation_bis.
    - clear HC Hin. induction V as [|u V IH]; cbn; [constructor|]. inversion ND; subst. constructor.
      + intros Hi. apply in_map_iff in Hi. destruct Hi as (w & E & Hw).
        apply (image_inj n) in E; auto; [subst; contradiction| |]; apply HV; [now right|now left].
      + apply IH; auto. intros w Hw. apply HV. now right.
    - now rewrite map_length.
    - intros w Hw. apply in_map_iff in Hw. destruct Hw as (u & <- & Hu). now apply HC. }
  apply (Permutation_in _ (Permutation_sym E)) in Hin. apply in_map_iff in Hin. destruct Hin as (u & Eu & Hu).
  apply (image_inj n) in Eu; auto. now subst.
Qed.

Lemma cycle_loop_ok n p V0 : perm n p -> (forall u, In u V0 -> 1 <= u <= n) -> NoDup V0 -> closed p V0 ->
  forall fuel first rest next,
  NoDup (V0 ++ first :: rest) -> (forall u, In u (first :: rest) -> 1 <= u <= n) ->
  map (image p) (first :: rest) = rest ++ [next] ->
  (Z.to_nat n + 1 <= fuel + length rest)%nat ->
  exists rest', cycle_loop fuel first (cells n p (V0 ++ first :: rest)) (Some next) (first :: rest)
     = Ok (cells n p (V0 ++ first :: rest'), first :: rest') /\
    is_cycle p (first :: rest') /\ NoDup (V0 ++ first :: rest') /\ (forall u, In u (first :: rest') -> 1 <= u <= n).
Proof.
  intros Hp HV ND HC. induction fuel as [|fuel IH]; intros first rest next NDr Hr HE Hf.
  - exfalso. assert (ND' : NoDup (first :: rest)) by (eapply NoDup_app_remove_l; exact NDr).
    assert (length (first :: rest) <= length (zrange 1 (n + 1)))%nat.
    { apply NoDup_incl_length; auto. intros u Hu. apply in_zrange. apply Hr in Hu. lia. }
    cbn [length] in H. rewrite zrange_length in H. lia.
  - cbn [cycle_loop cell_int]. destruct (Z.eqb_spec next first) as [->|Nf].
    + exists rest. split; [reflexivity|]. split; [|auto]. split; [discriminate|].
      split; [eapply NoDup_app_remove_l; exact NDr|]. exact HE.
    + (* next is the image of the last entry *)
      set (cyc := first :: rest) in *.
      assert (Hlast : exists pre last, cyc = pre ++ [last] /\ image p last = next /\ map (image p) pre = rest).
      { destruct (exists_last (l := cyc) ltac:(discriminate)) as (pre & last & El). exists pre, last. split; [exact El|].
        rewrite El, map_app in HE. cbn [map] in HE. apply app_inj_tail in HE. tauto. }
      destruct Hlast as (pre & last & El & Enext & Epre).
      assert (Rl : 1 <= last <= n) by (apply Hr; rewrite El; apply in_or_app; right; now left).
      assert (NDc : NoDup cyc) by (eapply NoDup_app_remove_l; exact NDr).
      assert (Hn1 : ~ In next V0).
      { intros Hin. rewrite <- Enext in Hin. apply (closed_pre n) in Hin; auto.
        apply NoDup_remove_2 with (l := V0 ++ pre) (l' := []) (a := last).
        - rewrite <- app_assoc. cbn. rewrite <- El. exact NDr.
        - rewrite app_nil_r. apply in_or_app. now left. }
      assert (Hn2 : ~ In next cyc).
      { intros [E|Hin]; [congruence|]. rewrite <- Epre in Hin. apply in_map_iff in Hin. destruct Hin as (u & Eu & Hu).
        rewrite <- Enext in Eu. apply (image_inj n) in Eu; auto.
        - subst u. rewrite El in NDc. apply NoDup_remove_2 in NDc. apply NDc. rewrite app_nil_r. exact Hu.
        - apply Hr. rewrite El. apply in_or_app. now left. }
      assert (Rn : 1 <= next <= n) by (rewrite <- Enext; now apply (image_range n)).
      rewrite cells_get by assumption. rewrite mem_app.
      rewrite (proj2 (mem_notin next V0) Hn1), (proj2 (mem_notin next cyc) Hn2). cbn [bind orb].
      rewrite cells_set by assumption. cbn [bind].
      replace ((V0 ++ cyc) ++ [next]) with (V0 ++ first :: (rest ++ [next])) by (subst cyc; now rewrite <- app_assoc).
      replace (cyc ++ [next]) with (first :: (rest ++ [next])) by reflexivity.
      apply IH.
      * replace (V0 ++ first :: rest ++ [next]) with ((V0 ++ cyc) ++ [next]) by (subst cyc; now rewrite <- app_assoc).
        apply NoDup_app_snoc; auto. rewrite in_app_iff. tauto.
      * intros u [<-|Hu]; [apply Hr; now left|]. apply in_app_iff in Hu. destruct Hu as [Hu|[<-|[]]]; [apply Hr; now right|exact Rn].
      * change (first :: rest ++ [next]) with (cyc ++ [next]). rewrite map_app, HE. reflexivity.
      * rewrite app_length. cbn. lia.
Qed.

Definition keep (s : bool) (cy : list Z) : bool := s || (1 <? zlen cy).
Lemma to_cycles_fuel_ok n p s fuel : 0 <= n -> perm n p -> (Z.to_nat n + 1 <= fuel)%nat ->
  exists cs, to_cycles_fuel fuel p s = Ok (filter (keep s) cs) /\
    (forall cy, In cy cs -> is_cycle p cy) /\ Permutation (concat cs) (zrange 1 (n + 1)).
Proof.
  intros Hn Hp Hf. unfold to_cycles_fuel. rewrite (perm_len n p Hn Hp). rewrite <- (cells_nil n p Hn Hp).
  assert (G : forall k i0 cs, i0 + Z.of_nat k = n -> 0 <= i0 ->
     (forall cy, In cy cs -> is_cycle p cy) -> NoDup (concat cs) -> (forall u, In u (concat cs) -> 1 <= u <= n) ->
     (forall u, 1 <= u <= i0 -> In u (concat cs)) ->
     exists cs', for_ (zrange i0 n) (cells n p (concat cs), filter (keep s) cs) (cycles_step fuel s)
        = Ok (cells n p (concat cs'), filter (keep s) cs') /\
     (forall cy, In cy cs' -> is_cycle p cy) /\ Permutation (concat cs') (zrange 1 (n + 1))).
  { induction k as [|k IH]; intros i0 cs Ek Hi0 H1 H2 H3 H4.
    - exists cs. rewrite zrange_nil by lia. split; [reflexivity|]. split; [exact H1|].
      apply NoDup_Permutation; auto; [apply NoDup_zrange|]. intros u. rewrite in_zrange. split; intros Hu.
      + apply H3 in Hu. lia.
      + apply H4. lia.
    - rewrite zrange_cons by lia. cbn [for_]. unfold cycles_step at 1.
      pose proof (cells_get n p (concat cs) (i0 + 1) ltac:(lia)) as Eg. replace (i0 + 1 - 1) with i0 in Eg by lia. rewrite Eg. clear Eg. cbn [bind].
      destruct (mem (i0 + 1) (concat cs)) eqn:Em.
      + cbn [bind]. apply IH; auto; [lia..|]. intros u Hu. apply mem_in in Em.
        destruct (Z.eq_dec u (i0 + 1)) as [->|]; [exact Em|]. apply H4. lia.
      + apply mem_notin in Em. pose proof (cells_set n p (concat cs) (i0 + 1) ltac:(lia)) as Eg. replace (i0 + 1 - 1) with i0 in Eg by lia. rewrite Eg. clear Eg. cbn [bind].
        assert (HC : closed p (concat cs)).
        { intros v Hv. apply in_concat in Hv. destruct Hv as (cy & Hcy & Hv). apply in_concat. exists cy. split; [exact Hcy|].
          destruct (H1 cy Hcy) as (Hne & _ & E). apply (in_map (image p)) in Hv. rewrite E in Hv.
          apply in_app_iff in Hv. destruct cy as [|a cy]; [congruence|]. cbn [tl hd] in Hv.
          destruct Hv as [Hv|[Hv|[]]]; [now right|left; exact Hv]. }
        destruct (cycle_loop_ok n p (concat cs) Hp H3 H2 HC fuel (i0 + 1) [] (image p (i0 + 1))) as (rest' & E1 & E2 & E3 & E4).
        * apply NoDup_app_snoc; auto.
        * intros u [<-|[]]. lia.
        * reflexivity.
        * cbn. lia.
        * rewrite E1. cbn [bind].
          set (cy := (i0 + 1) :: rest') in *. fold (keep s cy).
          replace (if keep s cy then filter (keep s) cs ++ [cy] else filter (keep s) cs) with (filter (keep s) (cs ++ [cy])).
          2:{ rewrite filter_app. cbn. destruct (keep s cy); [reflexivity|]. now rewrite app_nil_r. }
          assert (Ec : concat (cs ++ [cy]) = concat cs ++ cy) by (rewrite concat_app; cbn; now rewrite app_nil_r).
          rewrite <- Ec. apply IH; [lia|lia| | | |]; rewrite ?Ec; auto.
          -- intros c Hc. apply in_app_iff in Hc. destruct Hc as [Hc|[<-|[]]]; auto.
          -- intros u Hu. apply in_app_iff in Hu. destruct Hu; auto.
          -- intros u Hu. apply in_app_iff. destruct (Z.eq_dec u (i0 + 1)) as [->|]; [right; now left|]. left. apply H4. lia. }
  destruct (G (Z.to_nat n) 0 [] ltac:(lia) ltac:(lia)) as (cs & E1 & E2 & E3).
  - intros ? [].
  - constructor.
  - intros ? [].
  - intros; lia.
  - exists cs. change (concat []) with (@nil Z) in E1. cbn [filter] in E1. split; [|auto].
    exact (f_equal (fun r => bind r (fun r => Ok (snd r))) E1).
Qed.
Lemma to_cycles_ok n p s : 0 <= n -> perm n p ->
  exists cs, to_cycles p s = Ok (filter (keep s) cs) /\
    (forall cy, In cy cs -> is_cycle p cy) /\ Permutation (concat cs) (zrange 1 (n + 1)).
Proof.
  intros Hn Hp. apply to_cycles_fuel_ok; auto. pose proof (perm_len n p Hn Hp) as L. unfold zlen in L. lia.
Qed.

(** ** Sign *)
Definition hswap (h : Z -> Z) (a b : Z) (i : Z) : Z := if i =? a then h b else if i =? b then h a else h i.
Lemma psgn_hswap n h a b : (forall i j, 1 <= i <= n -> 1 <= j <= n -> h i = h j -> i = j) ->
  1 <= a <= n -> 1 <= b <= n -> a <> b ->
  psgn (map (hswap h a b) (zrange 1 (n + 1))) = - psgn (map h (zrange 1 (n + 1))).
Proof.
  intros Hi. 
  assert (G : forall a b, 1 <= a <= n -> 1 <= b <= n -> a < b ->
     psgn (map (hswap h a b) (zrange 1 (n + 1))) = - psgn (map h (zrange 1 (n + 1)))).
  { clear a b. intros a b Ha Hb Hab.
    assert (ND : NoDup (map h (zrange 1 (n + 1)))).
    { pose proof (NoDup_zrange 1 (n + 1)) as ND.
      assert (Hin : forall x, In x (zrange 1 (n + 1)) -> 1 <= x <= n) by (intros x Hx; apply in_zrange in Hx; lia).
      induction (zrange 1 (n + 1)) as [|x l IH]; cbn; [constructor|]. inversion ND; subst. constructor.
      - intros Hx. apply in_map_iff in Hx. destruct Hx as (y & E & Hy). apply Hi in E; [subst; contradiction| |]; apply Hin; [now right|now left].
      - apply IH; auto. intros; apply Hin; now right. }
    rewrite (zrange_split 1 (n + 1) a), (zrange_split (a + 1) (n + 1) b) in * by lia.
    repeat (rewrite map_app in * || cbn [map] in *).
    rewrite (map_ext_in (hswap h a b) h (zrange 1 a)), (map_ext_in (hswap h a b) h (zrange (a + 1) b)), (map_ext_in (hswap h a b) h (zrange (b + 1) (n + 1))).
    2-4: intros i Hx; apply in_zrange in Hx; unfold hswap; destruct (Z.eqb_spec i a), (Z.eqb_spec i b); try lia; reflexivity.
    replace (hswap h a b a) with (h b) by (unfold hswap; now rewrite Z.eqb_refl).
    replace (hswap h a b b) with (h a) by (unfold hswap; rewrite Z.eqb_refl; destruct (Z.eqb_spec b a); [congruence|reflexivity]).
    now apply psgn_swap. }
  intros Ha Hb N. destruct (Z_lt_le_dec a b); [now apply G|].
  rewrite <- (G b a) by lia. f_equal. apply map_ext. intros i. unfold hswap.
  destruct (Z.eqb_spec i a), (Z.eqb_spec i b); congruence.
Qed.
Lemma psgn_cycle n rest : forall h c0, (forall i j, 1 <= i <= n -> 1 <= j <= n -> h i = h j -> i = j) ->
  (forall u, In u (c0 :: rest) -> 1 <= u <= n) -> NoDup (c0 :: rest) ->
  map h (c0 :: rest) = rest ++ [c0] ->
  psgn (map h (zrange 1 (n + 1))) = sgn (zlen rest) * psgn (map (fun i => if mem i (c0 :: rest) then i else h i) (zrange 1 (n + 1))).
Proof.
  induction rest as [|c1 rest IH]; intros h c0 Hi Hr ND HE.
  - cbn in HE. injection HE as E. change (zlen (@nil Z)) with 0. rewrite sgn_0, Z.mul_1_l. f_equal. apply map_ext.
    intros i. cbn. destruct (Z.eqb_spec i c0) as [->|]; [exact E|reflexivity].
  - cbn [map app] in HE. injection HE as E0 E1.
    assert (N01 : c0 <> c1) by (intros E; inversion ND as [|? ? X]; apply X; left; auto).
    assert (R0 : 1 <= c0 <= n) by (apply Hr; now left). assert (R1 : 1 <= c1 <= n) by (apply Hr; right; now left).
    assert (Hn0 : ~ In c0 rest) by (intros E; inversion ND as [|? ? X]; apply X; now right).
    assert (Hn1 : ~ In c1 rest) by (inversion ND as [|? ? ? ND2]; inversion ND2; auto).
    assert (Sw := psgn_hswap n h c0 c1 Hi R0 R1 N01).
    rewrite <- (Z.opp_involutive (psgn (map h _))), <- Sw. clear Sw.
    rewrite (IH (hswap h c0 c1) c0).
    + rewrite zlen_cons, sgn_S. rewrite Z.mul_opp_l. f_equal. f_equal. f_equal. apply map_ext. intros i. cbn [mem existsb].
      unfold hswap. destruct (Z.eqb_spec i c0); cbn [orb]; [reflexivity|].
      destruct (Z.eqb_spec i c1) as [->|]; cbn [orb]; [|reflexivity].
      destruct (existsb (Z.eqb c1) rest); [reflexivity|exact E0].
    + intros i j Ri Rj. unfold hswap.
      destruct (Z.eqb_spec i c0), (Z.eqb_spec i c1), (Z.eqb_spec j c0), (Z.eqb_spec j c1); intros E; try (apply Hi in E; lia).
    + intros u [<-|Hu]; [exact R0|]. apply Hr. right. now right.
    + constructor; auto. inversion ND as [|? ? ? ND2]. now inversion ND2.
    + assert (Em : map (hswap h c0 c1) rest = map h rest).
      { apply map_ext_in. intros u Hu. unfold hswap. destruct (Z.eqb_spec u c0); [congruence|]. destruct (Z.eqb_spec u c1); [congruence|reflexivity]. }
      cbn [map]. rewrite Em. unfold hswap. rewrite Z.eqb_refl. exact E1.
Qed.
Lemma psgn_cycles n p cs : forall h : Z -> Z, (forall i j, 1 <= i <= n -> 1 <= j <= n -> h i = h j -> i = j) ->
  (forall u, In u (concat cs) -> 1 <= u <= n) -> NoDup (concat cs) ->
  (forall cy, In cy cs -> is_cycle p cy) -> (forall u, In u (concat cs) -> h u = image p u) ->
  psgn (map h (zrange 1 (n + 1))) = sgn (sumf (fun cy => zlen cy - 1) cs) * psgn (map (fun i => if mem i (concat cs) then i else h i) (zrange 1 (n + 1))).
Proof.
  induction cs as [|cy cs IH]; intros h Hi Hr ND Hc Hh.
  - rewrite sumf_nil, sgn_0, Z.mul_1_l. reflexivity.
  - cbn [concat] in *. destruct (Hc cy (or_introl eq_refl)) as (Hne & NDc & HE).
    destruct cy as [|c0 rest]; [congruence|]. cbn [tl hd] in HE.
    assert (Hin : forall u, In u (c0 :: rest) -> ~ In u (concat cs)).
    { intros u Hu Hu'. apply in_split in Hu'. destruct Hu' as (l1 & l2 & E). rewrite E in ND.
      rewrite app_assoc in ND. apply NoDup_remove_2 in ND. apply ND. apply in_or_app. left. apply in_or_app. now left. }
    rewrite (psgn_cycle n rest h c0); auto.
    + set (h1 := fun i => if mem i (c0 :: rest) then i else h i).
      assert (Hm : map image [p] = map image [p]) by reflexivity. clear Hm.
      rewrite (IH h1).
      * rewrite sumf_cons, sgn_add. rewrite zlen_cons. replace (zlen rest + 1 - 1) with (zlen rest) by lia.
        rewrite Z.mul_assoc. f_equal. f_equal. apply map_ext. intros i. unfold h1. rewrite mem_app.
        destruct (mem i (concat cs)), (mem i (c0 :: rest)); reflexivity.
      * intros i j Ri Rj E. unfold h1 in E.
        assert (Q : forall i j, 1 <= i <= n -> 1 <= j <= n -> In i (c0 :: rest) -> ~ In j (c0 :: rest) -> i = h j -> False).
        { intros i' j' Ri' Rj' Hi' Hj' E'.
          assert (exists u, In u (c0 :: rest) /\ h u = i') as (u & Hu & Eu).
          { assert (In i' (rest ++ [c0])) as Hx by (rewrite in_app_iff; cbn in *; tauto).
            rewrite <- HE in Hx. apply in_map_iff in Hx. destruct Hx as (u & Eu & Hu). exists u. split; [exact Hu|].
            rewrite Hh by (apply in_or_app; now left). exact Eu. }
          rewrite <- Eu in E'. apply Hi in E'; auto; [congruence|]. apply Hr. apply in_or_app. now left. }
        destruct (mem i (c0 :: rest)) eqn:Ei, (mem j (c0 :: rest)) eqn:Ej.
        -- exact E.
        -- exfalso. apply (Q i j); auto; [now apply mem_in|now apply mem_notin].
        -- exfalso. apply (Q j i); auto; [now apply mem_in|now apply mem_notin].
        -- now apply Hi.
      * intros u Hu. apply Hr. apply in_or_app. now right.
      * eapply NoDup_app_remove_l; exact ND.
      * intros c Hc'. apply Hc. now right.
      * intros u Hu. unfold h1. destruct (mem u (c0 :: rest)) eqn:Eu.
        -- apply mem_in in Eu. exfalso. eapply Hin; eauto.
        -- apply Hh. apply in_or_app. now right.
    + intros u Hu. apply Hr. apply in_or_app. now left.
    + rewrite <- HE. apply map_ext_in. intros u Hu. apply Hh. apply in_or_app. now left.
Qed.

Lemma set_eqb_perm p : set_eqb p (zrange 1 (zlen p + 1)) = true <-> perm (zlen p) p.
Proof.
  unfold set_eqb. rewrite andb_true_iff, !forallb_forall. split.
  - intros [H1 H2]. apply perm_of_incl; auto; [apply zlen_nonneg|]. intros i Hi. apply mem_in, H2, in_zrange. lia.
  - intros Hp. split; intros x Hx; apply mem_in.
    + apply in_zrange. apply (perm_in (zlen p) p) in Hx; auto. lia.
    + apply (perm_in (zlen p) p); auto. apply in_zrange in Hx. lia.
Qed.
Lemma sg_sign_ok n p : 0 <= n -> perm n p -> sg_sign p = Ok (psgn p).
Proof.
  intros Hn Hp. unfold sg_sign. pose proof (perm_len n p Hn Hp) as L.
  rewrite (proj2 (set_eqb_perm p)) by now rewrite L. cbn [negb].
  destruct (to_cycles_ok n p false Hn Hp) as (cs & E1 & E2 & E3). rewrite E1. cbn [bind]. f_equal.
  fold (sumf (fun cy : list Z => zlen cy - 1) (filter (keep false) cs)). rewrite sumf_filter.
  rewrite (sumf_ext _ (fun cy => zlen cy - 1)).
  2:{ intros cy Hcy. unfold keep. cbn. destruct (Z.ltb_spec 1 (zlen cy)); [reflexivity|]. destruct (E2 cy Hcy) as (Hne & _).
      destruct cy; [congruence|]. rewrite zlen_cons in *. pose proof (zlen_nonneg cy). lia. }
  assert (HU : forall u, In u (concat cs) <-> 1 <= u <= n).
  { intros u. split; intros Hu.
    - apply (Permutation_in _ E3) in Hu. apply in_zrange in Hu. lia.
    - apply (Permutation_in _ (Permutation_sym E3)). apply in_zrange. lia. }
  pose proof (psgn_cycles n p cs (image p)) as Q. rewrite (perm_map_image n p Hn Hp) in Q. rewrite Q; auto.
  - rewrite (map_ext_in _ (fun i => i)).
    + rewrite map_id, psgn_id by auto. ring.
    + intros i Hi. apply in_zrange in Hi. assert (In i (concat cs)) by (apply HU; lia). now rewrite (proj2 (mem_in i (concat cs)) H).
  - intros i j. now apply (image_inj n).
  - apply HU.
  - apply (Permutation_NoDup (Permutation_sym E3)), NoDup_zrange.
Qed.
