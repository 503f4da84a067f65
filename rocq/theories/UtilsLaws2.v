(** * Property theorems of utils.py: distinct_permutations *)
From Coq Require Import Setoid Morphisms Sorting.Sorted.
From Verif Require Import PyBase Dict FreeModule Utils Eqm Spec SpecUtils FreeModuleFacts ListFacts ClassFacts SymmetricFacts SymmetricLaws BEDiag SurjLaws4 UtilsLaws.

Definition nonincreasing (p : list Z) : Prop := StronglySorted Z.ge p.
Definition tuple_le (p q : list Z) : Prop := p = q \/ tuple_lt p q.
Lemma lt_irrefl p : ~ tuple_lt p p.
Proof. induction p as [|a p IH]; cbn; [tauto|]. intros [H|[_ H]]; [lia|tauto]. Qed.
Lemma lt_trans p : forall q r, tuple_lt p q -> tuple_lt q r -> tuple_lt p r.
Proof.
  induction p as [|a p IH]; intros [|b q] [|c r]; cbn; try tauto. intros [H|[-> H]] [H'|[-> H']]; try (left; lia). right. split; [reflexivity|]. now apply (IH q).
Qed.
Lemma le_lt_trans p q r : tuple_le p q -> tuple_lt q r -> tuple_lt p r.
Proof. intros [->|H] H'; [exact H'|now apply (lt_trans p q)]. Qed.
Lemma lt_le_trans p q r : tuple_lt p q -> tuple_le q r -> tuple_lt p r.
Proof. intros H [<-|H']; [exact H|now apply (lt_trans p q)]. Qed.
Lemma lt_total p : forall q, length p = length q -> tuple_lt p q \/ p = q \/ tuple_lt q p.
Proof.
  induction p as [|a p IH]; intros [|b q] L; try discriminate; [auto|]. cbn. destruct (Z.lt_trichotomy a b) as [H|[->|H]]; [tauto| |tauto].
  destruct (IH q ltac:(now injection L)) as [H|[->|H]]; tauto.
Qed.
Lemma lt_app_l u p q : tuple_lt (u ++ p) (u ++ q) <-> tuple_lt p q.
Proof. induction u as [|a u IH]; cbn; [tauto|]. rewrite IH. split; [intros [H|H]; [lia|tauto]|tauto]. Qed.
Lemma le_app_l u p q : tuple_le p q -> tuple_le (u ++ p) (u ++ q).
Proof. intros [->|H]; [now left|right]. now apply lt_app_l. Qed.
Lemma le_cons a p q : tuple_le p q -> tuple_le (a :: p) (a :: q).
Proof. apply (le_app_l [a]). Qed.
(** the nonincreasing arrangement is the largest, the nondecreasing the smallest *)
Lemma max_arr v : nonincreasing v -> forall w, Permutation w v -> tuple_le w v.
Proof.
  unfold nonincreasing. induction 1 as [|a v S IH F]; intros w P; [apply Permutation_sym, Permutation_nil in P; now left|].
  destruct w as [|b w]; [apply Permutation_nil in P; discriminate|]. assert (Hb : In b (a :: v)) by (eapply Permutation_in; [exact P|now left]). rewrite Forall_forall in F.
  destruct (Z.eq_dec b a) as [->|N]; [apply le_cons, IH; now apply Permutation_cons_inv in P|]. right. left. destruct Hb as [->|Hb]; [congruence|]. specialize (F _ Hb). lia.
Qed.
Lemma min_arr v : nondecreasing v -> forall w, Permutation w v -> tuple_le v w.
Proof.
  unfold nondecreasing. induction 1 as [|a v S IH F]; intros w P; [apply Permutation_sym, Permutation_nil in P; now left|].
  destruct w as [|b w]; [apply Permutation_nil in P; discriminate|]. assert (Hb : In b (a :: v)) by (eapply Permutation_in; [exact P|now left]). rewrite Forall_forall in F.
  destruct (Z.eq_dec b a) as [->|N]; [apply le_cons, IH; now apply Permutation_cons_inv in P|]. right. left. destruct Hb as [->|Hb]; [congruence|]. specialize (F _ Hb). lia.
Qed.
Lemma sorted_snoc (R : Z -> Z -> Prop) l a : StronglySorted R l -> (forall b, In b l -> R b a) -> StronglySorted R (l ++ [a]).
Proof.
  induction 1 as [|b l S IH F]; intros Ha; cbn [app]; [repeat constructor|]. constructor; [apply IH; intros; apply Ha; now right|].
  rewrite Forall_forall in *. intros c Hc. apply in_app_iff in Hc. destruct Hc as [Hc|[<-|[]]]; [auto|apply Ha; now left].
Qed.
Lemma rev_nonincreasing v : nonincreasing v -> nondecreasing (rev v).
Proof.
  unfold nonincreasing, nondecreasing. induction 1 as [|a v S IH F]; cbn [rev]; [constructor|]. apply sorted_snoc; [exact IH|]. intros b Hb. apply in_rev in Hb. rewrite Forall_forall in F. specialize (F _ Hb). lia.
Qed.
Lemma rev_nondecreasing v : nondecreasing v -> nonincreasing (rev v).
Proof.
  unfold nonincreasing, nondecreasing. induction 1 as [|a v S IH F]; cbn [rev]; [constructor|]. apply sorted_snoc; [exact IH|]. intros b Hb. apply in_rev in Hb. rewrite Forall_forall in F. specialize (F _ Hb). lia.
Qed.
Lemma sorted_app (R : Z -> Z -> Prop) l l' : StronglySorted R (l ++ l') <-> StronglySorted R l /\ StronglySorted R l' /\ forall a b, In a l -> In b l' -> R a b.
Proof.
  induction l as [|c l IH]; cbn [app].
  - split; [intros H; repeat split; auto; [constructor|intros ? ? []]|tauto].
  - split.
    + intros H. inversion H as [|? ? S F]; subst. apply IH in S. destruct S as (S1 & S2 & S3). rewrite Forall_forall in F. split; [constructor; [exact S1|apply Forall_forall; intros; apply F; apply in_app_iff; now left]|]. split; [exact S2|].
      intros a b [<-|Ha] Hb; [apply F; apply in_app_iff; now right|now apply S3].
    + intros (S1 & S2 & S3). inversion S1 as [|? ? S F]; subst. constructor; [apply IH; repeat split; auto; intros; apply S3; auto; now right|]. rewrite Forall_forall in *. intros b Hb. apply in_app_iff in Hb. destruct Hb; [auto|apply S3; [now left|auto]].
Qed.
(** The next arrangement in the order. *)
Definition nextp (A A' : list Z) : Prop := exists u a v1 b v2, A = u ++ a :: v1 ++ b :: v2 /\ nonincreasing (v1 ++ b :: v2) /\ a < b /\ (forall c, In c v2 -> c <= a) /\ A' = u ++ b :: rev (v1 ++ a :: v2).
Lemma nextp_perm A A' : nextp A A' -> Permutation A' A.
Proof.
  intros (u & a & v1 & b & v2 & -> & _ & _ & _ & ->). apply Permutation_app_head. rewrite <- Permutation_rev. rewrite <- !Permutation_middle. apply perm_swap.
Qed.
Lemma nextp_lt A A' : nextp A A' -> tuple_lt A A'.
Proof. intros (u & a & v1 & b & v2 & -> & _ & H & _ & ->). apply lt_app_l. now left. Qed.
Lemma swap_nonincreasing v1 a b v2 : nonincreasing (v1 ++ b :: v2) -> a < b -> (forall c, In c v2 -> c <= a) -> nonincreasing (v1 ++ a :: v2).
Proof.
  unfold nonincreasing. rewrite !sorted_app. intros (S1 & S2 & S3) Hab Hc. inversion S2 as [|? ? S F]; subst. split; [exact S1|]. split; [constructor; [exact S|apply Forall_forall; intros c Hin; specialize (Hc _ Hin); lia]|].
  intros x y Hx [<-|Hy]; [specialize (S3 x b Hx (or_introl eq_refl)); lia|apply S3; auto; now right].
Qed.
Lemma nextp_least A A' : nextp A A' -> forall p, Permutation p A -> tuple_lt A p -> tuple_le A' p.
Proof.
  intros (u & a & v1 & b & v2 & -> & S & Hab & Hc & ->). induction u as [|e u IH]; intros p P L.
  - cbn [app] in *. destruct p as [|c p]; [apply Permutation_nil in P; discriminate|]. destruct L as [L|[<- L]].
    + assert (Hin : In c (v1 ++ b :: v2)). { assert (In c (a :: v1 ++ b :: v2)) as [->|H] by (eapply Permutation_in; [exact P|now left]); [lia|exact H]. }
      assert (Hcb : b <= c). { apply sorted_app in S. destruct S as (_ & S2 & S3). apply in_app_iff in Hin. destruct Hin as [Hin|[->|Hin]]; [specialize (S3 c b Hin (or_introl eq_refl)); lia|lia|]. specialize (Hc _ Hin). lia. }
      destruct (Z.eq_dec c b) as [->|N]; [|right; left; lia]. apply le_cons. apply min_arr; [apply rev_nonincreasing; now apply (swap_nonincreasing v1 a b)|].
      rewrite <- Permutation_rev. apply (Permutation_cons_inv (a := b)). rewrite P. rewrite <- !Permutation_middle. apply perm_swap.
    + exfalso. apply Permutation_cons_inv in P. apply (max_arr _ S) in P. apply (lt_irrefl p). now apply (le_lt_trans p (v1 ++ b :: v2)).
  - cbn [app] in *. destruct p as [|c p]; [apply Permutation_nil in P; discriminate|]. destruct L as [L|[<- L]]; [right; now left|]. apply le_cons. apply IH; [now apply Permutation_cons_inv in P|exact L].
Qed.
(** ** the code: full *)
Lemma zrange_down_nil b : zrange_down (b - 1) (b - 1) = []. Proof. unfold zrange_down. rewrite zrange_nil by lia. reflexivity. Qed.
Lemma zrange_down_cons b a : a < b -> zrange_down b a = b :: zrange_down (b - 1) a.
Proof. intros H. unfold zrange_down. rewrite zrange_snoc by lia. rewrite rev_app_distr. cbn [rev app]. do 2 f_equal. f_equal. lia. Qed.
Lemma py_get_app_S {B} (l1 l2 : list B) a b : py_get (l1 ++ a :: b :: l2) (zlen l1 + 1) = Ok b.
Proof. replace (l1 ++ a :: b :: l2) with ((l1 ++ [a]) ++ b :: l2) by now rewrite <- app_assoc. replace (zlen l1 + 1) with (zlen (l1 ++ [a])) by now rewrite zlen_app. apply py_get_app. Qed.
Lemma find_ascent_ok A : forall u v, A = u ++ v -> v <> [] -> nonincreasing v ->
  (find_ascent A (zrange_down (zlen u - 1) (-1)) = Ok None /\ nonincreasing A) \/
  (exists u' a b v', find_ascent A (zrange_down (zlen u - 1) (-1)) = Ok (Some (zlen u')) /\ A = u' ++ a :: b :: v' /\ a < b /\ nonincreasing (b :: v')).
Proof.
  intros u. induction u as [|a u IH] using rev_ind; intros v E Nv S.
  - left. split; [reflexivity|now subst A].
  - destruct v as [|b v]; [congruence|]. rewrite <- app_assoc in E. cbn [app] in E. rewrite zlen_app. change (zlen [a]) with 1. replace (zlen u + 1 - 1) with (zlen u) by lia. pose proof (zlen_nonneg u).
    assert (G1 : py_get A (zlen u) = Ok a) by (rewrite E; apply py_get_app). assert (G2 : py_get A (zlen u + 1) = Ok b) by (rewrite E; apply py_get_app_S).
    rewrite zrange_down_cons by lia. cbn [find_ascent]. rewrite G1, G2. cbn [bind]. destruct (Z.ltb_spec a b) as [L|L].
    + right. exists u, a, b, v. auto.
    + apply (IH (a :: b :: v) E); [discriminate|]. unfold nonincreasing in *. constructor; [exact S|]. inversion S as [|? ? S' F]; subst. constructor; [lia|]. rewrite Forall_forall in *. intros c Hc. specialize (F c Hc). lia.
Qed.
Lemma find_above_ok a u : forall v A w o, A = u ++ a :: v ++ w -> (forall c, In c w -> c <= a) -> (exists c, In c v /\ a < c) ->
  exists v1 b v2, find_above A a (zrange_down (zlen u + zlen v) (zlen u)) o = Ok (zlen u + 1 + zlen v1) /\ v ++ w = v1 ++ b :: v2 /\ a < b /\ forall c, In c v2 -> c <= a.
Proof.
  intros v. induction v as [|b v IH] using rev_ind; intros A w o E Hw Ex; [destruct Ex as (c & [] & _)|].
  rewrite zlen_app. change (zlen [b]) with 1. pose proof (zlen_nonneg v). rewrite zrange_down_cons by lia. cbn [find_above].
  assert (E' : A = (u ++ a :: v) ++ b :: w) by (rewrite E, <- !app_assoc; reflexivity).
  assert (Ez : zlen u + (zlen v + 1) = zlen (u ++ a :: v)) by (rewrite zlen_app, zlen_cons; lia). assert (Gx : py_get A (zlen (u ++ a :: v)) = Ok b) by (rewrite E'; apply py_get_app). rewrite Ez, Gx. cbn [bind].
  destruct (Z.ltb_spec a b) as [L|L].
  - exists v, b, w. rewrite <- app_assoc. split; [f_equal; lia|]. auto.
  - rewrite <- Ez. replace (zlen u + (zlen v + 1) - 1) with (zlen u + zlen v) by lia. rewrite <- app_assoc in E. cbn [app] in E.
    destruct (IH A (b :: w) (Some (zlen u + (zlen v + 1))) E) as (v1 & b' & v2 & G1 & G2 & G3 & G4).
    + intros c [<-|Hc]; [exact L|auto].
    + destruct Ex as (c & Hc & Hac). exists c. split; [|exact Hac]. apply in_app_iff in Hc. destruct Hc as [Hc|[<-|[]]]; [exact Hc|lia].
    + exists v1, b', v2. split; [exact G1|]. rewrite <- app_assoc. auto.
Qed.
(** one turn of the loop *)
Lemma full_step A : A <> [] ->
  (find_ascent A (zrange_down (zlen A - 2) (-1)) = Ok None /\ nonincreasing A) \/
  (exists i ai j aj A1 A2, find_ascent A (zrange_down (zlen A - 2) (-1)) = Ok (Some i) /\ py_get A i = Ok ai /\ find_above A ai (zrange_down (zlen A - 1) i) None = Ok j /\
     py_get A j = Ok aj /\ py_set A i aj = Ok A1 /\ py_set A1 j ai = Ok A2 /\ nextp A (slice_to A2 (i + 1) ++ rev (slice_from A2 (i + 1)))).
Proof.
  intros N. destruct (exists_last N) as (u0 & z & Ez).
  assert (L : zlen A - 2 = zlen u0 - 1) by (rewrite Ez, zlen_app; change (zlen [z]) with 1; lia). rewrite L.
  destruct (find_ascent_ok A u0 [z] Ez ltac:(discriminate) ltac:(repeat constructor)) as [H|(u & a & b & v & E & EA & Hab & S)]; [now left|right].
  destruct (find_above_ok a u (b :: v) A [] None) as (v1 & c & v2 & G1 & G2 & G3 & G4); [now rewrite app_nil_r|intros ? []|exists b; split; [now left|exact Hab]|].
  rewrite app_nil_r in G2.
  exists (zlen u), a, (zlen u + 1 + zlen v1), c, (u ++ c :: v1 ++ c :: v2), (u ++ c :: v1 ++ a :: v2).
  split; [exact E|]. rewrite EA at 1. split; [apply py_get_app|]. split; [|].
  { rewrite <- G1. do 2 f_equal. rewrite EA, zlen_app, !zlen_cons. lia. }
  assert (Lj : zlen u + 1 + zlen v1 = zlen (u ++ a :: v1)) by (rewrite zlen_app, zlen_cons; lia).
  assert (Lj' : zlen u + 1 + zlen v1 = zlen (u ++ c :: v1)) by (rewrite zlen_app, zlen_cons; lia).
  assert (EA' : A = (u ++ a :: v1) ++ c :: v2) by (rewrite EA, G2, <- app_assoc; reflexivity).
  split; [rewrite Lj; rewrite EA' at 1; apply py_get_app|]. split; [rewrite EA at 1; rewrite G2; apply py_set_app|].
  split; [rewrite Lj'; replace (u ++ c :: v1 ++ c :: v2) with ((u ++ c :: v1) ++ c :: v2) by (rewrite <- app_assoc; reflexivity); rewrite py_set_app; now rewrite <- app_assoc|].
  rewrite slice_to_app_S, slice_from_app_S. exists u, a, v1, c, v2. split; [now rewrite EA, G2|]. split; [now rewrite <- G2|]. split; [exact G3|]. split; [exact G4|]. now rewrite <- app_assoc.
Qed.
(** measure: the number of arrangements above *)
Fixpoint ltb (p q : list Z) : bool :=
  match p, q with [], _ :: _ => true | a :: p', b :: q' => (a <? b) || ((a =? b) && ltb p' q') | _, _ => false end.
Lemma ltb_lt p : forall q, ltb p q = true <-> tuple_lt p q.
Proof.
  induction p as [|a p IH]; intros [|b q]; cbn; try (split; [discriminate|tauto]); [tauto|]. rewrite orb_true_iff, andb_true_iff, Z.ltb_lt, Z.eqb_eq, IH. tauto.
Qed.
Definition above (l A : list Z) : nat := length (filter (ltb A) (permutations l)).
Lemma above_lt l A A' : Permutation A' l -> tuple_lt A A' -> (above l A' < above l A)%nat.
Proof.
  intros P L. unfold above. assert (Hin : In A' (permutations l)) by (apply perms_fuel_in; auto).
  assert (G : forall L0, (length (filter (ltb A') L0) <= length (filter (ltb A) L0))%nat /\ (In A' L0 -> (length (filter (ltb A') L0) < length (filter (ltb A) L0))%nat)).
  { induction L0 as [|p L0 [IH1 IH2]]; cbn [filter In length]; [split; [lia|tauto]|].
    assert (M : ltb A' p = true -> ltb A p = true) by (rewrite !ltb_lt; apply lt_trans; exact L).
    split; [destruct (ltb A' p); [rewrite M by reflexivity; cbn; lia|destruct (ltb A p); cbn; lia]|].
    intros [->|Hp]; [|specialize (IH2 Hp); destruct (ltb A' p); [rewrite M by reflexivity; cbn; lia|destruct (ltb A p); cbn; lia]].
    destruct (ltb A' A') eqn:E; [apply ltb_lt in E; now apply lt_irrefl in E|]. rewrite (proj2 (ltb_lt A A') L). cbn. lia. }
  now apply G.
Qed.
Lemma dp_full_ok l : forall n A fuel, (above l A < n)%nat -> (above l A < fuel)%nat -> Permutation A l -> A <> [] ->
  exists L, dp_full fuel A = Ok L /\ StronglySorted tuple_lt L /\ forall p, In p L <-> Permutation p l /\ tuple_le A p.
Proof.
  induction n as [|n IH]; intros A fuel Hn Hf P N; [lia|]. destruct fuel as [|fuel]; [lia|]. cbn [dp_full].
  destruct (full_step A N) as [[E S]|(i & ai & j & aj & A1 & A2 & E & E1 & E2 & E3 & E4 & E5 & NX)].
  - rewrite E. cbn [bind]. exists [A]. split; [reflexivity|]. split; [repeat constructor|]. intros p. cbn [In]. split.
    + intros [<-|[]]. split; [exact P|now left].
    + intros [Pp [->|Lp]]; [now left|]. exfalso. assert (tuple_le p A) by (apply max_arr; [exact S|now rewrite Pp]). apply (lt_irrefl A). now apply (lt_le_trans A p).
  - rewrite E. cbn [bind]. rewrite E1. cbn [bind]. rewrite E2. cbn [bind]. rewrite E3. cbn [bind]. rewrite E4. cbn [bind]. rewrite E5. cbn [bind].
    set (A3 := slice_to A2 (i + 1) ++ rev (slice_from A2 (i + 1))) in *. pose proof (nextp_perm _ _ NX) as PX. pose proof (nextp_lt _ _ NX) as LX.
    assert (PX' : Permutation A3 l) by now rewrite PX. pose proof (above_lt l A A3 PX' LX) as AB.
    destruct (IH A3 fuel ltac:(lia) ltac:(lia) PX') as (L & EL & SL & HL). { intros ->. apply Permutation_nil in PX. congruence. }
    rewrite EL. cbn [bind]. exists (A :: L). split; [reflexivity|]. split.
    + constructor; [exact SL|]. apply Forall_forall. intros p Hp. apply HL in Hp. now apply (lt_le_trans A A3).
    + intros p. cbn [In]. rewrite HL. split.
      * intros [<-|[Pp Lp]]; [split; [exact P|now left]|]. split; [exact Pp|right]. now apply (lt_le_trans A A3).
      * intros [Pp [->|Lp]]; [now left|right]. split; [exact Pp|]. apply (nextp_least A); [exact NX|now rewrite Pp, P|exact Lp].
Qed.
(** ** the code: partial *)
Lemma dp_pivot_ok head : forall u v w piv, head = u ++ v -> nonincreasing (v ++ piv :: w) ->
  (dp_pivot head (hd piv v) (zrange_down (zlen u - 1) (-1)) = Ok None /\ nonincreasing (head ++ piv :: w)) \/
  (exists u' a v', dp_pivot head (hd piv v) (zrange_down (zlen u - 1) (-1)) = Ok (Some (zlen u')) /\ head = u' ++ a :: v' /\ a < hd piv v' /\ nonincreasing (v' ++ piv :: w)).
Proof.
  intros u. induction u as [|a u IH] using rev_ind; intros v w piv E S.
  - left. split; [reflexivity|now subst head].
  - rewrite <- app_assoc in E. cbn [app] in E. rewrite zlen_app. change (zlen [a]) with 1. replace (zlen u + 1 - 1) with (zlen u) by lia. pose proof (zlen_nonneg u).
    assert (G1 : py_get head (zlen u) = Ok a) by (rewrite E; apply py_get_app).
    rewrite zrange_down_cons by lia. cbn [dp_pivot]. rewrite G1. cbn [bind]. destruct (Z.ltb_spec a (hd piv v)) as [L|L].
    + right. exists u, a, v. auto.
    + apply (IH (a :: v) w piv E). cbn [app]. unfold nonincreasing in *. constructor; [exact S|]. apply Forall_forall. intros c Hc.
      assert (c <= hd piv v); [|lia]. destruct v as [|b v]; cbn [app hd] in *.
      * inversion S as [|? ? S' F]; subst. destruct Hc as [<-|Hc]; [lia|]. rewrite Forall_forall in F. specialize (F c Hc). lia.
      * inversion S as [|? ? S' F]; subst. destruct Hc as [<-|Hc]; [lia|]. rewrite Forall_forall in F. specialize (F c Hc). lia.
Qed.
(** first entry of the ascending tail above [a] *)
Lemma dp_find_up l a : forall v u, l = u ++ v ->
  (dp_find l a (zrange (zlen u) (zlen l)) = Ok None /\ forall c, In c v -> c <= a) \/
  (exists v1 b v2, v = v1 ++ b :: v2 /\ dp_find l a (zrange (zlen u) (zlen l)) = Ok (Some (zlen (u ++ v1))) /\ a < b /\ forall c, In c v1 -> c <= a).
Proof.
  induction v as [|b v IH]; intros u E.
  - left. rewrite app_nil_r in E. subst l. rewrite zrange_nil by lia. split; [reflexivity|intros ? []].
  - assert (Ll : zlen l = zlen u + zlen v + 1) by (rewrite E, zlen_app, zlen_cons; lia). pose proof (zlen_nonneg v). assert (G1 : py_get l (zlen u) = Ok b) by (rewrite E; apply py_get_app).
    rewrite zrange_cons by lia. cbn [dp_find]. rewrite G1. cbn [bind].
    destruct (Z.ltb_spec a b) as [L|L].
    + right. exists [], b, v. rewrite app_nil_r. split; [reflexivity|]. split; [reflexivity|]. split; [exact L|intros ? []].
    + replace (zlen u + 1) with (zlen (u ++ [b])) by now rewrite zlen_app. destruct (IH (u ++ [b])) as [[E1 E2]|(v1 & c & v2 & -> & E1 & E2 & E3)]; [now rewrite <- app_assoc| |].
      * left. split; [exact E1|]. intros c [<-|Hc]; auto.
      * right. exists (b :: v1), c, v2. split; [reflexivity|]. rewrite <- app_assoc in E1. split; [exact E1|]. split; [exact E2|]. intros d [<-|Hd]; auto.
Qed.
(** last entry of the head above [a] *)
Lemma dp_find_down a u : forall v head w, head = u ++ a :: v ++ w -> (forall c, In c w -> c <= a) -> (exists c, In c v /\ a < c) ->
  exists v1 b v2, dp_find head a (zrange_down (zlen u + zlen v) (-1)) = Ok (Some (zlen u + 1 + zlen v1)) /\ v ++ w = v1 ++ b :: v2 /\ a < b /\ forall c, In c v2 -> c <= a.
Proof.
  intros v. induction v as [|b v IH] using rev_ind; intros head w E Hw Ex; [destruct Ex as (c & [] & _)|].
  rewrite zlen_app. change (zlen [b]) with 1. pose proof (zlen_nonneg v). pose proof (zlen_nonneg u). rewrite zrange_down_cons by lia. cbn [dp_find].
  assert (E' : head = (u ++ a :: v) ++ b :: w) by (rewrite E, <- !app_assoc; reflexivity).
  assert (Ez : zlen u + (zlen v + 1) = zlen (u ++ a :: v)) by (rewrite zlen_app, zlen_cons; lia). assert (Gx : py_get head (zlen (u ++ a :: v)) = Ok b) by (rewrite E'; apply py_get_app). rewrite Ez, Gx. cbn [bind].
  destruct (Z.ltb_spec a b) as [L|L].
  - exists v, b, w. rewrite <- app_assoc. split; [do 2 f_equal; lia|]. auto.
  - rewrite <- Ez. replace (zlen u + (zlen v + 1) - 1) with (zlen u + zlen v) by lia. rewrite <- app_assoc in E. cbn [app] in E.
    destruct (IH head (b :: w) E) as (v1 & b' & v2 & G1 & G2 & G3 & G4).
    + intros c [<-|Hc]; [exact L|auto].
    + destruct Ex as (c & Hc & Hac). exists c. split; [|exact Hac]. apply in_app_iff in Hc. destruct Hc as [Hc|[<-|[]]]; [exact Hc|lia].
    + exists v1, b', v2. split; [exact G1|]. rewrite <- app_assoc. auto.
Qed.
Definition swapped (head tail : list Z) (i hi : Z) (oj : option Z) (rhi : list Z) : res (list Z * list Z) :=
  match oj with
  | Some j => let! tj := py_get tail j in let! head1 := py_set head i tj in let! tail1 := py_set tail j hi in Ok (head1, tail1)
  | None => let! oj' := dp_find head hi rhi in
      match oj' with
      | Some j => let! hj := py_get head j in let! h1 := py_set head i hj in let! h2 := py_set h1 j hi in Ok (h2, tail)
      | None => Ok (head, tail)
      end
  end.
Lemma firstn_skipn_slice (l : list Z) k : 0 <= k -> slice_to l k ++ slice_from l k = l.
Proof. intros H. rewrite slice_to_firstn, slice_from_skipn by lia. apply firstn_skipn. Qed.
Lemma partial_step r head tail : zlen head = r -> tail <> [] -> nondecreasing tail ->
  exists piv, py_get tail (-1) = Ok piv /\
  ((dp_pivot head piv (zrange_down (r - 1) (-1)) = Ok None /\ nonincreasing (head ++ rev tail)) \/
  (exists i hi oj h1 t1, dp_pivot head piv (zrange_down (r - 1) (-1)) = Ok (Some i) /\ py_get head i = Ok hi /\ dp_find tail hi (zrange 0 (zlen tail)) = Ok oj /\
     swapped head tail i hi oj (zrange_down (r - 1) (-1)) = Ok (h1, t1) /\
     let t2 := t1 ++ rev (slice_from h1 (i + 1)) in
     let head2 := slice_to h1 (i + 1) ++ slice_to t2 (r - (i + 1)) in
     let tail3 := slice_from t2 (r - (i + 1)) in
     nextp (head ++ rev tail) (head2 ++ tail3) /\ zlen head2 = r /\ zlen tail3 = zlen tail /\ nondecreasing tail3 /\ tuple_lt head head2)).
Proof.
  intros Lh Nt St. destruct (exists_last Nt) as (t0 & piv & Et). exists piv. split.
  { rewrite Et. unfold py_get. cbn [Z.ltb Z.compare]. replace (-1 <? 0) with true by reflexivity. rewrite zlen_app. change (zlen [piv]) with 1. replace (-1 + (zlen t0 + 1)) with (zlen t0) by lia.
    pose proof (zlen_nonneg t0). rewrite (proj2 (Z.ltb_ge _ _)) by lia. rewrite zlen_length. rewrite nth_error_app2 by lia. now rewrite Nat.sub_diag. }
  assert (Rt : rev tail = piv :: rev t0) by (rewrite Et, rev_app_distr; reflexivity).
  destruct (dp_pivot_ok head head [] (rev t0) piv ltac:(now rewrite app_nil_r)) as [H|(u & a & v & E & Eh & Hab & S)].
  { cbn [app]. rewrite <- Rt. now apply rev_nondecreasing. }
  { left. cbn [hd] in H. rewrite Lh, <- Rt in H. exact H. }
  right. cbn [hd] in E. rewrite Lh in E. rewrite <- Rt in S. pose proof (zlen_nonneg u). pose proof (zlen_nonneg v). assert (Lr : r = zlen u + 1 + zlen v) by (rewrite <- Lh, Eh, zlen_app, zlen_cons; lia).
  (* v1 b v2 decomposition of v ++ rev tail *)
  assert (K : exists oj h1 t1, dp_find tail a (zrange 0 (zlen tail)) = Ok oj /\ swapped head tail (zlen u) a oj (zrange_down (r - 1) (-1)) = Ok (h1, t1) /\
     exists b v1 v2, v ++ rev tail = v1 ++ b :: v2 /\ a < b /\ (forall c, In c v2 -> c <= a) /\ exists v', h1 = u ++ b :: v' /\ zlen v' = zlen v /\ zlen t1 = zlen tail /\ v' ++ rev t1 = v1 ++ a :: v2).
  { destruct (dp_find_up tail a tail [] eq_refl) as [[F1 F2]|(t1 & b & t2 & Et2 & F1 & F2 & F3)].
    - change (zlen []) with 0 in F1. exists None. destruct (dp_find_down a u v head []) as (v1 & b & v2 & G1 & G2 & G3 & G4).
      + now rewrite app_nil_r.
      + intros ? [].
      + destruct v as [|c v]; [cbn [hd] in Hab; specialize (F2 piv ltac:(rewrite Et; apply in_app_iff; right; now left)); lia|]. exists c. split; [now left|exact Hab].
      + rewrite app_nil_r in G2. exists (u ++ b :: v1 ++ a :: v2), tail. split; [exact F1|]. split.
        * unfold swapped. replace (r - 1) with (zlen u + zlen v) by lia. rewrite G1. cbn [bind].
          assert (Lj : zlen u + 1 + zlen v1 = zlen (u ++ a :: v1)) by (rewrite zlen_app, zlen_cons; lia).
          assert (Lj' : zlen u + 1 + zlen v1 = zlen (u ++ b :: v1)) by (rewrite zlen_app, zlen_cons; lia).
          assert (Eh' : head = (u ++ a :: v1) ++ b :: v2) by (rewrite Eh, G2, <- app_assoc; reflexivity).
          rewrite Lj. rewrite Eh' at 1. rewrite py_get_app. cbn [bind]. rewrite Eh, G2, py_set_app. cbn [bind]. rewrite <- Lj, Lj'.
          replace (u ++ b :: v1 ++ b :: v2) with ((u ++ b :: v1) ++ b :: v2) by (rewrite <- app_assoc; reflexivity). rewrite py_set_app. cbn [bind]. now rewrite <- app_assoc.
        * exists b, v1, (v2 ++ rev tail). rewrite G2, <- app_assoc. split; [reflexivity|]. split; [exact G3|]. split; [intros c Hc; apply in_app_iff in Hc; destruct Hc as [Hc|Hc]; [auto|apply F2; now apply in_rev]|].
          exists (v1 ++ a :: v2). split; [reflexivity|]. split; [rewrite !zlen_app, !zlen_cons; lia|]. split; [reflexivity|]. now rewrite <- app_assoc.
    - change (zlen []) with 0 in F1. cbn [app] in F1. exists (Some (zlen t1)), (u ++ b :: v), (t1 ++ a :: t2). split; [exact F1|]. split.
      + unfold swapped. rewrite Et2 at 1. rewrite py_get_app. cbn [bind]. rewrite Eh, py_set_app. cbn [bind]. rewrite Et2, py_set_app. reflexivity.
      + exists b, (v ++ rev t2), (rev t1). split; [rewrite Et2, rev_app_distr; cbn [rev]; now rewrite <- !app_assoc|]. split; [exact F2|]. split; [intros c Hc; apply F3; now apply in_rev|].
        exists v. split; [reflexivity|]. split; [reflexivity|]. split; [rewrite Et2, !zlen_app, !zlen_cons; lia|]. rewrite rev_app_distr. cbn [rev]. now rewrite <- !app_assoc. }
  destruct K as (oj & h1 & t1 & K1 & K2 & b & v1 & v2 & K3 & K4 & K5 & v' & -> & Lv & Lt & K6). exists (zlen u), a, oj, (u ++ b :: v'), t1.
  split; [exact E|]. split; [rewrite Eh; apply py_get_app|]. split; [exact K1|]. split; [exact K2|]. cbn zeta. rewrite slice_to_app_S, slice_from_app_S.
  set (t2 := t1 ++ rev v'). assert (T2 : t2 = rev (v1 ++ a :: v2)). { unfold t2. rewrite <- K6, rev_app_distr, rev_involutive. reflexivity. }
  assert (St2 : nondecreasing t2). { rewrite T2. apply rev_nonincreasing. apply (swap_nonincreasing v1 a b v2); auto. now rewrite <- K3. }
  assert (L2 : zlen t2 = zlen tail + zlen v). { unfold t2. rewrite zlen_app, Lt. unfold zlen in *. rewrite rev_length. lia. }
  pose proof (zlen_nonneg tail). replace (r - (zlen u + 1)) with (zlen v) by lia.
  assert (Lst : zlen (slice_to t2 (zlen v)) = zlen v). { rewrite slice_to_firstn by lia. unfold zlen in *. rewrite firstn_length. lia. }
  pose proof (firstn_skipn_slice t2 (zlen v) ltac:(lia)) as FS. split; [|split; [|split; [|split]]].
  - exists u, a, v1, b, v2. split; [rewrite Eh, <- app_assoc; cbn [app]; now rewrite K3|]. split; [now rewrite <- K3|]. split; [exact K4|]. split; [exact K5|].
    rewrite <- T2, <- !app_assoc. cbn [app]. now rewrite FS.
  - rewrite !zlen_app, Lst. change (zlen [b]) with 1. lia.
  - assert (zlen (slice_to t2 (zlen v) ++ slice_from t2 (zlen v)) = zlen t2) by now rewrite FS. rewrite zlen_app in *. lia.
  - rewrite <- FS in St2. now apply sorted_app in St2.
  - rewrite Eh, <- app_assoc. apply lt_app_l. now left.
Qed.
Lemma lt_split p q : forall p' q', length p = length q -> tuple_lt (p ++ p') (q ++ q') -> tuple_le p q.
Proof.
  revert q. induction p as [|a p IH]; intros [|b q] p' q' L Hlt; try discriminate; [now left|]. cbn [app tuple_lt] in Hlt. destruct Hlt as [H|[-> H]]; [right; now left|]. apply le_cons. apply (IH q p' q'); [now injection L|exact H].
Qed.
Lemma lt_of_head p q : forall p' q', length p = length q -> tuple_lt p q -> tuple_lt (p ++ p') (q ++ q').
Proof.
  revert q. induction p as [|a p IH]; intros [|b q] p' q' L Hlt; try discriminate; [destruct Hlt|]. destruct Hlt as [H|[-> H]]; [now left|]. right. split; [reflexivity|]. apply IH; [now injection L|exact H].
Qed.
Lemma dp_partial_ok l r : 0 < r -> forall n head tail fuel, (above l (head ++ rev tail) < n)%nat -> (above l (head ++ rev tail) < fuel)%nat ->
  Permutation (head ++ tail) l -> zlen head = r -> tail <> [] -> nondecreasing tail ->
  exists L, dp_partial fuel r head tail = Ok L /\ StronglySorted tuple_lt L /\ forall p, In p L <-> arrangement l r p /\ tuple_le head p.
Proof.
  intros Hr. induction n as [|n IH]; intros head tail fuel Hn Hf P Lh Nt St; [lia|]. destruct fuel as [|fuel]; [lia|]. cbn [dp_partial].
  assert (P' : Permutation (head ++ rev tail) l) by now rewrite <- Permutation_rev.
  assert (Ah : arrangement l r head) by (split; [exact Lh|now exists tail]).
  destruct (partial_step r head tail Lh Nt St) as (piv & E0 & [[E S]|(i & hi & oj & h1 & t1 & E & E1 & E2 & E3 & NX & L2 & L3 & S3 & LT)]); rewrite E0; cbn [bind]; rewrite E; cbn [bind].
  - exists [head]. split; [reflexivity|]. split; [repeat constructor|]. intros p. cbn [In]. split.
    + intros [<-|[]]. split; [exact Ah|now left].
    + intros [[Lp (rest & Pp)] [->|Hlt]]; [now left|]. exfalso. assert (M : tuple_le (p ++ rest) (head ++ rev tail)) by (apply max_arr; [exact S|now rewrite Pp, P']).
      apply (lt_irrefl (head ++ rev tail)). eapply lt_le_trans; [|exact M]. apply lt_of_head; [unfold zlen in *; lia|exact Hlt].
  - rewrite E1. cbn [bind]. rewrite E2. cbn [bind]. fold (swapped head tail i hi oj (zrange_down (r - 1) (-1))). rewrite E3. cbn [bind].
    set (t2 := t1 ++ rev (slice_from h1 (i + 1))) in *. set (head2 := slice_to h1 (i + 1) ++ slice_to t2 (r - (i + 1))) in *. set (tail3 := slice_from t2 (r - (i + 1))) in *. cbn zeta in *.
    pose proof (nextp_perm _ _ NX) as PX. pose proof (nextp_lt _ _ NX) as LX. assert (PX' : Permutation (head2 ++ tail3) l) by now rewrite PX.
    assert (PX2 : Permutation (head2 ++ rev tail3) l) by now rewrite <- Permutation_rev. assert (Nt3 : tail3 <> []). { intros E'. rewrite E' in L3. apply Nt. apply zlen_0. now rewrite <- L3. }
    assert (AB : (above l (head2 ++ rev tail3) < above l (head ++ rev tail))%nat). { apply above_lt; [exact PX2|]. apply lt_of_head; [unfold zlen in *; lia|exact LT]. }
    destruct (IH head2 tail3 fuel ltac:(lia) ltac:(lia) PX' L2 Nt3 S3) as (L & EL & SL & HL). rewrite EL. cbn [bind]. exists (head :: L). split; [reflexivity|]. split.
    + constructor; [exact SL|]. apply Forall_forall. intros p Hp. apply HL in Hp. now apply (lt_le_trans head head2).
    + intros p. cbn [In]. rewrite HL. split.
      * intros [<-|[Pp Lp]]; [split; [exact Ah|now left]|]. split; [exact Pp|right]. now apply (lt_le_trans head head2).
      * intros [Pp [->|Lp]]; [now left|right]. split; [exact Pp|]. destruct Pp as [Lp' (rest & Pp)].
        assert (M : tuple_le (head2 ++ tail3) (p ++ rest)). { apply (nextp_least _ _ NX); [now rewrite Pp, P'|]. apply lt_of_head; [unfold zlen in *; lia|exact Lp]. }
        destruct M as [M|M]; [|apply lt_split in M; [exact M|unfold zlen in *; lia]]. left. apply (f_equal (firstn (length head2))) in M. rewrite firstn_app, Nat.sub_diag, firstn_O, app_nil_r, firstn_all in M.
        replace (length head2) with (length p) in M by (unfold zlen in *; lia). rewrite firstn_app, Nat.sub_diag, firstn_O, app_nil_r, firstn_all in M. exact M.
Qed.
(** #C60_distinct_permutations# The generator terminates; it yields every
    distinct [r]-permutation of the items exactly once (all permutations if
    [r] is not given), in increasing order. *)
Lemma C60_distinct_permutations_l (l : list Z) (o : option Z) :
  let r := match o with Some r => r | None => zlen l end in
  exists L, (exists fuel0, forall fuel, (fuel0 <= fuel)%nat -> distinct_permutations fuel l o = Ok L) /\
    StronglySorted tuple_lt L /\ NoDup L /\ forall p, In p L <-> arrangement l r p.
Proof.
  cbn zeta. set (r := match o with Some r => r | None => zlen l end).
  assert (X : exists L, (exists fuel0, forall fuel, (fuel0 <= fuel)%nat -> distinct_permutations fuel l o = Ok L) /\ StronglySorted tuple_lt L /\ forall p, In p L <-> arrangement l r p).
  { pose proof (zsort_perm l) as PS. pose proof (zlen_perm _ _ PS) as LS. unfold distinct_permutations. rewrite LS. fold r. destruct ((0 <? r) && (r <=? zlen l)) eqn:E.
    - apply andb_true_iff in E. rewrite Z.ltb_lt, Z.leb_le in E. destruct (Z.eqb_spec r (zlen l)) as [Er|Nr].
      + destruct (dp_full_ok l (S (above l (zsort l))) (zsort l) (S (above l (zsort l))) ltac:(lia) ltac:(lia) PS) as (L & EL & SL & HL).
        { intros E'. rewrite E' in LS. change (zlen []) with 0 in LS. lia. }
        exists L. split.
        * exists (S (above l (zsort l))). intros fuel Hf. destruct (dp_full_ok l (S (above l (zsort l))) (zsort l) fuel ltac:(lia) ltac:(lia) PS) as (L' & EL' & SL' & HL').
          { intros E'. rewrite E' in LS. change (zlen []) with 0 in LS. lia. }
          rewrite EL'. f_equal. assert (HH : forall p, In p L' <-> In p L) by (intros p; now rewrite HL, HL'). clear -SL SL' HH.
          revert L SL HH. induction SL' as [|p L' S' IH F]; intros L SL HH; [destruct L as [|q L]; [reflexivity|destruct (proj2 (HH q) (or_introl eq_refl))]|].
          destruct SL as [|q L S2 F2]; [destruct (proj1 (HH p) (or_introl eq_refl))|]. rewrite Forall_forall in F, F2.
          assert (p = q). { destruct (proj1 (HH p) (or_introl eq_refl)) as [->|H1]; [reflexivity|]. destruct (proj2 (HH q) (or_introl eq_refl)) as [->|H2]; [reflexivity|]. exfalso. apply (lt_irrefl p). apply (lt_trans p q); [now apply F|now apply F2]. }
          subst q. f_equal. apply IH; [exact S2|]. intros x. specialize (HH x). cbn [In] in HH. split; intros Hx.
          -- destruct (proj1 HH (or_intror Hx)) as [<-|Hy]; [exfalso; apply (lt_irrefl p); now apply F|exact Hy].
          -- destruct (proj2 HH (or_intror Hx)) as [<-|Hy]; [exfalso; apply (lt_irrefl p); now apply F2|exact Hy].
        * split; [exact SL|]. intros p. rewrite HL. unfold arrangement. rewrite Er. split.
          -- intros [Pp _]. split; [now apply zlen_perm|]. exists []. now rewrite app_nil_r.
          -- intros [Lp (rest & Pp)]. pose proof (zlen_perm _ _ Pp) as Lr. rewrite zlen_app in Lr. assert (rest = []) as -> by (apply zlen_0; lia). rewrite app_nil_r in Pp. split; [exact Pp|].
             apply min_arr; [apply zsort_sorted|]. now rewrite Pp, PS.
      + assert (Nt : slice_from (zsort l) r <> []). { rewrite slice_from_skipn by lia. intros E'. apply (f_equal (@length Z)) in E'. rewrite skipn_length in E'. unfold zlen in *. cbn in E'. lia. }
        pose proof (firstn_skipn_slice (zsort l) r ltac:(lia)) as FS. set (head := slice_to (zsort l) r) in *. set (tail := slice_from (zsort l) r) in *.
        assert (Lh : zlen head = r). { unfold head. rewrite slice_to_firstn by lia. unfold zlen in *. rewrite firstn_length. lia. }
        assert (St : nondecreasing tail). { pose proof (zsort_sorted l) as SS. rewrite <- FS in SS. now apply sorted_app in SS. }
        assert (PP : Permutation (head ++ tail) l) by now rewrite FS.
        set (m := S (above l (head ++ rev tail))).
        destruct (dp_partial_ok l r ltac:(lia) m head tail m ltac:(lia) ltac:(lia) PP Lh Nt St) as (L & EL & SL & HL).
        exists L. split.
        * exists m. intros fuel Hf. destruct (dp_partial_ok l r ltac:(lia) m head tail fuel ltac:(lia) ltac:(lia) PP Lh Nt St) as (L' & EL' & SL' & HL').
          rewrite EL'. f_equal. assert (HH : forall p, In p L' <-> In p L) by (intros p; now rewrite HL, HL'). clear -SL SL' HH.
          revert L SL HH. induction SL' as [|p L' S' IH F]; intros L SL HH; [destruct L as [|q L]; [reflexivity|destruct (proj2 (HH q) (or_introl eq_refl))]|].
          destruct SL as [|q L S2 F2]; [destruct (proj1 (HH p) (or_introl eq_refl))|]. rewrite Forall_forall in F, F2.
          assert (p = q). { destruct (proj1 (HH p) (or_introl eq_refl)) as [->|H1]; [reflexivity|]. destruct (proj2 (HH q) (or_introl eq_refl)) as [->|H2]; [reflexivity|]. exfalso. apply (lt_irrefl p). apply (lt_trans p q); [now apply F|now apply F2]. }
          subst q. f_equal. apply IH; [exact S2|]. intros x. specialize (HH x). cbn [In] in HH. split; intros Hx.
          -- destruct (proj1 HH (or_intror Hx)) as [<-|Hy]; [exfalso; apply (lt_irrefl p); now apply F|exact Hy].
          -- destruct (proj2 HH (or_intror Hx)) as [<-|Hy]; [exfalso; apply (lt_irrefl p); now apply F2|exact Hy].
        * split; [exact SL|]. intros p. rewrite HL. split; [tauto|]. intros Ap. split; [exact Ap|]. destruct Ap as [Lp (rest & Pp)].
          assert (M : tuple_le (head ++ tail) (p ++ rest)) by (apply min_arr; [rewrite FS; apply zsort_sorted|now rewrite Pp, PP]).
          destruct M as [M|M]; [|apply lt_split in M; [exact M|unfold zlen in *; lia]]. left. apply (f_equal (firstn (length head))) in M. rewrite firstn_app, Nat.sub_diag, firstn_O, app_nil_r, firstn_all in M.
          replace (length head) with (length p) in M by (unfold zlen in *; lia). rewrite firstn_app, Nat.sub_diag, firstn_O, app_nil_r, firstn_all in M. exact M.
    - apply andb_false_iff in E. rewrite Z.ltb_ge, Z.leb_gt in E. exists (if r =? 0 then [[]] else []). split; [exists O; reflexivity|]. destruct (Z.eqb_spec r 0) as [Er|Nr].
      + split; [repeat constructor|]. intros p. unfold arrangement. rewrite Er. cbn [In]. split; [intros [<-|[]]; split; [reflexivity|exists l; reflexivity]|]. intros [Lp _]. left. symmetry. now apply zlen_0.
      + split; [constructor|]. intros p. unfold arrangement. cbn [In]. split; [intros []|]. intros [Lp (rest & Pp)]. apply zlen_perm in Pp. rewrite zlen_app in Pp. pose proof (zlen_nonneg p). pose proof (zlen_nonneg rest). lia. }
  destruct X as (L & HF & SL & HL). exists L. split; [exact HF|]. split; [exact SL|]. split; [|exact HL].
  clear -SL. induction SL as [|p L S IH F]; constructor; [|exact IH]. intros Hin. rewrite Forall_forall in F. apply (lt_irrefl p). now apply F.
Qed.
(** #C60_example# *)
Example C60_example_l :
  distinct_permutations 20 [2; 1; 2; 1] None = Ok [[1; 1; 2; 2]; [1; 2; 1; 2]; [1; 2; 2; 1]; [2; 1; 1; 2]; [2; 1; 2; 1]; [2; 2; 1; 1]] /\
  distinct_permutations 20 [2; 1; 3; 1] (Some 2) = Ok [[1; 1]; [1; 2]; [1; 3]; [2; 1]; [2; 3]; [3; 1]; [3; 2]] /\
  distinct_permutations 20 [] None = Ok [[]] /\ distinct_permutations 20 [1; 2] (Some 3) = Ok [].
Proof. vm_compute. repeat split; reflexivity. Qed.
