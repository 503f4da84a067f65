(** * Property theorems of utils.py *)
From Coq Require Import Setoid Morphisms Sorting.Sorted.
From Verif Require Import PyBase Dict FreeModule Utils Eqm Spec SpecUtils FreeModuleFacts ListFacts ClassFacts SymmetricFacts SymmetricLaws BEDiag SurjLaws4.

(** ** partitions *)
Lemma unordered_S k n r m : (1 <= k)%nat -> unordered_partitions (S k) n r m = flat_map (fun i => map (cons i) (unordered_partitions k (n - i) i m)) (zrange r (m + 1)).
Proof. destruct k; [lia|]. reflexivity. Qed.
Lemma unordered_in k : forall n r m p, (1 <= k)%nat -> (In p (unordered_partitions k n r m) <-> summands n (Z.of_nat k) r m p /\ nondecreasing p).
Proof.
  unfold summands, nondecreasing. induction k as [|k IH]; intros n r m p Hk; [lia|]. destruct k as [|k].
  - cbn [unordered_partitions]. split.
    + destruct ((r <=? n) && (n <=? m)) eqn:E; [|intros []]. apply andb_true_iff in E. rewrite !Z.leb_le in E. intros [<-|[]]. unfold zlen, zsum. cbn. repeat split; try lia; try (intros; lia); repeat constructor; destruct H as [<-|[]]; lia.
    + intros [(L & S & B) _]. destruct p as [|a [|b p]]; unfold zlen, zsum in *; cbn in *; try lia. specialize (B a (or_introl eq_refl)).
      assert (n = a) as -> by lia. rewrite (proj2 (andb_true_iff _ _)) by (rewrite !Z.leb_le; lia). left. reflexivity.
  - rewrite unordered_S by lia. rewrite in_flat_map. split.
    + intros (i & Hi & Hp). apply in_zrange in Hi. apply in_map_iff in Hp. destruct Hp as (p' & <- & Hp). apply IH in Hp; [|lia]. destruct Hp as ((L & S & B) & SS).
      change (zsum (i :: p')) with (i + zsum p'). rewrite zlen_cons. repeat split; try lia.
      * destruct H as [<-|H]; [lia|]. specialize (B _ H). lia.
      * destruct H as [<-|H]; [lia|]. specialize (B _ H). lia.
      * constructor; [exact SS|]. apply Forall_forall. intros b Hb. apply (B b Hb).
    + intros ((L & S & B) & SS). destruct p as [|i p]; [unfold zlen in L; cbn in L; lia|]. exists i. split; [apply in_zrange; specialize (B i (or_introl eq_refl)); lia|].
      apply in_map. apply IH; [lia|]. inversion SS as [|? ? SS' F]; subst. change (zsum (i :: p)) with (i + zsum p). rewrite zlen_cons in L. repeat split; try lia; auto.
      * rewrite Forall_forall in F. now apply F.
      * apply B. now right.
Qed.
Lemma unordered_nodup k : forall n r m, (1 <= k)%nat -> NoDup (unordered_partitions k n r m).
Proof.
  induction k as [|k IH]; intros n r m Hk; [lia|]. destruct k as [|k].
  - cbn [unordered_partitions]. destruct ((r <=? n) && (n <=? m)); repeat constructor; auto.
  - rewrite unordered_S by lia. pose proof (NoDup_zrange r (m + 1)) as ND. induction (zrange r (m + 1)) as [|a l IHl]; cbn [flat_map]; [constructor|]. inversion ND as [|? ? Na ND']; subst.
    apply NoDup_app_i; [apply FinFun.Injective_map_NoDup; [intros u v [= ->]; reflexivity|apply IH; lia]|now apply IHl|].
    intros w Hw Hw'. apply in_map_iff in Hw. destruct Hw as (u & <- & _). apply in_flat_map in Hw'. destruct Hw' as (b & Hb & Hw'). apply in_map_iff in Hw'. destruct Hw' as (u' & [= -> _] & _). contradiction.
Qed.
(** sorting *)
Lemma insert_sorted_perm a l : Permutation (insert_sorted a l) (a :: l).
Proof. induction l as [|b l IH]; cbn; [reflexivity|]. destruct (a <=? b); [reflexivity|]. rewrite IH. apply perm_swap. Qed.
Lemma zsort_perm l : Permutation (zsort l) l.
Proof. induction l as [|a l IH]; cbn; [reflexivity|]. change (fold_right insert_sorted [] l) with (zsort l). rewrite insert_sorted_perm. now constructor. Qed.
Lemma insert_sorted_sorted a l : nondecreasing l -> nondecreasing (insert_sorted a l).
Proof.
  unfold nondecreasing. induction 1 as [|b l SS IH F]; cbn [insert_sorted]; [repeat constructor|]. destruct (Z.leb_spec a b) as [Hab|Hab].
  - constructor; [constructor; auto|]. constructor; [exact Hab|]. eapply Forall_impl; [|exact F]. cbn. intros; lia.
  - constructor; [exact IH|]. apply Forall_forall. intros c Hc. apply (Permutation_in _ (insert_sorted_perm a l)) in Hc. destruct Hc as [<-|Hc]; [lia|]. rewrite Forall_forall in F. now apply F.
Qed.
Lemma zsort_sorted l : nondecreasing (zsort l).
Proof. induction l as [|a l IH]; cbn; [constructor|]. now apply insert_sorted_sorted. Qed.
Lemma sorted_unique l : forall l', nondecreasing l -> nondecreasing l' -> Permutation l l' -> l = l'.
Proof.
  unfold nondecreasing. induction l as [|a l IH]; intros l' S S' P; [apply Permutation_nil in P; now subst|].
  destruct l' as [|b l']; [apply Permutation_sym, Permutation_nil in P; discriminate|]. inversion S as [|? ? S1 F1]; subst. inversion S' as [|? ? S2 F2]; subst. rewrite Forall_forall in *.
  assert (a = b). { assert (In a (b :: l')) as [E|Ha] by (eapply Permutation_in; [exact P|now left]); [auto|]. assert (In b (a :: l)) as [E|Hb] by (eapply Permutation_in; [apply Permutation_sym, P|now left]); [auto|].
    specialize (F1 _ Hb). specialize (F2 _ Ha). lia. }
  subst b. f_equal. apply IH; auto. now apply Permutation_cons_inv in P.
Qed.
Lemma zsum_perm p q : Permutation p q -> zsum p = zsum q.
Proof. induction 1; cbn; unfold zsum in *; cbn; lia. Qed.
Lemma zlen_perm {B} (p q : list B) : Permutation p q -> zlen p = zlen q.
Proof. intros H. unfold zlen. now rewrite (Permutation_length H). Qed.
Lemma summands_perm n k a b p q : Permutation p q -> summands n k a b p -> summands n k a b q.
Proof. intros P (L & S & B). split; [now rewrite <- (zlen_perm _ _ P)|]. split; [now rewrite <- (zsum_perm _ _ P)|]. intros i Hi. apply B. now apply (Permutation_in _ (Permutation_sym P)). Qed.
(** #C56_partitions# For [k >= 1]: exactly once each non-decreasing tuple,
    or each tuple when [ordered]. *)
Lemma C56_partitions_l (n k a : Z) (ob : option Z) (ordered : bool) : 1 <= k ->
  let b := match ob with Some b => b | None => n end in
  exists l, partitions n k a ob ordered = Ok l /\ NoDup l /\
    forall p, In p l <-> summands n k a b p /\ (ordered = false -> nondecreasing p).
Proof.
  intros Hk. cbn zeta. unfold partitions. rewrite (proj2 (Z.ltb_ge _ _)) by lia. set (b := match ob with Some b => b | None => n end). set (up := unordered_partitions (Z.to_nat k) n a b).
  assert (U : forall p, In p up <-> summands n k a b p /\ nondecreasing p). { intros p. unfold up. rewrite unordered_in by lia. now rewrite Z2Nat.id by lia. }
  assert (N : NoDup up) by (apply unordered_nodup; lia). destruct ordered.
  - exists (flat_map (fun p => dedup (permutations p)) up). split; [reflexivity|]. split.
    + assert (G : forall l, (forall p, In p l -> nondecreasing p) -> NoDup l -> NoDup (flat_map (fun p => dedup (permutations p)) l)); [|apply G; [intros p Hp; now apply U|exact N]].
      induction l as [|p l IH]; intros Hs ND; cbn [flat_map]; [constructor|]. inversion ND as [|? ? Np ND']; subst. apply NoDup_app_i; [apply dedup_nodup|apply IH; auto; intros; apply Hs; now right|].
      intros q Hq Hq'. rewrite dedup_in in Hq. apply perms_fuel_in in Hq; [|reflexivity]. apply in_flat_map in Hq'. destruct Hq' as (p' & Hp' & Hq'). rewrite dedup_in in Hq'. apply perms_fuel_in in Hq'; [|reflexivity].
      apply Np. replace p with p'; [exact Hp'|]. apply sorted_unique; [apply Hs; now right|apply Hs; now left|]. now rewrite <- Hq', Hq.
    + intros q. rewrite in_flat_map. split.
      * intros (p & Hp & Hq). rewrite dedup_in in Hq. apply perms_fuel_in in Hq; [|reflexivity]. apply U in Hp. split; [|discriminate]. now apply (summands_perm _ _ _ _ p q); [symmetry|].
      * intros [Hq _]. exists (zsort q). split; [apply U; split; [now apply (summands_perm _ _ _ _ q); [symmetry; apply zsort_perm|]|apply zsort_sorted]|].
        rewrite dedup_in. apply perms_fuel_in; [reflexivity|]. symmetry. apply zsort_perm.
  - exists up. split; [reflexivity|]. split; [exact N|]. intros p. rewrite U. tauto.
Qed.
(** #C56_no_parts# For [k <= 0] the recursion never ends, unless the range of
    the values is empty. *)
Lemma C56_no_parts_l (n k a : Z) (ob : option Z) (ordered : bool) : k <= 0 ->
  partitions n k a ob ordered = if a <=? match ob with Some b => b | None => n end then Err RecursionError else Ok [].
Proof. intros Hk. unfold partitions. now rewrite (proj2 (Z.ltb_lt _ _)) by lia. Qed.
(** ** decompositions *)
Lemma pairwise_acc c e l : pairwise (c :: accumulate_from c (e :: l)) = (c, c + e) :: pairwise (c + e :: accumulate_from (c + e) l).
Proof. reflexivity. Qed.
Lemma zlen_slice {B} (x : list B) a b : 0 <= a -> a <= b -> b <= zlen x -> zlen (slice x a b) = b - a.
Proof.
  intros Ha Hb Hx. unfold slice, clamp. rewrite !(proj2 (Z.ltb_ge _ _)) by lia. rewrite !Z.min_l by lia. unfold zlen in *. rewrite firstn_length, skipn_length. lia.
Qed.
Lemma acc_len l : forall c, zlen (accumulate_from c l) = zlen l.
Proof. induction l as [|a l IH]; intros c; cbn [accumulate_from]; [reflexivity|]. now rewrite !zlen_cons, IH. Qed.
Lemma acc_bounds l : forall c, (forall a, In a l -> 0 <= a) -> forall i, In i (accumulate_from c l) -> c <= i <= c + zsum l.
Proof.
  induction l as [|a l IH]; intros c Hl i Hi; [destruct Hi|]. assert (Ha : 0 <= a) by (apply Hl; now left). assert (Hl' : forall b, In b l -> 0 <= b) by (intros; apply Hl; now right).
  assert (0 <= zsum l). { clear -Hl'. induction l as [|b l IH]; [reflexivity|]. change (zsum (b :: l)) with (b + zsum l). specialize (IH ltac:(intros; apply Hl'; now right)). specialize (Hl' b (or_introl eq_refl)). lia. }
  change (zsum (a :: l)) with (a + zsum l). destruct Hi as [<-|Hi]; [lia|]. specialize (IH (c + a) Hl' i Hi). lia.
Qed.
Lemma acc_sorted l : forall c, (forall a, In a l -> 0 <= a) -> nondecreasing (accumulate_from c l).
Proof.
  unfold nondecreasing. induction l as [|a l IH]; intros c Hl; cbn [accumulate_from]; [constructor|]. assert (Hl' : forall b, In b l -> 0 <= b) by (intros; apply Hl; now right).
  constructor; [now apply IH|]. apply Forall_forall. intros i Hi. now apply (acc_bounds l (c + a)) in Hi.
Qed.
Lemma acc_last l : forall c a, exists js, accumulate_from c (a :: l) = js ++ [c + zsum (a :: l)].
Proof.
  induction l as [|b l IH]; intros c a; [exists []; cbn; unfold zsum; cbn; do 2 f_equal; lia|]. destruct (IH (c + a) b) as (js & E).
  exists ((c + a) :: js). change (accumulate_from c (a :: b :: l)) with ((c + a) :: accumulate_from (c + a) (b :: l)). rewrite E. cbn [app]. do 3 f_equal. change (zsum (a :: b :: l)) with (a + zsum (b :: l)). lia.
Qed.
Lemma acc_diff js : forall c, accumulate_from c (map (fun p => snd p - fst p) (pairwise (c :: js))) = js.
Proof.
  induction js as [|j js IH]; intros c; [reflexivity|]. rewrite pairwise_cons. cbn [map fst snd accumulate_from]. replace (c + (j - c)) with j by lia. now rewrite IH.
Qed.
Lemma sum_diff js c j : zsum (map (fun p => snd p - fst p) (pairwise (c :: js ++ [j]))) = j - c.
Proof.
  revert c. induction js as [|i js IH]; intros c; [unfold zsum; cbn; lia|]. cbn [app]. rewrite pairwise_cons. cbn [map fst snd].
  change (zsum ((i - c) :: map (fun p => snd p - fst p) (pairwise (i :: js ++ [j])))) with (i - c + zsum (map (fun p => snd p - fst p) (pairwise (i :: js ++ [j])))). rewrite IH. lia.
Qed.
Lemma pairwise_overlapping {B} (x : list B) is : map (fun pr => slice x (fst pr) (snd pr)) (map (fun ij => (fst ij, snd ij + 1)) (pairwise (0 :: is ++ [zlen x - 1]))) = overlapping x is.
Proof.
  rewrite map_map. unfold overlapping, pairwise. cbn [tl fst snd]. f_equal. 
  assert (G : forall (u v : list Z) w, length u = length v -> combine (u ++ w) v = combine u v). { induction u as [|a u IH]; intros [|b v] w L; try discriminate; [now destruct w|]. cbn. f_equal. apply IH. now injection L. }
  rewrite <- (G (0 :: is) (is ++ [zlen x - 1]) [zlen x - 1]) by (rewrite app_length; cbn; lia). reflexivity.
Qed.
Lemma sum_pred p : zsum (map (fun i => i - 1) p) = zsum p - zlen p.
Proof. induction p as [|a p IH]; [reflexivity|]. change (a - 1 + zsum (map (fun i => i - 1) p) = a + zsum p - zlen (a :: p)). rewrite IH, zlen_cons. lia. Qed.
Lemma pieces_len {B} (x : list B) l : forall c, 0 <= c -> (forall a, In a l -> 0 <= a) -> c + zsum l <= zlen x - 1 ->
  map (fun p => zlen p - 1) (map (fun pr => slice x (fst pr) (snd pr)) (map (fun ij => (fst ij, snd ij + 1)) (pairwise (c :: accumulate_from c l)))) = l.
Proof.
  induction l as [|e l IH]; intros c Hc Hl Hs; [reflexivity|]. rewrite pairwise_acc. cbn [map fst snd]. assert (He : 0 <= e) by (apply Hl; now left). assert (Hl' : forall b, In b l -> 0 <= b) by (intros; apply Hl; now right).
  change (zsum (e :: l)) with (e + zsum l) in Hs.
  assert (0 <= zsum l). { clear -Hl'. induction l as [|b l IH]; [reflexivity|]. change (zsum (b :: l)) with (b + zsum l). specialize (IH ltac:(intros; apply Hl'; now right)). specialize (Hl' b (or_introl eq_refl)). lia. }
  rewrite IH by (auto; lia). f_equal. rewrite zlen_slice by lia. lia.
Qed.
Lemma diff_nonneg js : forall c, nondecreasing (c :: js) -> forall e, In e (map (fun p => snd p - fst p) (pairwise (c :: js))) -> 0 <= e.
Proof.
  unfold nondecreasing. induction js as [|j js IH]; intros c ST e He; [destruct He|]. rewrite pairwise_cons in He. cbn [map fst snd] in He.
  inversion ST as [|? ? S F]; subst. destruct He as [<-|He]; [rewrite Forall_forall in F; specialize (F j (or_introl eq_refl)); lia|]. now apply (IH j S).
Qed.
(** #C56_decompositions# Each decomposition x[:i1+1], ..., x[ik:] with
    i1 <= ... <= ik exactly once. *)
Lemma C56_decompositions_l {B} (x : list B) (k : Z) : x <> [] -> 0 <= k ->
  exists l, decompositions x k = Ok l /\ NoDup l /\
    forall d, In d l <-> exists is, zlen is = k /\ nondecreasing is /\ (forall i, In i is -> 0 <= i < zlen x) /\ d = overlapping x is.
Proof.
  intros Nx Hk. assert (Lx : 1 <= zlen x) by (destruct x; [congruence|rewrite zlen_cons; pose proof (zlen_nonneg x); lia]).
  destruct (C56_partitions_l (zlen x + k) (k + 1) 1 None true ltac:(lia)) as (parts & E & ND & HP). cbn zeta in HP.
  unfold decompositions, decompositions_int. rewrite E. cbn [bind]. eexists. split; [reflexivity|]. rewrite map_map.
  set (D := fun part => map (fun pr => slice x (fst pr) (snd pr)) (map (fun ij => (fst ij, snd ij + 1)) (pairwise (accumulate (0 :: map (fun i => i - 1) part))))).
  assert (LD : forall p, In p parts -> map (fun q => zlen q - 1) (D p) = map (fun i => i - 1) p).
  { intros p Hp. apply HP in Hp. destruct Hp as ((Lp & Sp & Bp) & _). unfold D, accumulate. cbn [accumulate_from]. apply pieces_len; [lia| |].
    - intros a Ha. apply in_map_iff in Ha. destruct Ha as (i & <- & Hi). apply Bp in Hi. lia.
    - rewrite sum_pred. lia. }
  split.
  - assert (G : forall l, (forall p, In p l -> In p parts) -> NoDup l -> NoDup (map D l)); [|apply G; auto].
    induction l as [|p l IH]; intros Hl NDl; cbn [map]; [constructor|]. inversion NDl as [|? ? Np NDl']; subst. constructor; [|apply IH; auto; intros; apply Hl; now right].
    intros Hin. apply in_map_iff in Hin. destruct Hin as (p' & ED & Hp'). apply Np. replace p with p'; [exact Hp'|].
    assert (Em : map (fun i => i - 1) p' = map (fun i => i - 1) p). { rewrite <- (LD p) by (apply Hl; now left). rewrite <- (LD p') by (apply Hl; now right). now rewrite ED. }
    clear -Em. revert p Em. induction p' as [|a p' IH]; intros [|b p] Em; try discriminate; [reflexivity|]. cbn in Em. injection Em as E1 E2. f_equal; [lia|now apply IH].
  - intros d. rewrite in_map_iff. split.
    + intros (p & <- & Hp). apply HP in Hp. destruct Hp as ((Lp & Sp & Bp) & _). destruct p as [|a p]; [unfold zlen in Lp; cbn in Lp; lia|].
      assert (Hnn : forall b, In b (map (fun i => i - 1) (a :: p)) -> 0 <= b). { intros b Hb. apply in_map_iff in Hb. destruct Hb as (i & <- & Hi). apply Bp in Hi. lia. }
      assert (Hs : 0 + zsum (map (fun i => i - 1) (a :: p)) = zlen x - 1) by (rewrite sum_pred; lia).
      destruct (acc_last (map (fun i => i - 1) p) 0 (a - 1)) as (is & Eis). change (a - 1 :: map (fun i => i - 1) p) with (map (fun i => i - 1) (a :: p)) in Eis. rewrite Hs in Eis.
      pose proof (acc_bounds _ 0 Hnn) as AB. pose proof (acc_sorted _ 0 Hnn) as AS. pose proof (acc_len (map (fun i => i - 1) (a :: p)) 0) as AL. rewrite Eis in AB, AS, AL. rewrite Hs in AB.
      exists is. split; [|split; [|split]].
      * rewrite zlen_app in AL. unfold zlen in *. rewrite map_length in AL. cbn [length] in *. lia.
      * clear -AS. unfold nondecreasing in *. induction is as [|i is IH]; [constructor|]. cbn [app] in AS. inversion AS as [|? ? S F]; subst. constructor; [now apply IH|]. rewrite Forall_forall in *. intros b Hb. apply F. apply in_app_iff. now left.
      * intros i Hi. assert (In i (is ++ [zlen x - 1])) by (apply in_app_iff; now left). apply AB in H. lia.
      * unfold D, accumulate. cbn [accumulate_from]. change (0 + 0) with 0. rewrite Eis. apply pairwise_overlapping.
    + intros (is & Lis & Sis & Bis & ->). set (df := map (fun p => snd p - fst p) (pairwise (0 :: is ++ [zlen x - 1]))). exists (map (fun i => i + 1) df).
      assert (Pm : map (fun i => i - 1) (map (fun i => i + 1) df) = df). { rewrite map_map. rewrite <- (map_id df) at 2. apply map_ext. intros; lia. }
      assert (Adf : accumulate_from 0 df = is ++ [zlen x - 1]) by (unfold df; apply acc_diff).
      assert (Ldf : zlen df = k + 1). { rewrite <- (acc_len df 0), Adf, zlen_app, Lis. reflexivity. }
      assert (Sdf : zsum df = zlen x - 1) by (unfold df; rewrite sum_diff; lia).
      assert (Ndf : forall e, In e df -> 0 <= e).
      { unfold df. assert (St : nondecreasing (0 :: is ++ [zlen x - 1])).
        { unfold nondecreasing in *. constructor; [|apply Forall_forall; intros b Hb; apply in_app_iff in Hb; destruct Hb as [Hb|[<-|[]]]; [now apply Bis|lia]].
          clear -Sis Bis. induction is as [|i is IH]; [repeat constructor|]. cbn [app]. inversion Sis as [|? ? S F]; subst. constructor; [apply IH; auto; intros; apply Bis; now right|].
          rewrite Forall_forall in *. intros b Hb. apply in_app_iff in Hb. destruct Hb as [Hb|[<-|[]]]; [now apply F|]. specialize (Bis i (or_introl eq_refl)). lia. }
        apply diff_nonneg. exact St. }
      split.
      * unfold D, accumulate. cbn [accumulate_from]. change (0 + 0) with 0. rewrite Pm. unfold df. rewrite acc_diff. apply pairwise_overlapping.
      * apply HP. split; [|discriminate]. split; [unfold zlen in *; now rewrite map_length|].
        assert (Sm : zsum (map (fun i => i + 1) df) = zlen x + k). { pose proof (sum_pred (map (fun i => i + 1) df)) as SP. rewrite Pm in SP. unfold zlen in SP at 1. rewrite map_length in SP. fold (zlen df) in SP. lia. }
        split; [exact Sm|]. intros i Hi. apply in_map_iff in Hi. destruct Hi as (e & <- & He). specialize (Ndf e He) as He0. split; [lia|].
        assert (e <= zsum df); [|lia]. clear -Ndf He. induction df as [|b df IH]; [destruct He|]. change (zsum (b :: df)) with (b + zsum df).
        assert (0 <= zsum df). { clear -Ndf. induction df as [|c df IH]; [reflexivity|]. change (zsum (c :: df)) with (c + zsum df). specialize (IH ltac:(intros a [<-|Ha]; apply Ndf; [now left|now right; right])). specialize (Ndf c ltac:(now right; left)). lia. }
        destruct He as [<-|He]; [lia|]. specialize (IH ltac:(intros; apply Ndf; now right) He). specialize (Ndf b (or_introl eq_refl)). lia.
Qed.
(** #C56_example# *)
Example C56_example_l :
  partitions 5 3 1 None false = Ok [[1; 1; 3]; [1; 2; 2]] /\
  (exists l, partitions 5 3 1 (Some 2) true = Ok l /\ Permutation l [[1; 2; 2]; [2; 1; 2]; [2; 2; 1]]) /\
  partitions 2 2 (-1) (Some 3) false = Ok [[-1; 3]; [0; 2]; [1; 1]] /\
  decompositions [5; 7] 2 = Ok [[[5]; [5]; [5; 7]]; [[5]; [5; 7]; [7]]; [[5; 7]; [7]; [7]]] /\
  overlapping [5; 7] [0; 1] = [[5]; [5; 7]; [7]].
Proof. split; [reflexivity|]. split; [eexists; split; [reflexivity|reflexivity]|]. repeat split; reflexivity. Qed.
