(** * Steenrod's formula for all cup-i products, their degrees, vanishing and coboundaries (C100) *)
From Coq Require Import Setoid Morphisms.
From Verif Require Import PyBase Dict FreeModule Symmetric Simplicial Utils Surjection Eqm Spec SpecChain SpecOperad SpecSurj SpecAction SpecCochain SpecCup SpecSimpCup SpecCupAlg SpecHirsch SpecCupi FreeModuleFacts FreeModuleLaws ListFacts
  ClassFacts LinearFacts BilFacts SymmetricFacts CycleFacts SymmetricLaws RingFacts Tensor TensorAct KoszulFacts LoopFacts AW SimplicialFacts SimplicialDiag SimplicialLaws MayFacts ActFacts ActCore ActLaws SurjMay CupI SimpCupLaws SqLaws CubCup2 CupAlgLaws HirschFacts HirschLaws.

Lemma U_cupi d a b s : nm a -> nm b -> U d (simp_pair a b) [s] = sgn ((Z.of_nat d + 1) / 4) * cupi d a b s.
Proof.
  intros Na Nb. assert (A : adm cls_simplicial (simp_pair a b)) by (apply pair_adm'; auto).
  unfold U. rewrite FpS_alt'; [|now right|intros k Hk Ak; eapply Phi_adj; eauto]. change (two_sign MS (Z.of_nat d)) with (sgn ((Z.of_nat d + 1) / 4)). f_equal.
  change [s] with ([] ++ s :: []). rewrite Phi_app by reflexivity. change (tdeg spx_dim []) with 0. rewrite Z.mul_0_l, sgn_0, Z.mul_1_l. rewrite altw_len. replace (d + 2 - 1)%nat with (d + 1)%nat by lia. rewrite S_sum.
  unfold cupi. apply sumf_ext. intros u _. unfold T1. rewrite <- wt_combine. f_equal.
Qed.
Lemma cupi_iff dt dc t d a b a' b' f : 0 <= t -> t <> 1 -> dt_ok dt t -> 0 <= d -> neq t a a' -> neq t b b' -> nm a' -> nm b' ->
  (cupi_is dt dc t d a b f <-> cochain_eq t f (fun s => sgn ((d + 1) / 4) * cupi (Z.to_nat d) a' b' s)).
Proof.
  intros Ht Nt Hdt Hd Ea Eb Na Nb. rewrite (cupi_is_iff dt dc t d a b a' b') by auto. split; intros H s Ns; specialize (H s Ns); cbn beta in *; rewrite U_cupi, Z2Nat.id in * by auto; exact H.
Qed.
(** counting the vertices of the joins *)
Lemma alt_long n : forall a u, a = 1 \/ a = 2 -> length u = Datatypes.S n -> hasnil u = false -> existsb short (removelast u) = false ->
  (Datatypes.S n <= length (joined a (combine (altw a (Datatypes.S n)) u)))%nat /\ (n <= length (joined (3 - a) (combine (altw a (Datatypes.S n)) u)))%nat.
Proof.
  induction n as [|n IH]; intros a u Ha Lu Nu Sh.
  - destruct u as [|w [|w' u]]; try discriminate. cbn [altw combine]. rewrite !joined_cons, Z.eqb_refl. rewrite hasnil_cons in Nu. apply orb_false_iff in Nu. destruct Nu as [Nw _]. destruct w as [|x w]; [discriminate|]. cbn [app length]. lia.
  - destruct u as [|w u]; [discriminate|]. injection Lu as Lu. rewrite hasnil_cons in Nu. apply orb_false_iff in Nu. destruct Nu as [Nw Nu]. destruct u as [|w' u]; [discriminate|].
    change (removelast (w :: w' :: u)) with (w :: removelast (w' :: u)) in Sh. cbn [existsb] in Sh. apply orb_false_iff in Sh. destruct Sh as [Sw Sh].
    destruct (IH (3 - a) (w' :: u) ltac:(lia) Lu Nu Sh) as [I1 I2]. replace (3 - (3 - a)) with a in I2 by ring. remember (w' :: u) as v eqn:Ev. clear Ev.
    change (altw a (Datatypes.S (Datatypes.S n))) with (a :: altw (3 - a) (Datatypes.S n)). cbn [combine]. rewrite !joined_cons, Z.eqb_refl. destruct (Z.eqb_spec a (3 - a)); [lia|]. rewrite !app_length.
    destruct w as [|x [|y w]]; try discriminate. cbn [length]. lia.
Qed.
Lemma alt_long2 d s u : s <> [] -> In u (front_back (d + 1) s) -> existsb spx_is_degenerate (joins 2 (combine (altw 1 (d + 2)) u)) = false ->
  (d + 1 <= length (joined 1 (combine (altw 1 (d + 2)) u)))%nat /\ (d + 1 <= length (joined 2 (combine (altw 1 (d + 2)) u)))%nat.
Proof.
  intros Ns Hu Hg. destruct (existsb short (removelast (tl u))) eqn:Sh; [rewrite (alt_bad d s u Ns Hu Sh) in Hg; discriminate|].
  pose proof (front_back_nonnil _ _ _ Ns Hu) as Nu. apply front_back_len in Hu. destruct u as [|w u]; [discriminate|]. injection Hu as Lu. rewrite hasnil_cons in Nu. apply orb_false_iff in Nu. destruct Nu as [Nw Nu]. cbn [tl] in Sh.
  replace (d + 2)%nat with (Datatypes.S (Datatypes.S d)) by lia. change (altw 1 (Datatypes.S (Datatypes.S d))) with (1 :: altw 2 (Datatypes.S d)).
  destruct (alt_long d 2 u ltac:(lia) ltac:(lia) Nu Sh) as [I1 I2]. change (3 - 2) with 1 in I2. cbn [combine]. rewrite !joined_cons. change (1 =? 1) with true. change (1 =? 2) with false. cbv iota. rewrite ?app_length, ?app_nil_l. destruct w as [|x w]; [discriminate|]. cbn [length]. lia.
Qed.
Lemma joins2 L : joins 2 L = [joined 1 L; joined 2 L]. Proof. reflexivity. Qed.
Lemma cupi_small (m n : Z) d a b s : 0 <= m -> 0 <= n -> cochain m a -> cochain n b -> s <> [] -> m < Z.of_nat d \/ n < Z.of_nat d -> cupi d a b s = 0.
Proof.
  intros Hm Hn Ha Hb Ns Hd. unfold cupi. apply sumf_0. intros u Hu. destruct (existsb spx_is_degenerate (joins 2 (combine (altw 1 (d + 2)) u))) eqn:Hg.
  - rewrite joins2 in Hg. cbn [existsb] in Hg. rewrite orb_false_r in Hg. apply orb_true_iff in Hg. destruct Hg as [Hg|Hg]; [rewrite (nm_co m a Hm Ha _ Hg)|rewrite (nm_co n b Hn Hb _ Hg)]; ring.
  - destruct (alt_long2 d s u Ns Hu Hg) as [L1 L2]. destruct Hd as [Hd|Hd]; [rewrite (proj2 Ha)|rewrite (proj2 Hb)]; try ring; unfold zlen; lia.
Qed.
Lemma len_joined12 (k : list Z) : forall u, (forall a, In a k -> a = 1 \/ a = 2) -> length u = length k -> (length (joined 1 (combine k u)) + length (joined 2 (combine k u)) = length (concat u))%nat.
Proof.
  induction k as [|a k IH]; intros [|w u] Hk Lu; try discriminate; [reflexivity|]. cbn [combine concat]. rewrite !joined_cons, app_length. specialize (IH u (fun b Hb => Hk b (or_intror Hb)) ltac:(cbn in Lu; lia)).
  destruct (Hk a (or_introl eq_refl)) as [-> | ->]; cbn [Z.eqb Pos.eqb]; rewrite ?app_length; cbn [app length]; rewrite ?app_length; lia.
Qed.
Lemma len_fb t : forall (s : list Z) u, In u (front_back t s) -> length (concat u) = (length s + t)%nat.
Proof.
  induction t as [|t IH]; intros s u Hu; [destruct Hu as [<-|[]]; cbn [concat]; rewrite app_nil_r; lia|]. apply front_back_inv in Hu. destruct Hu as (l1 & a & l2 & u' & -> & -> & Hu). cbn [concat]. rewrite !app_length, (IH _ _ Hu). cbn [length]. lia.
Qed.
Lemma cupi_deg (m n : Z) d a b s : cochain m a -> cochain n b -> zlen s - 1 <> m + n - Z.of_nat d -> cupi d a b s = 0.
Proof.
  intros Ha Hb Hs. unfold cupi. apply sumf_0. intros u Hu. pose proof (len_fb _ _ _ Hu) as L. apply front_back_len in Hu.
  rewrite <- (len_joined12 (altw 1 (d + 2)) u) in L; [|intros x Hx; apply altw_in in Hx; [lia|now left]|rewrite altw_len; lia].
  destruct (Z.eq_dec (zlen (joined 1 (combine (altw 1 (d + 2)) u)) - 1) m) as [E|E]; [|rewrite (proj2 Ha _ E); ring]. rewrite (proj2 Hb); [ring|]. unfold zlen in *. lia.
Qed.
Lemma cupi_nm d a b : nm a -> nm b -> nm (cupi d a b).
Proof.
  intros Na Nb s Hs. assert (A : adm cls_simplicial (simp_pair a b)) by (apply pair_adm'; auto).
  assert (E : U d (simp_pair a b) [s] = 0) by (apply U_adm; [exact A|]; cbn [bad cls_simplicial existsb]; now rewrite Hs).
  rewrite U_cupi in E by auto. pose proof (sgn_nz ((Z.of_nat d + 1) / 4)). nia.
Qed.
(** #C100_formula# For every i >= 0 and all cochains a, b of degrees m, n, with coefficients in Z/t
    or Z, the cup-i product computed by the code is, up to congruence and only up to congruence,
    Steenrod's sum over the cuts of the simplex, with the sign (-1)^[(i+1)/4]; it is a normalised cochain of degree m + n - i. *)
Lemma C100_formula_l (dt t m n i : Z) (dc : conv) (a b : list Z -> Z) : 0 <= t -> t <> 1 -> dt_ok dt t -> 0 <= m -> 0 <= n -> 0 <= i -> cochain m a -> cochain n b ->
  let f := fun s => sgn ((i + 1) / 4) * cupi (Z.to_nat i) a b s in
  cochain (m + n - i) f /\ forall g, cupi_is dt dc t i a b g <-> cochain_eq t g f.
Proof.
  intros Ht Nt Hdt Hm Hn Hi Ha Hb f. assert (Na := nm_co _ a Hm Ha). assert (Nb := nm_co _ b Hn Hb). split; [|intros g; apply cupi_iff; auto using neq_refl].
  split; [intros l1 v l2; unfold f; rewrite cupi_nm; auto; [ring|apply dup_deg]|]. intros s Hs. unfold f. rewrite (cupi_deg m n) by (auto; lia). ring.
Qed.
(** #C100_vanishing# A cup-i product is 0 if i is larger than the degree of one of the factors. *)
Lemma C100_vanishing_l (dt t m n i : Z) (dc : conv) (a b f : list Z -> Z) : 0 <= t -> t <> 1 -> dt_ok dt t -> 0 <= m -> 0 <= n -> cochain m a -> cochain n b ->
  m < i \/ n < i -> cupi_is dt dc t i a b f <-> cochain_eq t f (fun _ => 0).
Proof.
  intros Ht Nt Hdt Hm Hn Ha Hb Hi. rewrite (cupi_iff dt dc t i a b a b) by (auto using neq_refl, (nm_co m), (nm_co n); lia).
  split; intros H s Ns; specialize (H s Ns); cbn beta in *; rewrite (cupi_small m n) in * by (auto; lia); rewrite Z.mul_0_r in *; exact H.
Qed.
(** #C100_top# For two cochains of the same degree n, the cup-n product is the product of their values,
    up to a sign that depends only on n. *)
Lemma C100_top_l (dt t n : Z) (dc : conv) (a b f : list Z -> Z) : 0 <= t -> t <> 1 -> dt_ok dt t -> 0 <= n -> cochain n a -> cochain n b ->
  cupi_is dt dc t n a b f <-> cochain_eq t f (fun s => sgn ((n + 1) / 4) * alt_sign n * (a s * b s)).
Proof.
  intros Ht Nt Hdt Hn Ha Hb. rewrite (cupi_iff dt dc t n a b a b) by (auto using neq_refl, (nm_co n)).
  assert (E : forall s, s <> [] -> sgn ((n + 1) / 4) * cupi (Z.to_nat n) a b s = sgn ((n + 1) / 4) * alt_sign n * (a s * b s)).
  { intros s Ns. destruct (Z.eq_dec (zlen s - 1) n) as [L|L]; [|rewrite (cupi_deg n n) by (auto; lia); rewrite (proj2 Ha _ L); ring].
    destruct s as [|x l]; [congruence|]. rewrite zlen_cons in L. unfold zlen in L.
    assert (A : adm cls_simplicial (simp_pair a b)) by (apply pair_adm'; now apply (nm_co n)). pose proof (U_cupi (Z.to_nat n) a b (x :: l) (nm_co n a Hn Ha) (nm_co n b Hn Hb)) as Q. rewrite Z2Nat.id in Q by lia. rewrite <- Q. unfold U.
    rewrite FpS_alt'; [|now right|intros k Hk Ak; eapply Phi_adj; eauto]. rewrite Phi_alt by (auto; lia). rewrite Z2Nat.id by lia. destruct (Nat.eqb_spec (length l) (Z.to_nat n)); [|lia]. cbn [simp_pair]. change (two_sign MS n) with (sgn ((n + 1) / 4)). ring. }
  split; intros H s Ns; specialize (H s Ns); cbn beta in *; rewrite E in * by exact Ns; exact H.
Qed.
(** #C100_coboundary# Steenrod's coboundary formula as an identity of cochains, for i >= 1:
    (-1)^i d(a u_i b) = da u_i b + (-1)^m a u_i db - (-1)^i a u_(i-1) b - (-1)^(mn) b u_(i-1) a. *)
Lemma C100_coboundary_l (dt t m n i : Z) (dc : conv) (a b f p q g h : list Z -> Z) : 0 <= t -> t <> 1 -> dt_ok dt t -> 0 <= m -> 0 <= n -> 1 <= i -> cochain m a -> cochain n b ->
  cupi_is dt dc t i a b f -> cupi_is dt dc t i (simp_coboundary a) b p -> cupi_is dt dc t i a (simp_coboundary b) q ->
  cupi_is dt dc t (i - 1) a b g -> cupi_is dt dc t (i - 1) b a h ->
  forall s, 2 <= zlen s -> congruent t (sgn i * simp_coboundary f s) (p s + sgn m * q s - sgn i * g s - sgn (m * n) * h s).
Proof.
  intros Ht Nt Hdt Hm Hn Hi Ha Hb Hf Hp Hq Hg Hh s Ls. assert (Ns : s <> []) by (intros ->; change (2 <= 0) in Ls; lia).
  pose proof (proj1 (C80_coboundary_l m a Hm Ha)) as Ca. pose proof (proj1 (C80_coboundary_l n b Hn Hb)) as Cb.
  assert (Na := nm_co _ a Hm Ha). assert (Nb := nm_co _ b Hn Hb). assert (Nda := nm_co (m + 1) _ ltac:(lia) Ca). assert (Ndb := nm_co (n + 1) _ ltac:(lia) Cb).
  apply (cupi_is_iff dt dc t i a b a b) in Hf; auto using neq_refl; [|lia]. apply (cupi_is_iff dt dc t i (simp_coboundary a) b (simp_coboundary a) b) in Hp; auto using neq_refl; [|lia].
  apply (cupi_is_iff dt dc t i a (simp_coboundary b) a (simp_coboundary b)) in Hq; auto using neq_refl; [|lia].
  apply (cupi_is_iff dt dc t (i - 1) a b a b) in Hg; auto using neq_refl; [|lia]. apply (cupi_is_iff dt dc t (i - 1) b a b a) in Hh; auto using neq_refl; [|lia].
  specialize (Hp s Ns). specialize (Hq s Ns). specialize (Hg s Ns). specialize (Hh s Ns). cbn beta in *. change (congruent t) with (eqm t) in *. rewrite Hp, Hq, Hg, Hh. clear Hp Hq Hg Hh. rewrite cob_fdS.
  pose proof (pair_adm m n a b Hm Hn Ha Hb) as Aab.
  transitivity (sgn i * fdS (fun u => U (Z.to_nat i) (simp_pair a b) [u]) s).
  { assert (E : eqm t (fdS f s) (fdS (fun u => U (Z.to_nat i) (simp_pair a b) [u]) s)); [|now rewrite E]. apply ev_eqm. intros u v Hu. apply dim_fbS in Hu. unfold spx_dim in Hu. apply Hf. intros ->. change (zlen []) with 0 in Hu. lia. }
  apply eqm_eq. replace (Z.to_nat i) with (Datatypes.S (Z.to_nat (i - 1))) by lia. set (d := Z.to_nat (i - 1)). replace i with (Z.of_nat (Datatypes.S d)) by lia.
  pose proof (U_formula d (simp_pair a b) s Aab Ns) as E. rewrite (U_flip d m n a b s Ha Hb) in E.
  assert (E1 : U (Datatypes.S d) (tDS (simp_pair a b)) [s] = U (Datatypes.S d) (simp_pair (simp_coboundary a) b) [s] + sgn m * U (Datatypes.S d) (simp_pair a (simp_coboundary b)) [s]).
  { unfold U. rewrite <- FpS_scal by lia. destruct (FpS_list MS 2 (Datatypes.S d) ltac:(lia)) as (L & L1 & L2). rewrite !L2, <- ev_lin2. apply ev_ext. intros k v' _. unfold Phi. rewrite <- ev_scal, <- ev_lin2. apply ev_ext. intros w v0 _. now apply pair_tD. }
  assert (E2 : tDS (U (Datatypes.S d) (simp_pair a b)) [s] = fdS (fun u => U (Datatypes.S d) (simp_pair a b) [u]) s).
  { rewrite tD_cons, tD_nil. ring. }
  rewrite E2 in E. rewrite <- E1, E. ring.
Qed.
(** #C100_example# The hypotheses hold for cochains of degree 2 with coefficients in Z/5, i = 1 and i = 2; the values are not 0. *)
Example C100_example_l :
  let a := fun s => match s with [x; y; z] => y * (y - x) * (z - y) | _ => 0 end in
  let f := fun i s => sgn ((i + 1) / 4) * cupi (Z.to_nat i) a a s in
  cochain 2 a /\ dt_ok 0 5 /\ cupi_is 0 BF 5 1 a a (f 1) /\ cupi_is 0 BF 5 2 a a (f 2) /\
  f 1 [1; 2; 4; 7] = -96 /\ f 2 [1; 2; 4] = -16 /\ simp_coboundary (f 2) [1; 2; 4; 7] = 636 /\ f 2 [1; 2; 4; 7] = 0.
Proof.
  intros a f. assert (Ca : cochain 2 a).
  { split; [|intros [|x [|y [|w [|v s]]]] L; try reflexivity; exfalso; apply L; reflexivity]. intros [|x [|y [|w l1]]] v l2; [| |reflexivity|destruct l1; reflexivity]; (destruct l2 as [|z [|w l2]]; [|try reflexivity|try reflexivity]); cbn [app]; unfold a; try ring; destruct l2; reflexivity. }
  assert (Dt : dt_ok 0 5) by (split; [lia|now left]). split; [exact Ca|]. split; [exact Dt|].
  split; [apply (C100_formula_l 0 5 2 2 1 BF a a); auto; try lia; intros s _; exists 0; apply Z.sub_diag|]. split; [apply (C100_formula_l 0 5 2 2 2 BF a a); auto; try lia; intros s _; exists 0; apply Z.sub_diag|].
  repeat apply conj; vm_compute; reflexivity.
Qed.
