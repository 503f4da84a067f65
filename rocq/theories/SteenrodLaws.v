(** * Property theorems: Steenrod operations. *)
From Coq Require Import Znumtheory Setoid Morphisms.
From Verif Require Import PyBase Dict FreeModule Symmetric Simplicial Utils Surjection BarrattEccles Eqm Spec SpecChain SpecOperad SpecSurj SpecSteenrod FreeModuleFacts FreeModuleLaws ListFacts
  ClassFacts LinearFacts SymmetricFacts CycleFacts SymmetricLaws RingFacts RingLaws Tensor TensorAct KoszulFacts LoopFacts ActGeneric SimplicialLaws BEFacts BEOrbit BELaws BEDiag MayFacts BELaws3
  SurjFacts SurjBoundary SurjLaws SurjAct SurjMay Wilson SteenrodFacts FloatFacts.

(** #C57_bockstein_two# The Bockstein is rejected at the prime 2. *)
Lemma C57_bockstein_two_l (dt s q : Z) (dc : conv) (ov : option conv) :
  surj_steenrod_operation dt dc 2 s q true ov = Err TypeError /\ be_steenrod_operation dt 2 s q true = Err TypeError.
Proof. split; reflexivity. Qed.
Lemma coeff_some p s q : prime p -> p <> 2 -> ~ coefficient_overflows p s q -> exists c, steenrod_coeff p s q = Ok c.
Proof.
  intros Hp N2 N. destruct (Z.odd q) eqn:Oq.
  - destruct (Z_lt_le_dec (q / 2 + s) 0) as [L|L].
    + pose proof (coeff_float p s q Hp N2 Oq L) as Q. destruct (Z.leb_spec ((p - 1) / 2) 170); [|destruct N; unfold coefficient_overflows; auto].
      destruct Q as (g & _ & ->). eauto.
    + destruct (coeff_ok p s q Hp N2 (or_intror (or_introl L))) as (c & E & _). eauto.
  - destruct (coeff_ok p s q Hp N2) as (c & E & _); [|eauto]. left. now rewrite <- Z.negb_odd, Oq.
Qed.
(** #C57_below_range# Below the range the operation is the zero element modulo [p]. *)
Lemma C57_below_range_l (dt p s q : Z) (dc : conv) (ov : option conv) (bockstein : bool) : prime p ->
  (if p =? 2 then bockstein = false /\ s - q < 0 else ~ coefficient_overflows p s q /\ (2 * s - q) * (p - 1) - (if bockstein then 1 else 0) < 0) ->
  surj_steenrod_operation dt dc p s q bockstein ov = Ok (mkElt [] p dc) /\ be_steenrod_operation dt p s q bockstein = Ok (mkElt [] p tt).
Proof.
  intros Hp H0. unfold surj_steenrod_operation, be_steenrod_operation.
  assert (N : surj_new dt dc [] (Some p) None = Ok (mkElt [] p dc)) by (unfold surj_new, new, pref; cbn; unfold reduce; destruct (p =? 0); reflexivity).
  assert (N' : be_new dt [] (Some p) = Ok (mkElt [] p tt)) by (unfold be_new, new, pref; cbn; unfold reduce; destruct (p =? 0); reflexivity).
  destruct (Z.eqb_spec p 2) as [->|N2].
  - destruct H0 as [-> Hd]. cbn [andb]. destruct (Z.ltb_spec (s - q) 0); [|lia]. now split.
  - destruct H0 as [HE Hd]. cbn [andb]. destruct (coeff_some p s q Hp N2 HE) as (c & ->). cbn [bind].
    destruct (Z.ltb_spec ((2 * s - q) * (p - 1) - (if bockstein then 1 else 0)) 0); [|lia]. now split.
Qed.
Lemma scale_same {K A} `{KeyOk K} (c : pycls K) (Hc : cls_ok c) dt t (a : A) F n (x : elt K A) (r : res (elt K A)) : 0 <= t -> dt_ok dt t -> den c t a F x -> r = scale dt c n x ->
  exists z, r = Ok z /\ den c t a (fun g => n * F g) z.
Proof. intros Ht Hdt Dx ->. destruct (scale_den c Hc dt t Ht Hdt a F n x Dx) as (z & Ez & Dz). eauto. Qed.
(** #C57_two# At the prime 2: the element of degree [s - q]. *)
Lemma C57_two_l (dt s q : Z) (dc cv : conv) (ov : option conv) : dt_ok dt 2 -> cv = match ov with Some c => c | None => dc end -> cv = BF \/ cv = MS -> 0 <= s - q ->
  same (surj_steenrod_operation dt dc 2 s q false ov) (surj_may_steenrod dt dc 2 (s - q) (Some 2) ov) /\
  same (be_steenrod_operation dt 2 s q false) (be_may_steenrod dt 2 (s - q) (Some 2)).
Proof.
  intros Hdt Ec Hcv Hd. unfold surj_steenrod_operation, be_steenrod_operation. cbn [andb Z.eqb Pos.eqb]. destruct (Z.ltb_spec (s - q) 0); [lia|].
  assert (exists d, s - q = Z.of_nat d) as [d ->] by (exists (Z.to_nat (s - q)); lia). split.
  - destruct (mayS_ok dt dc cv 2 d (Some 2) ov 2 eq_refl Ec Hcv ltac:(lia) ltac:(lia) ltac:(lia) Hdt) as (y & Ey & Dy). rewrite Ey. cbn [bind].
    eapply (same_den cls_surj ok_surj 2 cv); [lia|exact (scale_den cls_surj ok_surj dt 2 ltac:(lia) Hdt cv _ 1 y Dy)|apply returns_ok; exact Dy|]. intros g _. cbn beta. apply eqm_eq. ring.
  - destruct (may_ok dt 2 d (Some 2) 2 eq_refl ltac:(lia) ltac:(lia) ltac:(lia) Hdt) as (y & Ey & Dy & _). rewrite Ey. cbn [bind].
    eapply (same_den cls_be ok_be 2 tt); [lia|exact (scale_den cls_be ok_be dt 2 ltac:(lia) Hdt tt _ 1 y Dy)|apply returns_ok; exact Dy|]. intros g _. cbn beta. apply eqm_eq. ring.
Qed.
Lemma unit_mul p c s : prime p -> ~ (p | c) -> s * s = 1 -> ~ eqm p (c * s) 0.
Proof. intros Hp Nc Hs [q Hq]. apply Nc. exists (q * s). transitivity ((c * s - 0) * s); [|rewrite Hq; ring]. transitivity (c * (s * s)); [rewrite Hs; ring|ring]. Qed.
(** #C57_odd_surjection# At an odd prime: the documented coefficient (-1)^s nu(q) modulo [p] times the
    May-Steenrod element of degree [(2 s - q) (p - 1) - b]; it is not zero, of arity [p] and of that degree. *)
Lemma C57_odd_surjection_l (dt p s q d : Z) (dc cv : conv) (ov : option conv) (bockstein : bool) : prime p -> p <> 2 -> dt_ok dt p ->
  cv = match ov with Some c => c | None => dc end -> cv = BF \/ cv = MS -> exact_coefficient p s q ->
  d = (2 * s - q) * (p - 1) - (if bockstein then 1 else 0) -> 0 <= d ->
  exists c y z, steenrod_sign_nu p s q c /\ surj_may_steenrod dt dc p d (Some p) ov = Ok y /\
    surj_steenrod_operation dt dc p s q bockstein ov = Ok z /\ same (Ok z) (scale dt cls_surj c y) /\
    torsion z = p /\ attr z = cv /\ ~ is_zero z /\ surj_arity z = Ok (Some p) /\ surj_degree z = Ok (Some d).
Proof.
  intros Hp N2 Hdt Ec Hcv HE Ed Hd. assert (p > 1) by (destruct Hp; lia). destruct (coeff_ok p s q Hp N2 HE) as (c & Ecf & Nu & Nc).
  unfold surj_steenrod_operation. destruct (Z.eqb_spec p 2); [contradiction|]. cbn [andb]. rewrite Ecf. cbn [bind]. rewrite <- Ed. destruct (Z.ltb_spec d 0); [lia|].
  pose proof (mayS_ok dt dc cv p (Z.to_nat d) (Some p) ov p) as My. assert (Ep : p = match Some p with Some t => if t =? 0 then dt else t | None => dt end) by (cbv beta iota; destruct (Z.eqb_spec p 0); [lia|reflexivity]).
  destruct (My Ep Ec Hcv ltac:(lia) ltac:(lia) ltac:(lia) Hdt) as (y & Ey & Dy). rewrite Z2Nat.id in Ey by lia. rewrite Ey. cbn [bind].
  destruct (scale_den cls_surj ok_surj dt p ltac:(lia) Hdt cv _ c y Dy) as (z & Ez & Dz). rewrite Ez. exists c, y, z.
  pose proof (psiS_keys cv p (Z.to_nat d) p y ltac:(lia) ltac:(lia) Dy) as Ky. rewrite Z2Nat.id in Ky by lia.
  pose proof (keys_in_scale cls_surj ok_surj p cv _ c y z _ ltac:(lia) (kpred_spsi p d) Dy Ky Dz) as Kz.
  assert (Nz : data z <> []).
  { apply (den_nonzero cls_surj p cv _ z (ind (kaS p (Z.to_nat d))) Dz).
    - apply (adm_ind cls_surj ok_surj). cbn [bad cls_surj]. rewrite (surj_bad_onto p) by (try lia; apply spsi_kaS; lia). now rewrite kaS_adj by lia.
    - destruct (FpS_kaS cv p (Z.to_nat d) ltac:(lia)) as (e & He & ->). now apply unit_mul. }
  split; [exact Nu|]. split; [reflexivity|]. split; [reflexivity|]. split.
  { eapply (same_den cls_surj ok_surj p cv); [lia|apply returns_ok; exact Dz|rewrite Ez; apply returns_ok; exact Dz|]. reflexivity. }
  split; [exact (proj1 Dz)|]. split; [exact (proj1 (proj2 Dz))|]. split; [exact Nz|]. split.
  - apply (surj_arity_ok p); auto; [lia|]. intros k v Hin. exact (proj1 (proj1 (Kz _ _ Hin))).
  - apply (surj_degree_ok p); auto; [lia|]. intros k v Hin. exact (proj1 (Kz _ _ Hin)).
Qed.
(** #C57_odd_barratt_eccles# The same for the Barratt-Eccles operad. *)
Lemma C57_odd_barratt_eccles_l (dt p s q d : Z) (bockstein : bool) : prime p -> p <> 2 -> dt_ok dt p -> exact_coefficient p s q ->
  d = (2 * s - q) * (p - 1) - (if bockstein then 1 else 0) -> 0 <= d ->
  exists c y z, steenrod_sign_nu p s q c /\ be_may_steenrod dt p d (Some p) = Ok y /\
    be_steenrod_operation dt p s q bockstein = Ok z /\ same (Ok z) (scale dt cls_be c y) /\
    torsion z = p /\ ~ is_zero z /\ be_arity z = Ok (Some p) /\ be_degree z = Some d.
Proof.
  intros Hp N2 Hdt HE Ed Hd. assert (p > 1) by (destruct Hp; lia). destruct (coeff_ok p s q Hp N2 HE) as (c & Ecf & Nu & Nc).
  unfold be_steenrod_operation. destruct (Z.eqb_spec p 2); [contradiction|]. cbn [andb]. rewrite Ecf. cbn [bind]. rewrite <- Ed. destruct (Z.ltb_spec d 0); [lia|].
  pose proof (may_ok dt p (Z.to_nat d) (Some p) p) as My. assert (Ep : p = match Some p with Some t => if t =? 0 then dt else t | None => dt end) by (cbv beta iota; destruct (Z.eqb_spec p 0); [lia|reflexivity]).
  destruct (My Ep ltac:(lia) ltac:(lia) ltac:(lia) Hdt) as (y & Ey & Dy & Ky). rewrite Z2Nat.id in Ey by lia. rewrite Ey. cbn [bind].
  destruct (scale_den cls_be ok_be dt p ltac:(lia) Hdt tt _ c y Dy) as (z & Ez & Dz). rewrite Ez. exists c, y, z.
  pose proof (keys_in_scale cls_be ok_be p tt _ c y z _ ltac:(lia) (kpred_bpsi p (Z.to_nat d)) Dy Ky Dz) as Kz.
  assert (Nz : data z <> []).
  { apply (den_nonzero cls_be p tt _ z (ind (kap p (Z.to_nat d))) Dz).
    - apply (adm_ind cls_be ok_be). rewrite be_bad, (nonbad_bpsi p (Z.to_nat d)) by (apply bpsi_kap; lia). now rewrite kap_bdup by lia.
    - rewrite Fpsi_kap by lia. now apply unit_mul. }
  assert (K1 : keys_in (be_cell p d) z). { intros k v Hin. destruct (Kz _ _ Hin) as [[B1 B2] _]. split; [exact B1|lia]. }
  split; [exact Nu|]. split; [reflexivity|]. split; [reflexivity|]. split.
  { eapply (same_den cls_be ok_be p tt); [lia|apply returns_ok; exact Dz|rewrite Ez; apply returns_ok; exact Dz|]. reflexivity. }
  split; [exact (proj1 Dz)|]. split; [exact Nz|]. split.
  - apply be_arity_ok; [lia|eapply den_wf; [|exact Dz]; lia|now apply (bdeg_bsim p d)|exact Nz].
  - now apply (be_degree_ok p).
Qed.
Lemma prime_check p : 1 < p -> forallb (fun n => Z.gcd n p =? 1) (zrange 1 p) = true -> prime p.
Proof.
  intros Hp C. rewrite forallb_forall in C. apply prime_intro; [exact Hp|]. intros n Hn. specialize (C n ltac:(apply in_zrange; lia)). apply Z.eqb_eq in C.
  apply Zgcd_1_rel_prime. exact C.
Qed.
(** #C57_float_refuted# For a negative exponent and m >= 23 the coefficient passes through a float
    and is wrong: no multiple of the May-Steenrod element with the documented
    coefficient is what [steenrod_operation(47, -1, -3)] returns. *)
Lemma C57_float_refuted_l (dc cv : conv) (ov : option conv) : cv = match ov with Some c => c | None => dc end -> cv = BF \/ cv = MS ->
  prime 47 /\ exists y z, surj_may_steenrod 0 dc 47 46 (Some 47) ov = Ok y /\ surj_steenrod_operation 0 dc 47 (-1) (-3) false ov = Ok z /\
    forall c, steenrod_sign_nu 47 (-1) (-3) c -> ~ same (Ok z) (scale 0 cls_surj c y).
Proof.
  intros Ec Hcv. assert (Hp : prime 47) by (apply prime_check; [lia|vm_compute; reflexivity]). split; [exact Hp|].
  assert (Hdt : dt_ok 0 47) by (split; [lia|now left]).
  destruct (mayS_ok 0 dc cv 47 46 (Some 47) ov 47 eq_refl Ec Hcv ltac:(lia) ltac:(lia) ltac:(lia) Hdt) as (y & Ey & Dy). change (Z.of_nat 46) with 46 in Ey.
  unfold surj_steenrod_operation. cbn [andb Z.eqb Pos.eqb].
  assert (EC : exists c0, steenrod_coeff 47 (-1) (-3) = Ok c0 /\ (c0 * zfact 23 ^ 3 - -1 * 1) mod 47 <> 0) by (eexists; split; [vm_compute; reflexivity|vm_compute; discriminate]).
  destruct EC as (c0 & -> & Nc). cbn [bind]. change ((2 * -1 - -3) * (47 - 1) - 0 <? 0) with false. cbv iota. change ((2 * -1 - -3) * (47 - 1) - 0) with 46. rewrite Ey. cbn [bind].
  destruct (scale_den cls_surj ok_surj 0 47 ltac:(lia) Hdt cv _ c0 y Dy) as (z & Ez & Dz). rewrite Ez. exists y, z. split; [reflexivity|]. split; [reflexivity|].
  intros c Hc (z1 & z2 & E1 & E2 & E3 & _). injection E1 as <-.
  destruct (scale_den cls_surj ok_surj 0 47 ltac:(lia) Hdt cv _ c y Dy) as (z3 & Ez3 & Dz3). rewrite Ez3 in E2. injection E2 as <-.
  unfold elt_eqb in E3. rewrite dict_eqb_dget in E3. specialize (E3 (kaS 47 46)).
  assert (AI : adm cls_surj (ind (kaS 47 46))).
  { apply (adm_ind cls_surj ok_surj). cbn [bad cls_surj]. rewrite (surj_bad_onto 47) by (try lia; apply spsi_kaS; lia). now rewrite kaS_adj by lia. }
  assert (E4 : eqm 47 (c0 * FpS cv 47 46 (ind (kaS 47 46))) (c * FpS cv 47 46 (ind (kaS 47 46)))).
  { rewrite <- (den_ev _ _ _ _ _ _ Dz AI), <- (den_ev _ _ _ _ _ _ Dz3 AI). apply eqm_eq. rewrite !dget_ind; [exact E3|apply (proj1 (proj1 (proj2 (proj2 Dz3))))|apply (proj1 (proj1 (proj2 (proj2 Dz))))]. }
  destruct (FpS_kaS cv 47 46 ltac:(lia)) as (e & He & Ef). rewrite Ef in E4.
  assert (E5 : eqm 47 c0 c). { destruct E4 as [k Hk]. exists (k * e). transitivity ((c0 - c) * (e * e)); [rewrite He; ring|]. transitivity ((c0 * e - c * e) * e); [ring|rewrite Hk; ring]. }
  unfold steenrod_sign_nu in Hc. rewrite <- zfact_fact in Hc. change (Z.to_nat ((47 - 1) / 2)) with 23%nat in Hc. change (Z.max 0 (- (-3))) with 3 in Hc. change (Z.max 0 (-3)) with 0 in Hc.
  change (sgn (-1 + -3 * (-3 - 1) / 2 * ((47 - 1) / 2))) with (-1) in Hc.
  change (eqm 47 (c * zfact 23 ^ 3) (-1 * zfact 23 ^ 0)) in Hc. rewrite <- E5 in Hc. apply Nc. rewrite Z.pow_0_r in Hc. apply Z.mod_divide; [lia|]. exact Hc.
Qed.
(** #C57_float_surjection# What the code computes when the coefficient goes
    through a float: m! is replaced by the nearest double. *)
Lemma C57_float_surjection_l (dt p s q d : Z) (dc cv : conv) (ov : option conv) (bockstein : bool) : prime p -> p <> 2 -> dt_ok dt p ->
  cv = match ov with Some c => c | None => dc end -> cv = BF \/ cv = MS ->
  Z.odd q = true -> q / 2 + s < 0 -> (p - 1) / 2 <= 170 ->
  d = (2 * s - q) * (p - 1) - (if bockstein then 1 else 0) -> 0 <= d ->
  exists g y, nearest_double (Z.of_nat (Factorial.fact (Z.to_nat ((p - 1) / 2)))) g /\
    surj_may_steenrod dt dc p d (Some p) ov = Ok y /\
    surj_steenrod_operation dt dc p s q bockstein ov = scale dt cls_surj (sgn (q / 2 + s) * g) y.
Proof.
  intros Hp N2 Hdt Ec Hcv Oq He Hm Ed Hd. assert (p > 1) by (destruct Hp; lia).
  pose proof (coeff_float p s q Hp N2 Oq He) as Q. destruct (Z.leb_spec ((p - 1) / 2) 170); [|lia]. destruct Q as (g & Ng & Ecf).
  unfold surj_steenrod_operation. destruct (Z.eqb_spec p 2); [contradiction|]. cbn [andb]. rewrite Ecf. cbn [bind]. rewrite <- Ed. destruct (Z.ltb_spec d 0); [lia|].
  pose proof (mayS_ok dt dc cv p (Z.to_nat d) (Some p) ov p) as My. assert (Ep : p = match Some p with Some t => if t =? 0 then dt else t | None => dt end) by (cbv beta iota; destruct (Z.eqb_spec p 0); [lia|reflexivity]).
  destruct (My Ep Ec Hcv ltac:(lia) ltac:(lia) ltac:(lia) Hdt) as (y & Ey & Dy). rewrite Z2Nat.id in Ey by lia. rewrite Ey. cbn [bind]. eauto.
Qed.
(** #C57_float_barratt_eccles# The same for the Barratt-Eccles operad. *)
Lemma C57_float_barratt_eccles_l (dt p s q d : Z) (bockstein : bool) : prime p -> p <> 2 -> dt_ok dt p ->
  Z.odd q = true -> q / 2 + s < 0 -> (p - 1) / 2 <= 170 ->
  d = (2 * s - q) * (p - 1) - (if bockstein then 1 else 0) -> 0 <= d ->
  exists g y, nearest_double (Z.of_nat (Factorial.fact (Z.to_nat ((p - 1) / 2)))) g /\
    be_may_steenrod dt p d (Some p) = Ok y /\
    be_steenrod_operation dt p s q bockstein = scale dt cls_be (sgn (q / 2 + s) * g) y.
Proof.
  intros Hp N2 Hdt Oq He Hm Ed Hd. assert (p > 1) by (destruct Hp; lia).
  pose proof (coeff_float p s q Hp N2 Oq He) as Q. destruct (Z.leb_spec ((p - 1) / 2) 170); [|lia]. destruct Q as (g & Ng & Ecf).
  unfold be_steenrod_operation. destruct (Z.eqb_spec p 2); [contradiction|]. cbn [andb]. rewrite Ecf. cbn [bind]. rewrite <- Ed. destruct (Z.ltb_spec d 0); [lia|].
  pose proof (may_ok dt p (Z.to_nat d) (Some p) p) as My. assert (Ep : p = match Some p with Some t => if t =? 0 then dt else t | None => dt end) by (cbv beta iota; destruct (Z.eqb_spec p 0); [lia|reflexivity]).
  destruct (My Ep ltac:(lia) ltac:(lia) ltac:(lia) Hdt) as (y & Ey & Dy & Ky). rewrite Z2Nat.id in Ey by lia. rewrite Ey. cbn [bind]. eauto.
Qed.
(** #C57_float_conversion# Converting an int to a float, as the code does with
    m!, gives the nearest double, ties to even. *)
Lemma C57_float_conversion_l (n g : Z) : float_of_int n = Ok g -> nearest_double n g.
Proof. apply float_ok. Qed.
(** #C57_float_overflow# For m >= 171 the float overflows, also below the range. *)
Lemma C57_float_overflow_l (dt p s q : Z) (dc : conv) (ov : option conv) (bockstein : bool) :
  prime p -> coefficient_overflows p s q ->
  surj_steenrod_operation dt dc p s q bockstein ov = Err OverflowError /\ be_steenrod_operation dt p s q bockstein = Err OverflowError.
Proof.
  intros Hp (Oq & He & Hm). assert (N2 : p <> 2). { intros ->. change ((2 - 1) / 2) with 0 in Hm. lia. }
  pose proof (coeff_float p s q Hp N2 Oq He) as Q. destruct (Z.leb_spec ((p - 1) / 2) 170); [lia|].
  unfold surj_steenrod_operation, be_steenrod_operation. destruct (Z.eqb_spec p 2); [contradiction|]. cbn [andb]. rewrite Q. now split.
Qed.
(** #C57_overflow# For m >= 171 the float overflows: the prime 347. *)
Lemma C57_overflow_l (dt : Z) (dc : conv) (ov : option conv) (bockstein : bool) :
  prime 347 /\ surj_steenrod_operation dt dc 347 (-1) (-3) bockstein ov = Err OverflowError /\ be_steenrod_operation dt 347 (-1) (-3) bockstein = Err OverflowError.
Proof.
  split; [apply prime_check; [lia|vm_compute; reflexivity]|].
  assert (E : steenrod_coeff 347 (-1) (-3) = Err OverflowError) by (vm_compute; reflexivity).
  split; [unfold surj_steenrod_operation|unfold be_steenrod_operation]; cbn [andb Z.eqb Pos.eqb]; rewrite E; reflexivity.
Qed.
(** #C57_example# P_1 on degree 1 and beta P_1 on degree 1 at the prime 3. *)
Example C57_example_l :
  prime 3 /\ exact_coefficient 3 1 1 /\ steenrod_sign_nu 3 1 1 (-1) /\
  surj_steenrod_operation 0 BF 3 1 1 true (Some MS) = Ok (mkElt [([1; 2; 3; 1], 2)] 3 MS) /\
  be_steenrod_operation 0 3 1 1 true = Ok (mkElt [([[1; 2; 3]; [2; 3; 1]], 2)] 3 tt) /\
  be_steenrod_operation 0 2 3 1 false = Ok (mkElt [([[1; 2]; [2; 1]; [1; 2]], 1)] 2 tt).
Proof.
  split; [apply prime_check; [lia|vm_compute; reflexivity]|]. split; [left + (right; left); vm_compute; congruence|]. split; [exists 0; vm_compute; reflexivity|].
  repeat split; vm_compute; reflexivity.
Qed.
