(** * Uniqueness up to homotopy of equivariant sequences.  Proof library. *)
From Coq Require Import Setoid Morphisms.
From Verif Require Import PyBase Dict FreeModule Symmetric Simplicial Utils Surjection BarrattEccles Eqm Spec SpecOperad FreeModuleFacts FreeModuleLaws ListFacts
  ClassFacts LinearFacts SymmetricFacts CycleFacts SymmetricLaws RingFacts RingLaws Tensor TensorAct KoszulFacts LoopFacts ActGeneric BEFacts BEOrbit BELaws BEDiag MayFacts CongFacts HtpyLaws PerExact.
Lemma RA_exch n d d' (h : list Z -> list Z -> Z) : RA n d (fun q => RA n d' (fun p => h p q)) = RA n d' (fun p => RA n d (fun q => h p q)).
Proof.
  unfold RA. destruct (Nat.even d), (Nat.even d').
  - apply sumf_exch.
  - now rewrite sumf_sub.
  - now rewrite sumf_sub.
  - ring.
Qed.
Section Uniq.
Context {K A : Type} `{KO : KeyOk K} {KE : KeyEq K}.
Variable c : pycls K.
Hypothesis okc : cls_ok c.
Variable a : A.
Variables (dt n : Z).
Hypothesis Hn : 2 <= n.
Variable P : K -> Prop.
Hypothesis KP : kpred P.
Variable act : ring -> elt K A -> res (elt K A).
Variable Pact : (K -> Z) -> skey -> K -> Z.
Variable t : Z.
Hypothesis Ht : 0 <= t.
Hypothesis Nt : t <> 1.
Hypothesis Hdt : dt_ok dt t.
Hypothesis bil : bilop cls_ring c c t tt a a (pk n) P Pact act.
Hypothesis rep_act : rep2 (pk n) P P Pact.
Hypothesis adm_act : adm2 cls_ring c c (pk n) P P Pact.
Hypothesis val_act : forall g k2 k2' k1, kval k2 = kval k2' -> Pact g k2 k1 = Pact g k2' k1.
Hypothesis mul_act : forall g p q k, perm n p -> perm n q -> P k -> Pact (fun k' => Pact g (SGE p) k') (SGE q) k = Pact g (SGE (pmul p q)) k.
(** the boundary *)
Variable bnd : elt K A -> res (elt K A).
Variable D : (K -> Z) -> K -> Z.
Hypothesis Lb : linop c c t a a P P D bnd.
Hypothesis Rb : rep P P D.
Hypothesis Ab : admop c c P P D.
Hypothesis com : forall g k2 k, pk n k2 -> P k -> Pact (D g) k2 k = D (fun k' => Pact g k2 k') k.
(** the cells *)
Variable C : Z -> K -> Prop.
Hypothesis CP : forall d k, C d k -> P k.
Hypothesis KC : forall d, kpred (C d).
Hypothesis act_C : forall u d (x y : elt K A), wf cls_ring u -> torsion u = t -> keys_in (rpk n) u -> wf c x -> torsion x = t -> attr x = a -> keys_in (C d) x -> act u x = Ok y -> keys_in (C d) y.
Definition good d (x : elt K A) : Prop := wf c x /\ torsion x = t /\ attr x = a /\ keys_in (C d) x.
Hypothesis acyc : forall d z, 1 <= d -> good d z -> (exists w, bnd z = Ok w /\ is_zero w) -> exists y, good (d + 1) y /\ same (bnd y) (Ok z).
Hypothesis acyc0 : forall z, good 0 z -> ((exists y, good 1 y /\ same (bnd y) (Ok z)) <-> (t | zsum (map snd (data z)))).

Hypothesis aug : forall p k, perm n p -> C 0 k -> Pact (fun k => match bad c k with Ok true => 0 | _ => 1 end) (SGE p) k = match bad c k with Ok true => 0 | _ => 1 end.

Lemma good_P d x : good d x -> keys_in P x.
Proof. intros (_ & _ & _ & Kx) k v Hin. eapply CP, Kx, Hin. Qed.
Definition U d (u : ring) : Prop := ma dt n d (Some t) = Ok u.
Lemma U_ex d : exists u, U d u /\ keys_in (rpk n) u.
Proof. destruct (ma_den dt n t d (Some t) eq_refl Hn Ht Nt Hdt) as (u & E & _ & Ku). exists u. split; [exact E|exact Ku]. Qed.
Lemma U_acts d (u : ring) : U d u -> acts n P Pact t u (fun g k => RA n d (fun p => Pact g (SGE p) k)).
Proof. intros E. exact (ma_acts dt n Hn P Pact t Ht Nt Hdt val_act d u E). Qed.
Lemma U_linop d (u : ring) : U d u -> linop c c t a a P P (DBL Pact u) (act u) /\ rep P P (DBL Pact u) /\ admop c c P P (DBL Pact u).
Proof. intros E. exact (acts_linop c okc a n P KP act Pact t Ht bil rep_act adm_act u _ (U_acts d u E)). Qed.
Lemma U_com d (u : ring) g k : U d u -> P k -> DBL Pact u (D g) k = D (DBL Pact u g) k.
Proof.
  intros E Hk. destruct (U_acts d u E) as (_ & _ & Ku & _). change (D (DBL Pact u g) k) with (D (fun k' => ev (fun k2 => Pact g k2 k') (data u)) k). rewrite (rep_lin _ _ _ (fun k' k2 => Pact g k2 k') (data u) Rb k Hk). unfold DBL. apply ev_ext. intros k2 v Hin. apply com; [exact (Ku _ _ Hin)|exact Hk].
Qed.
Lemma U_sq d (u u' : ring) g k : U d u -> U (Datatypes.S d) u' -> P k -> eqm t (DBL Pact u (DBL Pact u' g) k) 0.
Proof.
  intros E E' Hk. destruct (U_acts d u E) as (_ & _ & Ku & Eu). destruct (U_acts _ u' E') as (_ & _ & Ku' & Eu').
  rewrite (rep_eqm P P (DBL Pact u) t _ (fun k => RA n (Datatypes.S d) (fun p => Pact g (SGE p) k)) k (proj1 (proj2 (U_linop d u E))) Hk) by (intros k' Hk'; now apply Eu').
  rewrite Eu by exact Hk. apply eqm_eq.
  rewrite <- (RA_RA n d (fun p => Pact g (SGE p) k)) by lia. rewrite <- RA_exch. apply RA_ext; [lia|]. intros q Hq.
  destruct (RA_list n (Datatypes.S d) ltac:(lia)) as (T & T1 & T2).
  rewrite (T2 (fun p => Pact g (SGE (pmul p q)) k)).
  rewrite (rep2_ext (pk n) P P Pact _ (fun k' => ev ((fun k' p => Pact g (SGE p) k') k') T) (SGE q) k rep_act Hq Hk) by (intros k' _; apply T2).
  rewrite (rep2_lin _ _ _ _ (fun k' p => Pact g (SGE p) k') T rep_act (SGE q) k Hq Hk). apply ev_ext. intros p v Hin. apply mul_act; auto. exact (T1 _ _ Hin).
Qed.
Lemma sub_evP d (x y : elt K A) : good d x -> good d y -> exists z, sub dt c x y = Ok z /\ good d z /\ forall g, admP c P g -> eqm t (ev g (data z)) (ev g (data x) - ev g (data y)).
Proof.
  intros Gx Gy. pose proof Gx as (Wx & Tx & Ax & Kx). pose proof Gy as (Wy & Ty & Ay & Ky).
  pose proof (den_self c x Wx) as Dx. pose proof (den_self c y Wy) as Dy. rewrite Tx, Ax in Dx. rewrite Ty, Ay in Dy.
  destruct (sub_den c okc dt t Ht Hdt a a _ _ x y Dx Dy) as (z & Ez & Dz). exists z. split; [exact Ez|].
  assert (Kz : keys_in (C d) z).
  { apply (den_keys c okc t a _ z (C d) Ht (KC d) Dz). intros g _ H0. apply eqm_eq. rewrite !ev_zero; [ring| |]; intros k v Hin; apply H0; [exact (Ky _ _ Hin)|exact (Kx _ _ Hin)]. }
  assert (Gz : good d z) by (split; [eapply den_wf; [exact Ht|exact Dz]|split; [exact (proj1 Dz)|split; [exact (proj1 (proj2 Dz))|exact Kz]]]).
  split; [exact Gz|]. intros g Hg. apply (den_ev_on c okc t a _ z P g (dkeys (data x) ++ dkeys (data y)) KP Dz (good_P d z Gz) Hg).
  intros h Hh. apply eqm_eq. f_equal; apply ev_ext; intros k v Hin; apply Hh.
  - exact (good_P d x Gx _ _ Hin).
  - apply in_or_app. left. now apply (in_map fst) in Hin.
  - exact (good_P d y Gy _ _ Hin).
  - apply in_or_app. right. now apply (in_map fst) in Hin.
Qed.
Lemma op_evP d f D' (x : elt K A) : linop c c t a a P P D' f -> rep P P D' -> admop c c P P D' -> good d x ->
  exists y, f x = Ok y /\ wf c y /\ torsion y = t /\ attr y = a /\ keys_in P y /\ forall g, admP c P g -> eqm t (ev g (data y)) (ev (D' g) (data x)).
Proof.
  intros L R' A' G. pose proof G as (Wx & Tx & Ax & Kx). destruct (L x Wx Tx Ax (good_P d x G)) as (y & E & Dy & Ky). exists y. split; [exact E|].
  split; [eapply den_wf; [exact Ht|exact Dy]|]. split; [exact (proj1 Dy)|]. split; [exact (proj1 (proj2 Dy))|]. split; [exact Ky|].
  intros g Hg. exact (linop_evP c okc a P KP t f D' x y g L R' A' Wx Tx Ax (good_P d x G) E Hg).
Qed.
(** the equations on coefficients *)
Definition E0 (x x' h : elt K A) : Prop := forall g, admP c P g -> eqm t (ev g (data x) - ev g (data x')) (ev (D g) (data h)).
Definition E1 (u : ring) (x x' h h0 : elt K A) : Prop := forall g, admP c P g -> eqm t (ev g (data x) - ev g (data x')) (ev (D g) (data h) + ev (DBL Pact u g) (data h0)).
Lemma bnd_E d (y z : elt K A) : good d y -> good (d - 1) z -> same (bnd y) (Ok z) -> forall g, admP c P g -> eqm t (ev g (data z)) (ev (D g) (data y)).
Proof.
  intros Gy Gz (w & z' & Ew & [= <-] & Q & _) g Hg. destruct (op_evP d bnd D y Lb Rb Ab Gy) as (w' & Ew' & Ww & _ & _ & _ & H0). rewrite Ew in Ew'. injection Ew' as <-.
  rewrite <- (H0 g Hg). apply eqm_eq. symmetry. apply (eqb_ev c); auto. apply Gz.
Qed.
Lemma step_E d (u : ring) (x y : elt K A) : U d u -> good (Z.of_nat d) x -> good (Z.of_nat d - 1) y -> same (bnd x) (act u y) -> forall g, admP c P g -> eqm t (ev (D g) (data x)) (ev (DBL Pact u g) (data y)).
Proof.
  intros EU Gx Gy (w & v & Ew & Ev & Q & _) g Hg. destruct (U_linop d u EU) as (Lu & Ru & Au).
  destruct (op_evP _ bnd D x Lb Rb Ab Gx) as (w' & Ew' & Ww & _ & _ & _ & Hw). rewrite Ew in Ew'. injection Ew' as <-.
  destruct (op_evP _ (act u) _ y Lu Ru Au Gy) as (v' & Ev' & Wv & _ & _ & _ & Hv). rewrite Ev in Ev'. injection Ev' as <-.
  rewrite <- (Hw g Hg), <- (Hv g Hg). apply eqm_eq. now apply (eqb_ev c).
Qed.
(** first and next homotopies *)
Definition one (k : K) : Z := match bad c k with Ok true => 0 | _ => 1 end.
Lemma one_adm : admP c P one.
Proof. split; [intros k k' E _; apply keqb_eq in E; now subst|]. intros k _ E. unfold one. now rewrite E. Qed.
Lemma one_ev (x : elt K A) : wf c x -> zsum (map snd (data x)) = ev one (data x).
Proof.
  intros (_ & _ & Cv). unfold ev, sumf. f_equal. apply map_ext_in. intros [k v] Hin. cbn [fst snd]. destruct (Cv k v Hin) as [_ Hb]. unfold one. rewrite Hb. ring.
Qed.
Lemma hom0 (x x' : elt K A) : good 0 x -> good 0 x' -> (t | zsum (map snd (data x)) - zsum (map snd (data x'))) -> exists h, good 1 h /\ E0 x x' h.
Proof.
  intros Gx Gx' Hs. destruct (sub_evP 0 x x' Gx Gx') as (z & Ez & Gz & Hz).
  assert (Z1 : exists y, good 1 y /\ same (bnd y) (Ok z)).
  { apply acyc0; [exact Gz|]. rewrite (one_ev z (proj1 Gz)). rewrite (one_ev x (proj1 Gx)), (one_ev x' (proj1 Gx')) in Hs.
    assert (Q : eqm t (ev one (data z)) 0). { rewrite (Hz one one_adm). unfold eqm. now rewrite Z.sub_0_r. }
    unfold eqm in Q. now rewrite Z.sub_0_r in Q. }
  destruct Z1 as (h & Gh & S0). exists h. split; [exact Gh|]. intros g Hg. rewrite <- (Hz g Hg). exact (bnd_E 1 h z Gh Gz S0 g Hg).
Qed.
Lemma next d (u : ring) (x x' y y' h : elt K A) : U (Datatypes.S d) u ->
  good (Z.of_nat (Datatypes.S d)) x -> good (Z.of_nat (Datatypes.S d)) x' -> good (Z.of_nat d) y -> good (Z.of_nat d) y' -> good (Z.of_nat d + 1) h ->
  same (bnd x) (act u y) -> same (bnd x') (act u y') ->
  (forall g, admP c P g -> eqm t (ev (DBL Pact u g) (data y) - ev (DBL Pact u g) (data y')) (ev (D (DBL Pact u g)) (data h))) ->
  exists h', good (Z.of_nat (Datatypes.S d) + 1) h' /\ E1 u x x' h' h.
Proof.
  intros EU Gx Gx' Gy Gy' Gh Sx Sx' Hh. destruct (U_linop _ u EU) as (Lu & Ru & Au).
  destruct (U_ex (Datatypes.S d)) as (u0 & E0' & Ku). assert (u0 = u) by (unfold U in *; congruence). subst u0.
  assert (Ed : Z.of_nat (Datatypes.S d) - 1 = Z.of_nat d) by lia. assert (Ed' : Z.of_nat d + 1 = Z.of_nat (Datatypes.S d)) by lia. rewrite Ed' in Gh.
  destruct (sub_evP _ x x' Gx Gx') as (z1 & _ & Gz1 & Hz1).
  destruct (op_evP _ (act u) _ h Lu Ru Au Gh) as (b & Eb & Wb & Tb & Ab' & _ & Hb).
  assert (Gb : good (Z.of_nat (Datatypes.S d)) b).
  { split; [exact Wb|]. split; [exact Tb|]. split; [exact Ab'|]. destruct (U_acts _ u EU) as (Wu & Tu & _). destruct Gh as (Wh & Th & Ah & Kh). exact (act_C u _ h b Wu Tu Ku Wh Th Ah Kh Eb). }
  destruct (sub_evP _ z1 b Gz1 Gb) as (z & _ & Gz & Hz).
  destruct (op_evP _ bnd D z Lb Rb Ab Gz) as (w & Ew & Ww & Tw & Aw & Kw & Hw).
  assert (Zw : is_zero w).
  { pose proof (den_self c w Ww) as Dw. rewrite Tw, Aw in Dw. apply (den_zero c okc t a _ w Ht Dw). intros g Hg. apply (adm_admP c P) in Hg. cbn beta.
    rewrite (Hw g Hg), (Hz (D g) (Ab g Hg)), (Hz1 (D g) (Ab g Hg)), (Hb (D g) (Ab g Hg)).
    rewrite (step_E (Datatypes.S d) u x y EU Gx ltac:(rewrite Ed; exact Gy) Sx g Hg).
    rewrite (step_E (Datatypes.S d) u x' y' EU Gx' ltac:(rewrite Ed; exact Gy') Sx' g Hg).
    rewrite (Hh g Hg). apply eqm_eq. rewrite (ev_ext (DBL Pact u (D g)) (D (DBL Pact u g)) (data h)); [ring|].
    intros k v Hin. apply (U_com _ u g k EU). exact (good_P _ h Gh _ _ Hin). }
  destruct (acyc (Z.of_nat (Datatypes.S d)) z ltac:(lia) Gz (ex_intro _ w (conj Ew Zw))) as (h' & Gh' & Sh').
  exists h'. split; [exact Gh'|]. intros g Hg.
  assert (Q : eqm t (ev (D g) (data h')) (ev g (data z))) by (symmetry; apply (bnd_E _ h' z Gh'); [replace (Z.of_nat (Datatypes.S d) + 1 - 1) with (Z.of_nat (Datatypes.S d)) by ring; exact Gz|exact Sh'|exact Hg]).
  rewrite Q, (Hz g Hg), (Hz1 g Hg), (Hb g Hg). apply eqm_eq. ring.
Qed.
Definition rel (psi psi' h : nat -> elt K A) (d : nat) : Prop :=
  match d with O => E0 (psi O) (psi' O) (h O) | Datatypes.S d' => forall u, U d u -> E1 u (psi d) (psi' d) (h d) (h d') end.
Lemma homotopy (psi psi' : nat -> elt K A) (N : nat) :
  (forall d, (d <= N)%nat -> good (Z.of_nat d) (psi d) /\ good (Z.of_nat d) (psi' d)) ->
  (forall d u, (d < N)%nat -> U (Datatypes.S d) u -> same (bnd (psi (Datatypes.S d))) (act u (psi d)) /\ same (bnd (psi' (Datatypes.S d))) (act u (psi' d))) ->
  (t | zsum (map snd (data (psi O))) - zsum (map snd (data (psi' O)))) ->
  exists h : nat -> elt K A, forall d, (d <= N)%nat -> good (Z.of_nat d + 1) (h d) /\ rel psi psi' h d.
Proof.
  intros G S0 H0. induction N as [|N IH].
  - destruct (hom0 (psi O) (psi' O)) as (h & Gh & Eh); [apply (G O); lia|apply (G O); lia|exact H0|]. exists (fun _ => h). intros d Hd. assert (d = O) by lia. subst. split; [exact Gh|exact Eh].
  - destruct IH as (h & Hh); [intros d Hd; apply G; lia|intros d u Hd; apply S0; lia|].
    destruct (U_ex (Datatypes.S N)) as (u & EU & _). destruct (S0 N u ltac:(lia) EU) as (Sx & Sx').
    destruct (Hh N ltac:(lia)) as (GhN & RN).
    destruct (next N u (psi (Datatypes.S N)) (psi' (Datatypes.S N)) (psi N) (psi' N) (h N) EU) as (h' & Gh' & Eh').
    + apply (G (Datatypes.S N)). lia.
    + apply (G (Datatypes.S N)). lia.
    + apply (G N). lia.
    + apply (G N). lia.
    + exact GhN.
    + exact Sx.
    + exact Sx'.
    + intros g Hg. destruct (U_linop _ u EU) as (_ & _ & Au). destruct N as [|M]; cbn [rel] in RN.
      * exact (RN _ (Au g Hg)).
      * destruct (U_ex (Datatypes.S M)) as (v & EV & _). rewrite (RN v EV _ (Au g Hg)).
        rewrite (ev_eqm t (DBL Pact v (DBL Pact u g)) (fun _ => 0) (data (h M))).
        -- apply eqm_eq. rewrite (ev_zero (fun _ => 0)) by reflexivity. ring.
        -- intros k w Hin. apply (U_sq _ v u g k EV EU). destruct (Hh M ltac:(lia)) as (GM & _). exact (good_P _ _ GM _ _ Hin).
    + exists (fun d => if Nat.eqb d (Datatypes.S N) then h' else h d). intros d Hd. destruct (Nat.eqb_spec d (Datatypes.S N)) as [->|Nd].
      * split; [exact Gh'|]. cbn [rel]. rewrite Nat.eqb_refl. destruct (Nat.eqb_spec N (Datatypes.S N)); [lia|]. intros u' EU'. assert (u' = u) by (unfold U in *; congruence). subst. exact Eh'.
      * destruct (Hh d ltac:(lia)) as (Gd & Rd). split; [exact Gd|]. destruct d as [|d]; cbn [rel] in *; [exact Rd|].
        destruct (Nat.eqb_spec (Datatypes.S d) (Datatypes.S N)); [lia|]. destruct (Nat.eqb_spec d (Datatypes.S N)); [lia|]. exact Rd.
Qed.
(** on elements *)
Lemma rel_0 (x x' h : elt K A) : good 0 x -> good 0 x' -> good 1 h -> E0 x x' h -> same (sub dt c x x') (bnd h).
Proof.
  intros Gx Gx' Gh E. destruct (sub_evP 0 x x' Gx Gx') as (z & Ez & Gz & Hz). destruct (op_evP 1 bnd D h Lb Rb Ab Gh) as (w & Ew & Ww & Tw & Aw & Kw & Hw).
  pose proof (den_self c z (proj1 Gz)) as Dz. destruct Gz as (_ & Tz & Az & _). rewrite Tz, Az in Dz. pose proof (den_self c w Ww) as Dw. rewrite Tw, Aw in Dw.
  eapply (same_den c okc t a); [exact Ht|exists z; split; [exact Ez|exact Dz]|exists w; split; [exact Ew|exact Dw]|].
  intros g Hg. apply (adm_admP c P) in Hg. cbn beta. now rewrite (Hz g Hg), (Hw g Hg), (E g Hg).
Qed.
Lemma rel_S d (u : ring) (x x' h h0 : elt K A) : U (Datatypes.S d) u -> good (Z.of_nat (Datatypes.S d)) x -> good (Z.of_nat (Datatypes.S d)) x' -> good (Z.of_nat (Datatypes.S d) + 1) h -> good (Z.of_nat d + 1) h0 -> E1 u x x' h h0 ->
  same (sub dt c x x') (let! b := bnd h in let! e := act u h0 in add dt c b e).
Proof.
  intros EU Gx Gx' Gh Gh0 E. destruct (sub_evP _ x x' Gx Gx') as (z & Ez & Gz & Hz). destruct (op_evP _ bnd D h Lb Rb Ab Gh) as (w & Ew & Ww & Tw & Aw & Kw & Hw).
  destruct (U_linop _ u EU) as (Lu & Ru & Au). destruct (op_evP _ (act u) _ h0 Lu Ru Au Gh0) as (v & Ev & Wv & Tv & Av & Kv & Hv).
  pose proof (den_self c z (proj1 Gz)) as Dz. destruct Gz as (_ & Tz & Az & _). rewrite Tz, Az in Dz. pose proof (den_self c w Ww) as Dw. rewrite Tw, Aw in Dw. pose proof (den_self c v Wv) as Dv. rewrite Tv, Av in Dv.
  rewrite Ew. cbn [bind]. rewrite Ev. cbn [bind].
  eapply (same_den c okc t a); [exact Ht|exists z; split; [exact Ez|exact Dz]|exact (add_den c okc dt t Ht Hdt a a _ _ w v Dw Dv)|].
  intros g Hg. apply (adm_admP c P) in Hg. cbn beta. now rewrite (Hz g Hg), (Hw g Hg), (Hv g Hg), (E g Hg).
Qed.
Lemma total_nec (x x' h : elt K A) : good 0 x -> good 0 x' -> good 1 h -> same (sub dt c x x') (bnd h) -> (t | zsum (map snd (data x)) - zsum (map snd (data x'))).
Proof.
  intros Gx Gx' Gh S0. destruct (sub_evP 0 x x' Gx Gx') as (z & Ez & Gz & Hz).
  assert (T : (t | zsum (map snd (data z)))). { apply acyc0; [exact Gz|]. exists h. split; [exact Gh|]. rewrite Ez in S0. now apply same_sym. }
  rewrite (one_ev z (proj1 Gz)) in T. rewrite (one_ev x (proj1 Gx)), (one_ev x' (proj1 Gx')).
  assert (Q : eqm t (ev one (data x) - ev one (data x')) 0). { rewrite <- (Hz one one_adm). unfold eqm. now rewrite Z.sub_0_r. }
  unfold eqm in Q. now rewrite Z.sub_0_r in Q.
Qed.
(** the statement, both ways *)
Definition homs (psi psi' h : nat -> elt K A) (N : nat) : Prop :=
  same (sub dt c (psi O) (psi' O)) (bnd (h O)) /\
  forall d, (d < N)%nat -> same (sub dt c (psi (Datatypes.S d)) (psi' (Datatypes.S d)))
    (let! b := bnd (h (Datatypes.S d)) in let! e := (let! u := ma dt n (Datatypes.S d) (Some t) in act u (h d)) in add dt c b e).
Lemma uniq_iff (psi psi' : nat -> elt K A) (N : nat) :
  (forall d, (d <= N)%nat -> good (Z.of_nat d) (psi d) /\ good (Z.of_nat d) (psi' d)) ->
  (forall d, (d < N)%nat -> same (bnd (psi (Datatypes.S d))) (let! u := ma dt n (Datatypes.S d) (Some t) in act u (psi d)) /\
             same (bnd (psi' (Datatypes.S d))) (let! u := ma dt n (Datatypes.S d) (Some t) in act u (psi' d))) ->
  ((t | zsum (map snd (data (psi O))) - zsum (map snd (data (psi' O)))) <->
   exists h : nat -> elt K A, (forall d, (d <= N)%nat -> good (Z.of_nat d + 1) (h d)) /\ homs psi psi' h N).
Proof.
  intros G S0. assert (G0 : good (Z.of_nat 0) (psi O) /\ good (Z.of_nat 0) (psi' O)) by (apply G; lia). split.
  - intros H0. destruct (homotopy psi psi' N) as (h & Hh); [exact G| |exact H0|].
    + intros d u Hd EU. destruct (S0 d Hd) as (S1 & S2). unfold U in EU. rewrite EU in S1, S2. now split.
    + exists h. split; [intros d Hd; now apply Hh|]. split.
      * destruct (Hh O ltac:(lia)) as (G1 & R1). exact (rel_0 _ _ _ (proj1 G0) (proj2 G0) G1 R1).
      * intros d Hd. destruct (U_ex (Datatypes.S d)) as (u & EU & _). destruct (Hh (Datatypes.S d) ltac:(lia)) as (G1 & R1). destruct (Hh d ltac:(lia)) as (Gh0 & _).
        pose proof EU as EU'. unfold U in EU'. rewrite EU'. cbn [bind]. exact (rel_S d u _ _ _ _ EU (proj1 (G _ Hd)) (proj2 (G _ Hd)) G1 Gh0 (R1 u EU)).
  - intros (h & Gh & S1 & _). exact (total_nec _ _ _ (proj1 G0) (proj2 G0) (Gh O ltac:(lia)) S1).
Qed.
(** existence *)
Lemma act_good d u (x : elt K A) : U (Datatypes.S d) u -> good (Z.of_nat d) x -> exists z, act u x = Ok z /\ good (Z.of_nat d) z /\ forall g, admP c P g -> eqm t (ev g (data z)) (ev (DBL Pact u g) (data x)).
Proof.
  intros EU G. destruct (U_linop _ u EU) as (Lu & Ru & Au). destruct (op_evP _ (act u) _ x Lu Ru Au G) as (z & Ez & Wz & Tz & Az & _ & Hz). exists z. split; [exact Ez|]. split; [|exact Hz].
  split; [exact Wz|]. split; [exact Tz|]. split; [exact Az|]. destruct (U_acts _ u EU) as (Wu & Tu & _). destruct (U_ex (Datatypes.S d)) as (u0 & E0' & Ku). assert (u0 = u) by (unfold U in *; congruence). subst u0.
  destruct G as (Wx & Tx & Ax & Kx). exact (act_C u _ x z Wu Tu Ku Wx Tx Ax Kx Ez).
Qed.
Lemma ex_0 u (x : elt K A) : U 1 u -> good 0 x -> exists y, good 1 y /\ same (bnd y) (act u x).
Proof.
  intros EU G. destruct (act_good O u x EU G) as (z & Ez & Gz & Hz). rewrite Ez. apply acyc0; [exact Gz|]. rewrite (one_ev z (proj1 Gz)).
  assert (Q : eqm t (ev one (data z)) 0); [|unfold eqm in Q; now rewrite Z.sub_0_r in Q].
  rewrite (Hz one one_adm). destruct (U_acts 1 u EU) as (_ & _ & _ & Eu).
  rewrite (ev_eqm t _ (fun _ => 0) (data x)); [apply eqm_eq; apply ev_zero; reflexivity|].
  intros k v Hin. destruct G as (_ & _ & _ & Kx). unfold DBL. rewrite (Eu one k (CP 0 k (Kx _ _ Hin))). apply eqm_eq. unfold RA. cbn [Nat.even].
  unfold one. rewrite !aug by (try (apply perm_rot; lia); exact (Kx _ _ Hin)). ring.
Qed.
Lemma ex_S d u u' (x y : elt K A) : U (Datatypes.S d) u -> U (Datatypes.S (Datatypes.S d)) u' -> good (Z.of_nat (Datatypes.S d)) x -> good (Z.of_nat d) y -> same (bnd x) (act u y) ->
  exists x', good (Z.of_nat (Datatypes.S (Datatypes.S d))) x' /\ same (bnd x') (act u' x).
Proof.
  intros EU EU' Gx Gy Sx. destruct (act_good _ u' x EU' Gx) as (z & Ez & Gz & Hz). rewrite Ez.
  destruct (U_linop _ u' EU') as (_ & _ & Au').
  destruct (op_evP _ bnd D z Lb Rb Ab Gz) as (w & Ew & Ww & Tw & Aw & Kw & Hw).
  assert (Zw : is_zero w).
  { pose proof (den_self c w Ww) as Dw. rewrite Tw, Aw in Dw. apply (den_zero c okc t a _ w Ht Dw). intros g Hg. apply (adm_admP c P) in Hg. cbn beta.
    rewrite (Hw g Hg), (Hz (D g) (Ab g Hg)). rewrite (ev_ext (DBL Pact u' (D g)) (D (DBL Pact u' g)) (data x)).
    2:{ intros k v Hin. apply (U_com _ u' g k EU'). exact (good_P _ x Gx _ _ Hin). }
    rewrite (step_E (Datatypes.S d) u x y EU Gx ltac:(replace (Z.of_nat (Datatypes.S d) - 1) with (Z.of_nat d) by lia; exact Gy) Sx (DBL Pact u' g) (Au' g Hg)).
    rewrite (ev_eqm t _ (fun _ => 0) (data y)); [apply eqm_eq; apply ev_zero; reflexivity|].
    intros k v Hin. apply (U_sq _ u u' g k EU EU'). exact (good_P _ y Gy _ _ Hin). }
  destruct (acyc (Z.of_nat (Datatypes.S d)) z ltac:(lia) Gz (ex_intro _ w (conj Ew Zw))) as (x' & Gx' & Sx'). exists x'. split; [|exact Sx'].
  replace (Z.of_nat (Datatypes.S (Datatypes.S d))) with (Z.of_nat (Datatypes.S d) + 1) by lia. exact Gx'.
Qed.
Lemma seq_ex (x0 : elt K A) (N : nat) : good 0 x0 -> exists psi : nat -> elt K A, psi O = x0 /\ (forall d, (d <= N)%nat -> good (Z.of_nat d) (psi d)) /\
  forall d, (d < N)%nat -> same (bnd (psi (Datatypes.S d))) (let! u := ma dt n (Datatypes.S d) (Some t) in act u (psi d)).
Proof.
  intros G0. induction N as [|N (psi & P0 & Gp & Sp)].
  - exists (fun _ => x0). split; [reflexivity|]. split; [|intros; lia]. intros d Hd. assert (d = O) by lia. now subst.
  - assert (X : exists x', good (Z.of_nat (Datatypes.S N)) x' /\ same (bnd x') (let! u := ma dt n (Datatypes.S N) (Some t) in act u (psi N))).
    { destruct (U_ex (Datatypes.S N)) as (u' & EU' & _). pose proof EU' as E'. unfold U in E'. rewrite E'. cbn [bind]. destruct N as [|M].
      - exact (ex_0 u' (psi O) EU' (Gp O ltac:(lia))).
      - destruct (U_ex (Datatypes.S M)) as (u & EU & _). pose proof (Sp M ltac:(lia)) as S1. pose proof EU as E. unfold U in E. rewrite E in S1. cbn [bind] in S1.
        exact (ex_S M u u' (psi (Datatypes.S M)) (psi M) EU EU' (Gp (Datatypes.S M) ltac:(lia)) (Gp M ltac:(lia)) S1). }
    destruct X as (x' & Gx' & Sx'). exists (fun d => if Nat.eqb d (Datatypes.S N) then x' else psi d). split; [exact P0|]. split.
    + intros d Hd. destruct (Nat.eqb_spec d (Datatypes.S N)) as [->|Nd]; [exact Gx'|apply Gp; lia].
    + intros d Hd. cbv beta. destruct (Nat.eqb_spec (Datatypes.S d) (Datatypes.S N)) as [Ed|Nd2]; (destruct (Nat.eqb_spec d (Datatypes.S N)) as [Ed2|Nd]; [exfalso; clear - Ed2 Hd; lia|]).
      * assert (d = N) by (clear - Ed; lia). subst d. exact Sx'.
      * apply Sp. clear - Nd2 Hd. lia.
Qed.
End Uniq.
