(** * More about bilinear operations: Leibniz rule, iterated operations.  Proof library. *)
From Coq Require Import Setoid Morphisms.
From Verif Require Import PyBase Dict FreeModule Eqm Spec FreeModuleFacts FreeModuleLaws ListFacts ClassFacts LinearFacts.

Lemma bil_left_den {K1 A1 K2 A2 K3 A3 Kp Ap K A} `{KO1 : KeyOk K1} `{KO2 : KeyOk K2} `{KO3 : KeyOk K3} `{KOp : KeyOk Kp} `{KO : KeyOk K}
  (c1 : pycls K1) (c2 : pycls K2) (c3 : pycls K3) (cp : pycls Kp) (c : pycls K) (Hcp : cls_ok cp) (Hc : cls_ok c)
  t (a1 : A1) (a2 : A2) (a3 : A3) (ap : Ap) (a : A) P1 P2 P3 Pp Q Phi1 Phi2 f1 f2 x y z :
  0 <= t -> kpred Pp ->
  bilop c1 c2 cp t a1 a2 ap P1 P2 Phi1 f1 -> rep2 P1 P2 Pp Phi1 ->
  bilop cp c3 c t ap a3 a Pp P3 Phi2 f2 -> adm2 cp c3 c Pp P3 Q Phi2 ->
  wf c1 x -> torsion x = t -> attr x = a1 -> keys_in P1 x ->
  wf c2 y -> torsion y = t -> attr y = a2 -> keys_in P2 y ->
  wf c3 z -> torsion z = t -> attr z = a3 -> keys_in P3 z ->
  returns (let! p := f1 x y in f2 p z)
    (den c t a (fun g => ev (fun k1 => ev (fun k2 => ev (fun k3 => Phi1 (fun p => Phi2 g p k3) k1 k2) (data z)) (data y)) (data x))).
Proof.
  intros Ht KPp B1 R1 B2 AD2 Wx Tx Ax Kx Wy Ty Ay Ky Wz Tz Az Kz.
  eapply returns_bind.
  - apply (linop_bilR c1 c2 cp Hcp t a1 a2 ap P1 P2 Pp Phi1 f1 Ht KPp B1 (rep2_local2 _ _ _ _ R1) (rep2_zero _ _ _ _ R1) y Wy Ty Ay Ky x Wx Tx Ax Kx).
  - intros p [Dp Kp']. eapply returns_mono; [apply B2|].
    + eapply den_wf; eauto.
    + now destruct Dp.
    + now destruct Dp as (_ & ? & _).
    + exact Kp'.
    + exact Wz.
    + exact Tz.
    + exact Az.
    + exact Kz.
    + intros w Dw. eapply den_ext; [|exact Dw]. intros g Hg. cbn beta.
      transitivity (ev (DBR Phi1 y (DBR Phi2 z g)) (data x)).
      * destruct (local_list P1 Pp (DBR Phi1 y) (data x) (rep_local _ _ _ (rep2_R _ _ _ _ y R1 Ky)) Kx) as (l & L1 & L2).
        apply (den_ev_on cp Hcp t ap _ p Pp (DBR Phi2 z g) l KPp Dp Kp').
        -- apply (DBR_admop cp c3 c Pp P3 Q Phi2 AD2 z Kz Wz). now apply adm_admP.
        -- intros h Hh. apply eqm_eq. apply L2. auto.
      * apply eqm_eq. apply ev_ext. intros k1 v1 Hi1. apply ev_ext. intros k2 v2 Hi2.
        apply (rep2_lin P1 P2 Pp Phi1 (fun p k3 => Phi2 g p k3)); eauto.
Qed.

(** (x o y) o z == s * ((x o z) o y) *)
Lemma bil_parallel {K1 A1 K2 A2 K3 A3 Kp Ap Kq Aq K A} `{KO1 : KeyOk K1} `{KO2 : KeyOk K2} `{KO3 : KeyOk K3} `{KOp : KeyOk Kp} `{KOq : KeyOk Kq} `{KO : KeyOk K}
  (c1 : pycls K1) (c2 : pycls K2) (c3 : pycls K3) (cp : pycls Kp) (cq : pycls Kq) (c : pycls K) (Hcp : cls_ok cp) (Hcq : cls_ok cq) (Hc : cls_ok c)
  dt t s (a1 : A1) (a2 : A2) (a3 : A3) (ap : Ap) (aq : Aq) (a : A) P1 P2 P3 Pp Pq Q Q' Phi1 Phi2 Phi3 Phi4 f1 f2 f3 f4 x y z :
  0 <= t -> dt_ok dt t -> kpred Pp -> kpred Pq ->
  bilop c1 c2 cp t a1 a2 ap P1 P2 Phi1 f1 -> rep2 P1 P2 Pp Phi1 ->
  bilop cp c3 c t ap a3 a Pp P3 Phi2 f2 -> adm2 cp c3 c Pp P3 Q Phi2 ->
  bilop c1 c3 cq t a1 a3 aq P1 P3 Phi3 f3 -> rep2 P1 P3 Pq Phi3 ->
  bilop cq c2 c t aq a2 a Pq P2 Phi4 f4 -> adm2 cq c2 c Pq P2 Q' Phi4 ->
  (forall g k1 k2 k3, adm c g -> P1 k1 -> P2 k2 -> P3 k3 -> bad c1 k1 = Ok false -> bad c2 k2 = Ok false -> bad c3 k3 = Ok false ->
     eqm t (Phi1 (fun p => Phi2 g p k3) k1 k2) (s * Phi3 (fun q => Phi4 g q k2) k1 k3)) ->
  wf c1 x -> torsion x = t -> attr x = a1 -> keys_in P1 x ->
  wf c2 y -> torsion y = t -> attr y = a2 -> keys_in P2 y ->
  wf c3 z -> torsion z = t -> attr z = a3 -> keys_in P3 z ->
  same (let! p := f1 x y in f2 p z) (let! q := f3 x z in let! r := f4 q y in scale dt c s r).
Proof.
  intros Ht Hdt KPp KPq B1 R1 B2 AD2 B3 R3 B4 AD4 Heq Wx Tx Ax Kx Wy Ty Ay Ky Wz Tz Az Kz.
  eapply (same_den c Hc t a).
  - exact Ht.
  - eapply (bil_left_den c1 c2 c3 cp c Hcp Hc); eauto.
  - assert (E : forall r1, (let! q := r1 in let! r := f4 q y in scale dt c s r) = (let! r := (let! q := r1 in f4 q y) in scale dt c s r)) by (now intros [q|e]).
    rewrite E. eapply returns_bind; [eapply (bil_left_den c1 c3 c2 cq c Hcq Hc); eauto|]. intros r Hr. cbn beta in Hr.
    eapply returns_mono; [eapply (scale_den c Hc dt t); eauto|]. intros w Hw. exact Hw.
  - intros g Hg. cbn beta.
    assert (Hgood : forall (KK AA : Type) (PK : PyKey KK) (cc : pycls KK) (w : elt KK AA) k v, wf cc w -> In (k, v) (data w) -> bad cc k = Ok false).
    { intros KK AA PK cc w k v [_ [_ W]] Hin. now apply (W _ _ Hin). }
    transitivity (ev (fun k1 => ev (fun k2 => ev (fun k3 => s * Phi3 (fun q => Phi4 g q k2) k1 k3) (data z)) (data y)) (data x)).
    { apply ev_eqm. intros k1 v1 I1. apply ev_eqm. intros k2 v2 I2. apply ev_eqm. intros k3 v3 I3. apply Heq; eauto. }
    apply eqm_eq. rewrite <- ev_scal. apply ev_ext. intros k1 v1 I1. rewrite <- ev_scal. rewrite ev_exch. apply ev_ext. intros k2 v2 I2. now rewrite ev_scal.
Qed.

(** d(x o y) == dx o y + s * (x o dy) *)
Lemma bil_leibniz {K1 A1 K2 A2 K A} `{KO1 : KeyOk K1} `{KO2 : KeyOk K2} `{KO : KeyOk K}
  (c1 : pycls K1) (c2 : pycls K2) (c : pycls K) (Hc1 : cls_ok c1) (Hc2 : cls_ok c2) (Hc : cls_ok c)
  dt t s (a1 : A1) (a2 : A2) (a : A) P1 P1' P2 P2' Q Q' Q'' D1 D2 D Phi b1 b2 b f x y :
  0 <= t -> dt_ok dt t -> kpred P1' -> kpred P2' -> kpred Q ->
  linop c1 c1 t a1 a1 P1 P1' D1 b1 -> rep P1 P1' D1 ->
  linop c2 c2 t a2 a2 P2 P2' D2 b2 -> rep P2 P2' D2 ->
  bilop c1 c2 c t a1 a2 a P1 P2 Phi f -> rep2 P1 P2 Q Phi ->
  bilop c1 c2 c t a1 a2 a P1' P2 Phi f -> rep2 P1' P2 Q' Phi -> adm2 c1 c2 c P1' P2 Q' Phi ->
  bilop c1 c2 c t a1 a2 a P1 P2' Phi f -> rep2 P1 P2' Q' Phi -> adm2 c1 c2 c P1 P2' Q' Phi ->
  linop c c t a a Q Q'' D b -> admop c c Q Q'' D ->
  (forall g k1 k2, adm c g -> P1 k1 -> P2 k2 -> bad c1 k1 = Ok false -> bad c2 k2 = Ok false ->
     eqm t (Phi (D g) k1 k2) (D1 (fun k => Phi g k k2) k1 + s * D2 (fun k => Phi g k1 k) k2)) ->
  wf c1 x -> torsion x = t -> attr x = a1 -> keys_in P1 x ->
  wf c2 y -> torsion y = t -> attr y = a2 -> keys_in P2 y ->
  same (let! z := f x y in b z)
       (let! dx := b1 x in let! u := f dx y in let! dy := b2 y in let! v := f x dy in let! w := scale dt c s v in add dt c u w).
Proof.
  intros Ht Hdt KP1 KP2 KQ L1 R1 L2 R2 B0 RB0 B1 RB1 AD1 B2 RB2 AD2 L AD Heq Wx Tx Ax Kx Wy Ty Ay Ky.
  eapply (same_den c Hc t a).
  - exact Ht.
  - pose proof (linop_bilR c1 c2 c Hc t a1 a2 a P1 P2 Q Phi f Ht KQ B0 (rep2_local2 _ _ _ _ RB0) (rep2_zero _ _ _ _ RB0) y Wy Ty Ay Ky) as LR.
    pose proof (linop_comp c1 c c Hc1 Hc Hc t a1 a a P1 Q Q'' _ _ _ _ Ht KQ LR L (DBR_local P1 P2 Q Phi (rep2_local2 _ _ _ _ RB0) y Ky) AD) as LC.
    eapply returns_mono; [apply (LC x Wx Tx Ax Kx)|]. intros w [Dw _]. exact Dw.
  - eapply returns_bind; [apply (L1 x Wx Tx Ax Kx)|]. intros dx [Ddx Kdx].
    eapply returns_bind; [apply B1; [eapply den_wf; eauto|now destruct Ddx|now destruct Ddx as (_ & ? & _)|exact Kdx|exact Wy|exact Ty|exact Ay|exact Ky]|]. intros u Du.
    assert (Du' : den c t a (fun g => ev (D1 (DBR Phi y g)) (data x)) u).
    { eapply den_ext; [|exact Du]. intros g Hg. cbn beta.
      destruct (local_list P1 P1' D1 (data x) (rep_local _ _ _ R1) Kx) as (l & E1 & E2).
      apply (den_ev_on c1 Hc1 t a1 _ dx P1' (DBR Phi y g) l KP1 Ddx Kdx).
      - apply (DBR_admop c1 c2 c P1' P2 Q' Phi AD1 y Ky Wy). now apply adm_admP.
      - intros h Hh. apply eqm_eq. apply E2. auto. }
    eapply returns_bind; [apply (L2 y Wy Ty Ay Ky)|]. intros dy [Ddy Kdy].
    eapply returns_bind; [apply B2; [exact Wx|exact Tx|exact Ax|exact Kx|eapply den_wf; eauto|now destruct Ddy|now destruct Ddy as (_ & ? & _)|exact Kdy]|]. intros v Dv.
    assert (Dv' : den c t a (fun g => ev (D2 (DBL Phi x g)) (data y)) v).
    { eapply den_ext; [|exact Dv]. intros g Hg. cbn beta. rewrite ev_exch.
      destruct (local_list P2 P2' D2 (data y) (rep_local _ _ _ R2) Ky) as (l & E1 & E2).
      apply (den_ev_on c2 Hc2 t a2 _ dy P2' (DBL Phi x g) l KP2 Ddy Kdy).
      - apply (DBL_admop c1 c2 c P1 P2' Q' Phi AD2 x Kx Wx). now apply adm_admP.
      - intros h Hh. apply eqm_eq. apply E2. auto. }
    eapply returns_bind; [eapply (scale_den c Hc dt t); eauto|]. intros w Hw.
    eapply (add_den c Hc dt t); [exact Ht|exact Hdt|exact Du'|exact Hw].
  - intros g Hg. cbn beta.
    assert (Hgood : forall (KK AA : Type) (PK : PyKey KK) (cc : pycls KK) (w : elt KK AA) k v, wf cc w -> In (k, v) (data w) -> bad cc k = Ok false).
    { intros KK AA PK cc w k v [_ [_ W]] Hin. now apply (W _ _ Hin). }
    transitivity (ev (fun k1 => ev (fun k2 => D1 (fun k => Phi g k k2) k1 + s * D2 (fun k => Phi g k1 k) k2) (data y)) (data x)).
    { apply ev_eqm. intros k1 v1 I1. unfold DBR. apply ev_eqm. intros k2 v2 I2. apply Heq; eauto. }
    apply eqm_eq. rewrite (ev_ext _ (fun k1 => ev (fun k2 => D1 (fun k => Phi g k k2) k1) (data y) + s * ev (fun k2 => D2 (fun k => Phi g k1 k) k2) (data y)) (data x)).
    2:{ intros k1 v1 I1. rewrite ev_add, ev_scal. reflexivity. }
    rewrite ev_add, ev_scal. f_equal.
    + apply ev_ext. intros k1 v1 I1. symmetry. apply (rep_lin P1 P1' D1 (fun k k2 => Phi g k k2)); eauto.
    + f_equal. rewrite ev_exch. apply ev_ext. intros k2 v2 I2. symmetry. apply (rep_lin P2 P2' D2 (fun k k1 => Phi g k1 k)); eauto.
Qed.

(** a linear map that respects two bilinear operations *)
Lemma bil_morphism {K1 A1 K2 A2 K A K1' A1' K2' A2' K' A'} `{KO1 : KeyOk K1} `{KO2 : KeyOk K2} `{KO : KeyOk K} `{KO1' : KeyOk K1'} `{KO2' : KeyOk K2'} `{KO' : KeyOk K'}
  (c1 : pycls K1) (c2 : pycls K2) (c : pycls K) (c1' : pycls K1') (c2' : pycls K2') (c' : pycls K') (Hc1 : cls_ok c1) (Hc : cls_ok c) (Hc1' : cls_ok c1') (Hc2' : cls_ok c2') (Hc' : cls_ok c')
  t (a1 : A1) (a2 : A2) (a : A) (a1' : A1') (a2' : A2') (a' : A') P1 P2 Q P1' P2' Q' Q'' D1 D2 D Phi Phi' l1 l2 l f f' x y :
  0 <= t -> kpred Q -> kpred P1' -> kpred P2' ->
  linop c1 c1' t a1 a1' P1 P1' D1 l1 -> rep P1 P1' D1 ->
  linop c2 c2' t a2 a2' P2 P2' D2 l2 -> rep P2 P2' D2 ->
  bilop c1 c2 c t a1 a2 a P1 P2 Phi f -> rep2 P1 P2 Q Phi ->
  linop c c' t a a' Q Q' D l -> admop c c' Q Q' D ->
  bilop c1' c2' c' t a1' a2' a' P1' P2' Phi' f' -> adm2 c1' c2' c' P1' P2' Q'' Phi' ->
  (forall g k2, adm c' g -> P2' k2 -> admP c1' P1' (fun k1 => Phi' g k1 k2)) ->
  (forall g k1 k2, adm c' g -> P1 k1 -> P2 k2 -> bad c1 k1 = Ok false -> bad c2 k2 = Ok false ->
     eqm t (Phi (D g) k1 k2) (D1 (fun u => D2 (fun v => Phi' g u v) k2) k1)) ->
  wf c1 x -> torsion x = t -> attr x = a1 -> keys_in P1 x ->
  wf c2 y -> torsion y = t -> attr y = a2 -> keys_in P2 y ->
  same (let! z := f x y in l z) (let! u := l1 x in let! v := l2 y in f' u v).
Proof.
  intros Ht KQ KP1 KP2 L1 R1 L2 R2 B RB L AD B' AD' AS Heq Wx Tx Ax Kx Wy Ty Ay Ky.
  eapply (same_den c' Hc' t a').
  - exact Ht.
  - pose proof (linop_bilR c1 c2 c Hc t a1 a2 a P1 P2 Q Phi f Ht KQ B (rep2_local2 _ _ _ _ RB) (rep2_zero _ _ _ _ RB) y Wy Ty Ay Ky) as LR.
    pose proof (linop_comp c1 c c' Hc1 Hc Hc' t a1 a a' P1 Q Q' _ _ _ _ Ht KQ LR L (DBR_local P1 P2 Q Phi (rep2_local2 _ _ _ _ RB) y Ky) AD) as LC.
    eapply returns_mono; [apply (LC x Wx Tx Ax Kx)|]. intros w [Dw _]. exact Dw.
  - eapply returns_bind; [apply (L1 x Wx Tx Ax Kx)|]. intros u [Du Ku]. assert (Wu : wf c1' u) by (eapply den_wf; eauto).
    eapply returns_bind; [apply (L2 y Wy Ty Ay Ky)|]. intros v [Dv Kv]. assert (Wv : wf c2' v) by (eapply den_wf; eauto).
    eapply returns_mono; [apply B'; [exact Wu|now destruct Du|now destruct Du as (_ & ? & _)|exact Ku|exact Wv|now destruct Dv|now destruct Dv as (_ & ? & _)|exact Kv]|].
    intros w Dw. eapply den_ext with (F := fun g => ev (fun k1 => ev (fun k2 => Phi' g k1 k2) (data v)) (data u)); [|exact Dw].
    intros g Hg. cbn beta. instantiate (1 := fun g => ev (fun k1 => ev (fun k2 => D1 (fun u => D2 (fun v => Phi' g u v) k2) k1) (data y)) (data x)). cbn beta.
    rewrite ev_exch.
    destruct (local_list P2 P2' D2 (data y) (rep_local _ _ _ R2) Ky) as (l0 & E1 & E2).
    transitivity (ev (D2 (DBL Phi' u g)) (data y)).
    { apply (den_ev_on c2' Hc2' t a2' _ v P2' (DBL Phi' u g) l0 KP2 Dv Kv).
      - apply (DBL_admop c1' c2' c' P1' P2' Q'' Phi' AD' u Ku Wu). now apply adm_admP.
      - intros h Hh. apply eqm_eq. apply E2. auto. }
    transitivity (ev (fun k1 => ev (fun k2 => D2 (fun v => Phi' g k1 v) k2) (data y)) (data u)).
    { apply eqm_eq. rewrite ev_exch. apply ev_ext. intros k2 v2 I2. apply (rep_lin P2 P2' D2 (fun k k1 => Phi' g k1 k)); eauto. }
    destruct (local_list P1 P1' D1 (data x) (rep_local _ _ _ R1) Kx) as (l0' & E1' & E2').
    rewrite (den_ev_on c1' Hc1' t a1' _ u P1' (fun k1 => ev (fun k2 => D2 (fun v => Phi' g k1 v) k2) (data y)) l0' KP1 Du Ku).
    2:{ split.
        - intros k k' E Pk. apply ev_ext. intros k2 v2 I2. apply (rep_ext P2 P2' D2 _ _ k2 R2); eauto. intros e He. now apply (AS g e Hg He).
        - intros k Pk Hb. apply ev_zero. intros k2 v2 I2. rewrite (rep_ext P2 P2' D2 _ (fun _ => 0) k2 R2); eauto; [apply (rep_zero _ _ _ R2); eauto|]. intros e He. now apply (AS g e Hg He). }
    2:{ intros h Hh. apply eqm_eq. apply E2'. auto. }
    apply eqm_eq. apply ev_ext. intros k1 v1 I1. apply (rep_lin P1 P1' D1 (fun k k2 => D2 (fun v => Phi' g k v) k2)); eauto.
  - intros g Hg. cbn beta.
    apply ev_eqm. intros k1 v1 I1. unfold DBR. apply ev_eqm. intros k2 v2 I2. apply Heq; eauto; [apply (proj2 (proj2 Wx) _ _ I1)|apply (proj2 (proj2 Wy) _ _ I2)].
Qed.
