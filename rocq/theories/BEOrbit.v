(** * Barratt-Eccles: orbits.  Proof library. *)
From Coq Require Import Setoid Morphisms.
From Verif Require Import PyBase Dict FreeModule Symmetric Simplicial Utils Surjection BarrattEccles Eqm Spec SpecOperad FreeModuleFacts FreeModuleLaws ListFacts
  ClassFacts LinearFacts SymmetricFacts CycleFacts SymmetricLaws RingFacts TensorAct LoopFacts ActGeneric BEFacts.

Lemma position_posn l v : position l v = posn l v. Proof. induction l as [|a l IH]; cbn; [reflexivity|]. now rewrite IH. Qed.
Lemma inverse_pinv p : inverse p = pinv p.
Proof. unfold inverse, pinv. apply map_ext. intros. apply position_posn. Qed.

(** the character of a representation *)
Definition chi (r : repr) (p : list Z) : Z := match r with SignRep => psgn p | _ => 1 end.
Lemma chi_pmul r n a b : 0 <= n -> perm n a -> perm n b -> chi r (pmul a b) = chi r a * chi r b.
Proof. intros. destruct r; cbn; auto. now apply (psgn_pmul n). Qed.
Lemma chi_id r n : 0 <= n -> chi r (zrange 1 (n + 1)) = 1.
Proof. intros. destruct r; cbn; auto. now apply psgn_id. Qed.
Lemma chi_sq r p : chi r p * chi r p = 1.
Proof. destruct r; cbn; auto. apply psgn_sq. Qed.
Lemma chi_pinv r n p : 0 <= n -> perm n p -> chi r (pinv p) = chi r p.
Proof.
  intros Hn Hp. assert (E : chi r (pinv p) * chi r p = 1) by (rewrite <- (chi_pmul r n), (pinv_l n), chi_id; auto; now apply perm_pinv).
  pose proof (chi_sq r p). pose proof (chi_sq r (pinv p)). nia.
Qed.
Lemma perm_pinv_pmul n a b : 0 <= n -> perm n a -> perm n b -> pinv (pmul a b) = pmul (pinv b) (pinv a).
Proof.
  intros Hn Ha Hb. assert (Hab := perm_pmul n a b Hn Ha Hb). apply (pmul_cancel_l n (pmul a b)); auto using perm_pinv, perm_pmul.
  rewrite (pinv_r n) by auto. rewrite (pmul_assoc n) by auto using perm_pinv, perm_pmul.
  rewrite <- (pmul_assoc n b) by auto using perm_pinv. rewrite (pinv_r n b), (pmul_id_l n) by auto using perm_pinv. symmetry. now apply pinv_r.
Qed.

Definition Dorb (r : repr) (g : bkey -> Z) (k : bkey) : Z :=
  match k with [] => 0 | k0 :: _ => chi r k0 * g (map (pmul (pinv k0)) k) end.
Definition borb (n : Z) (k : bkey) : Prop := be_simplex n k /\ exists k', k = zrange 1 (n + 1) :: k'.
Lemma kpred_borb n : kpred (borb n).
Proof.
  apply kpred_eq. intros k. unfold borb. destruct (be_simplex_dec n k) as [H|H]; [|tauto]. destruct k as [|p k].
  - right. intros [_ [k' E]]. discriminate.
  - destruct (list_eq_dec Z.eq_dec p (zrange 1 (n + 1))) as [->|N]; [left; eauto|]. right. intros [_ [k' E]]. congruence.
Qed.
Lemma borb_move n k0 k : 0 <= n -> be_simplex n (k0 :: k) -> borb n (map (pmul (pinv k0)) (k0 :: k)).
Proof.
  intros Hn Hk. assert (H0 : perm n k0) by (apply Hk; now left). split.
  - apply bsim_move; auto. now apply perm_pinv.
  - cbn [map]. rewrite (pinv_l n) by auto. eauto.
Qed.
Lemma rep_Dorb r n : 0 <= n -> rep (be_simplex n) (borb n) (Dorb r).
Proof.
  intros Hn k Hk. destruct k as [|k0 k].
  - exists []. split; [intros ? ? []|reflexivity].
  - exists [(map (pmul (pinv k0)) (k0 :: k), chi r k0)]. split.
    + intros k' v [[= <- <-]|[]]. now apply borb_move.
    + intros g. rewrite ev_cons, ev_nil. cbn [Dorb]. ring.
Qed.
Lemma adm_Dorb r n : 0 <= n -> admop cls_be cls_be (be_simplex n) (borb n) (Dorb r).
Proof.
  intros Hn g Hg. apply admP_keyeq. intros k Hk Hb. destruct k as [|k0 k]; [reflexivity|]. cbn [Dorb].
  assert (E : g (map (pmul (pinv k0)) (k0 :: k)) = 0); [|rewrite E; ring]. apply Hg; [now apply borb_move|].
  rewrite be_bad in *. injection Hb as Hb. f_equal. cbn [map bbad] in *. change (pmul (pinv k0) k0 :: map (pmul (pinv k0)) k) with (map (pmul (pinv k0)) (k0 :: k)).
  rewrite (bdup_map n); auto. apply perm_pinv; auto. apply Hk. now left.
Qed.
Lemma scale_sge dt n (x y : ring) : scale dt cls_ring n x = Ok y -> keys_in sge y.
Proof. intros E. eapply (create_keys cls_ring dt x y _ sge E). reflexivity. Qed.
Lemma den_nonzero {K A} `{KO : KeyOk K} (c : pycls K) t (a : A) F (y : elt K A) g : den c t a F y -> adm c g -> ~ eqm t (F g) 0 -> data y <> [].
Proof. intros (_ & _ & _ & HD) Hg N E. apply N. rewrite <- HD by exact Hg. now rewrite E. Qed.

Lemma orbit_den dt r n t (x : bee) : 1 <= n -> 0 <= t -> dt_ok dt t -> wf cls_be x -> torsion x = t -> keys_in (be_simplex n) x ->
  returns (be_orbit dt x r) (den cls_be t tt (fun g => ev (Dorb r g) (data x))).
Proof.
  intros Hn Ht Hdt Wx Tx Kx. assert (Hn0 : 0 <= n) by lia. unfold be_orbit. destruct (dempty (data x)) eqn:Ee.
  - apply returns_ok. pose proof (den_self cls_be x Wx) as Dx. rewrite be_attr, Tx in Dx. eapply den_ext; [|exact Dx].
    intros g _. cbn beta. destruct (data x); [reflexivity|discriminate].
  - rewrite Tx. eapply returns_bind.
    + apply (new_den cls_be ok_be dt t (Some t) tt); auto; try exact I. intros k [].
    + intros ans Hans. eapply returns_mono.
      * apply (loop_den cls_be ok_be t tt (data x) _ (fun k g => Dorb r g k)); [|exact Hans].
        intros k v F y Hin Hy. pose proof (Kx _ _ Hin) as Hk. pose proof (proj2 (proj2 Wx) _ _ Hin) as [Hv Hb].
        assert (N1 : t <> 1).
        { intros ->. destruct Hv as [Hv1 Hv2]. rewrite Tx in Hv2. lia. }
        assert (Nv : ~ eqm t v 0).
        { intros C. destruct Hv as [Hv1 Hv2]. rewrite Tx in Hv2. destruct (Z.eq_dec t 0) as [->|Nt]; [apply eqm_0 in C; lia|]. apply eqm_small in C; lia. }
        destruct k as [|k0 k']; [rewrite be_bad in Hb; discriminate|]. assert (H0 : perm n k0) by (apply Hk; now left).
        change (py_get (k0 :: k') 0) with (Ok k0). cbn [bind]. rewrite (perm_len n k0) by auto.
        rewrite (index_pinv n) by auto. cbn [bind]. rewrite (new_basis dt (Some t) t) by auto. cbn [bind].
        assert (Wb := wf_basis t (pinv k0) Ht N1).
        assert (E : returns (match r with
                        | SignRep => let! s := sg_sign k0 in scale dt cls_ring s (mkElt [(SGE (pinv k0), 1)] t tt)
                        | _ => Ok (mkElt [(SGE (pinv k0), 1)] t tt)
                        end) (fun p => den cls_ring t tt (fun g => chi r k0 * g (SGE (pinv k0))) p /\ keys_in sge p)).
        { assert (D1 : den cls_ring t tt (fun g => 1 * g (SGE (pinv k0))) (mkElt [(SGE (pinv k0), 1)] t tt)).
          { pose proof (den_self cls_ring _ Wb) as D. cbn [torsion attr data] in D. eapply den_ext; [|exact D]. intros g _. cbn beta.
            rewrite ev_cons, ev_nil. apply eqm_eq. ring. }
          assert (S1 : keys_in sge (mkElt [(SGE (pinv k0), 1)] t tt)) by (intros ? ? [[= <- <-]|[]]; reflexivity).
          destruct r; [apply returns_ok; split; [exact D1|exact S1]| |apply returns_ok; split; [exact D1|exact S1]].
          rewrite (sg_sign_ok n) by auto. cbn [bind].
          destruct (scale_den cls_ring ok_ring dt t Ht Hdt tt _ (psgn k0) _ D1) as (p & Ep & Dp).
          exists p. split; [exact Ep|]. split; [|eapply scale_sge; eauto]. eapply den_ext; [|exact Dp]. intros g _. cbn beta. cbn [chi]. apply eqm_eq. ring. }
        eapply returns_bind; [exact E|]. intros p [Dp Sp]. cbn beta.
        eapply returns_bind.
        { apply (new_den cls_be ok_be dt t (Some t) tt (dict_of [(k0 :: k', v)])); auto.
          - cbn. split; [intros ? []|exact I].
          - intros k1 [<-|[]]. apply be_okey. }
        intros e De. change (dict_of [(k0 :: k', v)]) with [(k0 :: k', v)] in De.
        assert (Kp : keys_in (pk n) p).
        { eapply (den_keys cls_ring ok_ring t tt _ p (pk n) Ht (kpred_pk n) Dp). intros g _ Hg. rewrite Hg; [now rewrite Z.mul_0_r|]. unfold pk. cbn. now apply perm_pinv. }
        assert (Ke : keys_in (be_simplex n) e).
        { eapply (den_keys cls_be ok_be t tt _ e (be_simplex n) Ht (kpred_bsim n) De). intros g _ Hg. apply eqm_eq. apply ev_zero. intros k1 v1 [[= <- <-]|[]]. now apply Hg. }
        assert (Np : data p <> []).
        { apply (den_nonzero cls_ring t tt _ p (fun _ => 1) Dp); [split; [now intros|discriminate]|]. intros C. apply N1.
          assert (C' : eqm t (chi r k0 * (chi r k0 * 1)) (chi r k0 * 0)) by now rewrite C.
          rewrite Z.mul_1_r, chi_sq, Z.mul_0_r in C'. unfold eqm in C'. rewrite Z.sub_0_r in C'. apply Z.divide_1_r_nonneg in C'; auto. }
        assert (Ne : data e <> []).
        { apply (den_nonzero cls_be t tt _ e (ind (k0 :: k')) De); [now apply (adm_ind cls_be ok_be)|]. intros C. apply Nv. rewrite ev_cons, ev_nil in C.
          unfold ind in C. rewrite (keqb_refl (k0 :: k')) in C. now rewrite Z.mul_1_r, Z.add_0_r in C. }
        rewrite be_act_bact by exact Sp.
        eapply returns_bind.
        { apply (bact_den dt n t p e Hn Ht Hdt); auto.
          - exact (den_wf _ _ _ _ _ Ht Dp).
          - exact (den_wf _ _ _ _ _ Ht De).
          - exact (proj1 Dp).
          - exact (proj1 De). }
        intros w Dw. eapply returns_mono; [exact (iadd_den cls_be t tt tt _ _ y w Ht Hy Dw)|]. intros z Hz. eapply den_ext; [|exact Hz]. intros g Hg. cbn beta.
        match goal with |- eqm t (?A + ?B) (?A' + ?B') => assert (EB : eqm t B B'); [|now rewrite EB] end.
        set (G := fun k2 => ev (fun k1 => PactB g k2 k1) (data e)).
        assert (HG : adm cls_ring G).
        { split; [|discriminate]. intros k2 k2' Ek. cbn in Ek. apply tup_eqb_eq in Ek. unfold G. apply ev_ext_all. intros k1. unfold PactB. now rewrite Ek. }
        rewrite (den_ev _ _ _ _ _ _ Dp HG). unfold G.
        set (G' := fun k1 => PactB g (SGE (pinv k0)) k1).
        assert (HG' : admP cls_be (be_simplex n) G').
        { apply (proj2 (adm_bact n Hn0 g (adm_admP cls_be _ g Hg)) (SGE (pinv k0))); [|reflexivity]. unfold pk. cbn. now apply perm_pinv. }
        assert (EG : eqm t (ev G' (data e)) (ev G' [(k0 :: k', v)])).
        { apply (den_ev_on cls_be ok_be t tt _ e (be_simplex n) G' [k0 :: k'] (kpred_bsim n) De Ke HG'). intros h Hh. rewrite !ev_cons, !ev_nil.
          rewrite Hh; [reflexivity|exact Hk|now left]. }
        rewrite EG, ev_cons, ev_nil. unfold G', PactB. cbn [kval SGE Dorb map]. apply eqm_eq. ring.
      * intros z Hz. eapply den_ext; [|exact Hz]. intros g _. cbn beta. apply eqm_eq. change (0 + ev (Dorb r g) (data x) = ev (Dorb r g) (data x)). ring.
Qed.
Lemma linop_orbit dt r n t : 1 <= n -> 0 <= t -> dt_ok dt t -> linop cls_be cls_be t tt tt (be_simplex n) (borb n) (Dorb r) (fun x => be_orbit dt x r).
Proof.
  intros Hn Ht Hdt. assert (Hn0 : 0 <= n) by lia. apply (linop_intro cls_be cls_be ok_be); auto using kpred_borb.
  - apply rep_local. now apply rep_Dorb.
  - apply (rep_zero _ _ _ (rep_Dorb r n Hn0)).
  - intros x Wx Tx _ Kx. now apply (orbit_den dt r n).
Qed.
Lemma pinv_cancel n p q r : 0 <= n -> perm n p -> perm n q -> perm n r -> pmul (pinv (pmul p q)) (pmul p r) = pmul (pinv q) r.
Proof.
  intros Hn Hp Hq Hr. rewrite (perm_pinv_pmul n) by auto. rewrite (pmul_assoc n) by auto using perm_pinv, perm_pmul. f_equal.
  rewrite <- (pmul_assoc n (pinv p)) by auto. rewrite (pinv_l n p) by auto. now apply (pmul_id_l n).
Qed.
Lemma Dorb_move r n g p k : 0 <= n -> perm n p -> be_simplex n k -> Dorb r g (map (pmul p) k) = chi r p * Dorb r g k.
Proof.
  intros Hn Hp Hk. destruct k as [|k0 k]; [cbn; ring|]. assert (H0 : perm n k0) by (apply Hk; now left). cbn [map Dorb].
  rewrite (chi_pmul r n) by auto. rewrite <- Z.mul_assoc. do 3 f_equal. f_equal.
  - now apply (pinv_cancel n).
  - rewrite map_map. apply map_ext_in. intros q Hq. apply (pinv_cancel n); auto. apply Hk. now right.
Qed.
