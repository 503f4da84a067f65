(** * Barratt-Eccles: diagonal and complexity.  Proof library. *)
From Coq Require Import Setoid Morphisms.
From Verif Require Import PyBase Dict FreeModule Symmetric Simplicial Utils Surjection BarrattEccles Eqm Spec SpecOperad FreeModuleFacts FreeModuleLaws ListFacts
  ClassFacts LinearFacts SymmetricFacts CycleFacts SymmetricLaws RingFacts TensorAct LoopFacts AW ActGeneric BEFacts.

(** ** dedup *)
Lemma existsb_keqb {K} `{KeyEq K} (a : K) l : existsb (keqb a) l = true <-> In a l.
Proof.
  rewrite existsb_exists. split.
  - intros (b & Hb & E). apply keqb_eq in E. now subst.
  - intros Ha. exists a. split; [exact Ha|]. now apply keqb_eq.
Qed.
Lemma dedup_acc_in {K} `{KeyEq K} (l : list K) : forall seen a, In a (dedup_acc seen l) <-> In a l /\ ~ In a seen.
Proof.
  induction l as [|b l IH]; intros seen a; cbn [dedup_acc].
  - cbn. tauto.
  - destruct (existsb (keqb b) seen) eqn:E.
    + apply existsb_keqb in E. rewrite IH. cbn. split; [tauto|]. intros [[->|H1] H2]; [contradiction|tauto].
    + assert (Nb : ~ In b seen) by (rewrite <- existsb_keqb, E; discriminate).
      cbn [In]. rewrite IH. cbn [In]. split.
      * intros [->|[H1 H2]]; [tauto|tauto].
      * intros [[->|H1] H2]; [now left|]. destruct (keqb b a) eqn:Eb.
        -- apply keqb_eq in Eb. now left.
        -- right. split; [exact H1|]. intros [->|?]; [|contradiction]. assert (keqb a a = true) by (now apply keqb_eq). congruence.
Qed.
Lemma dedup_acc_nodup {K} `{KeyEq K} (l : list K) : forall seen, NoDup (dedup_acc seen l).
Proof.
  induction l as [|b l IH]; intros seen; cbn [dedup_acc]; [constructor|].
  destruct (existsb (keqb b) seen); [apply IH|]. constructor; [|apply IH]. rewrite dedup_acc_in. cbn. tauto.
Qed.
Lemma dedup_in {K} `{KeyEq K} (l : list K) a : In a (dedup l) <-> In a l.
Proof. unfold dedup. rewrite dedup_acc_in. cbn. tauto. Qed.
Lemma dedup_nodup {K} `{KeyEq K} (l : list K) : NoDup (dedup l).
Proof. apply dedup_acc_nodup. Qed.
Lemma dedup_acc_id {K} `{KeyEq K} (l : list K) : forall seen, NoDup l -> (forall a, In a l -> ~ In a seen) -> dedup_acc seen l = l.
Proof.
  induction l as [|b l IH]; intros seen ND Hs; cbn [dedup_acc]; [reflexivity|]. inversion ND as [|? ? N1 N2]; subst.
  destruct (existsb (keqb b) seen) eqn:E; [apply existsb_keqb in E; exfalso; apply (Hs b); [now left|exact E]|].
  f_equal. apply IH; auto. intros a Ha [->|Hin]; [contradiction|]. apply (Hs a); [now right|exact Hin].
Qed.
Lemma dedup_id {K} `{KeyEq K} (l : list K) : NoDup l -> dedup l = l.
Proof. intros ND. apply dedup_acc_id; auto. Qed.
Lemma nodup_kdistinct {K} `{KeyEq K} (l : list K) : NoDup l -> kdistinct l.
Proof.
  induction 1 as [|a l N ND IH]; cbn; [exact I|]. split; [|exact IH]. intros k' Hk'. destruct (keqb a k') eqn:E; [|reflexivity].
  apply keqb_eq in E. now subst.
Qed.

(** ** cuts as lists *)
Lemma nodup_cuts {B C} (f : list B * B * list B -> C) (l : list B) :
  (forall l1 a l2 m1 b m2, l = l1 ++ a :: l2 -> l = m1 ++ b :: m2 -> f (l1, a, l2) = f (m1, b, m2) -> length l1 = length m1) -> NoDup (map f (splits l)).
Proof.
  revert f. induction l as [|v l IH]; intros f Hf; [constructor|]. rewrite splits_cons. cbn [map]. rewrite map_map. constructor.
  - intros Hin. apply in_map_iff in Hin. destruct Hin as ([[l1 a] l2] & E & Hin). apply splits_in in Hin. cbn [fst snd] in E. subst l.
    specialize (Hf (v :: l1) a l2 [] v (l1 ++ a :: l2) eq_refl eq_refl E). discriminate.
  - apply (IH (fun s => f (v :: fst (fst s), snd (fst s), snd s))). cbn [fst snd]. intros l1 a l2 m1 b m2 E1 E2 E.
    specialize (Hf (v :: l1) a l2 (v :: m1) b m2). cbn in Hf. rewrite <- E1, <- E2 in Hf. specialize (Hf eq_refl eq_refl E). lia.
Qed.

(** ** splits *)
Definition split1 (m : list bkey) : list (list bkey) :=
  match m with [] => [] | a :: b => map (fun '(l1, p, l2) => (l1 ++ [p]) :: (p :: l2) :: b) (splits a) end.
Lemma map_zrange_splits {B C} (l : list B) (f : Z -> C) (h : list B * B * list B -> C) : 
  (forall l1 a l2, l = l1 ++ a :: l2 -> f (zlen l1) = h (l1, a, l2)) -> map f (zrange 0 (zlen l)) = map h (splits l).
Proof.
  revert f h. induction l as [|v l IH]; intros f h Hf; [reflexivity|]. rewrite splits_cons. cbn [map]. rewrite map_map.
  rewrite zlen_cons. pose proof (zlen_nonneg l). rewrite zrange_cons by lia. cbn [map]. f_equal.
  - exact (Hf [] v l eq_refl).
  - rewrite (zrange_shift 0 (zlen l) 1), map_map. apply IH. intros l1 a l2 E. cbn [fst snd].
    rewrite <- (Hf (v :: l1) a l2) by (now rewrite E). now rewrite zlen_cons.
Qed.
Lemma split1_nodup m : NoDup (split1 m).
Proof.
  destruct m as [|a b]; [constructor|]. unfold split1. apply nodup_cuts. intros l1 p l2 m1 q m2 _ _ [= E _ _]. apply (f_equal (@length _)) in E. rewrite !app_length in E. cbn in E. lia.
Qed.
Lemma be_split_ok a b : be_split (a :: b) = Ok (split1 (a :: b)).
Proof.
  unfold be_split. f_equal. rewrite <- (dedup_id (split1 (a :: b))) by apply split1_nodup. f_equal. unfold split1. apply map_zrange_splits.
  intros l1 p l2 ->. now rewrite slice_to_app_S, slice_from_app.
Qed.
Definition heads (L : list (list bkey)) : Prop := forall m, In m L -> exists p a b, m = (p :: a) :: b.
Lemma split1_heads L : heads L -> heads (flat_map split1 L).
Proof.
  intros HL m Hm. apply in_flat_map in Hm. destruct Hm as (m0 & H0 & Hm). destruct (HL _ H0) as (p & a & b & ->). cbn [split1] in Hm.
  apply in_map_iff in Hm. destruct Hm as ([[l1 q] l2] & <- & _). destruct l1 as [|p1 l1]; [exists q, [], ((q :: l2) :: b)|exists p1, (l1 ++ [q]), ((q :: l2) :: b)]; reflexivity.
Qed.
Lemma flat_split1_nodup L : NoDup L -> NoDup (flat_map split1 L).
Proof.
  intros ND. apply NoDup_flat_map_disj; [exact ND|intros; apply split1_nodup|].
  intros [|a b] [|a' b'] m _ _ H1 H2; try contradiction. cbn [split1] in H1, H2. apply in_map_iff in H1, H2.
  destruct H1 as ([[l1 p] l2] & <- & H1), H2 as ([[m1 q] m2] & E & H2). apply splits_in in H1, H2. injection E as E1 E2 E3 E4.
  apply app_inj_tail in E1. destruct E1 as [-> ->]. congruence.
Qed.
Fixpoint Usplit (s : nat) (L : list (list bkey)) : list (list bkey) :=
  match s with O => L | Datatypes.S s' => Usplit s' (flat_map split1 L) end.
Lemma Usplit_ok s : forall L, L <> [] -> heads L -> NoDup L -> be_splits s L = Ok (Usplit s L) /\ NoDup (Usplit s L).
Proof.
  induction s as [|s IH]; intros L N HL ND; cbn [be_splits Usplit]; [auto|].
  destruct L as [|m L]; [congruence|]. rewrite (mapM_map _ split1).
  - cbn [bind]. change (concat (map split1 (m :: L))) with (concat (map split1 (m :: L))). rewrite <- flat_map_concat_map.
    rewrite dedup_id by now apply flat_split1_nodup. apply IH.
    + destruct (HL m (or_introl eq_refl)) as (p & a & b & ->). cbn [flat_map split1]. rewrite splits_cons. discriminate.
    + now apply split1_heads.
    + now apply flat_split1_nodup.
  - intros m' Hm'. destruct (HL _ Hm') as (p & a & b & ->). apply be_split_ok.
Qed.
Lemma Usplit_sum s : forall L G, sumf G (Usplit s L) = sumf (fun m => match m with [] => if s then G [] else 0 | a :: b => AW.S s (fun u => G (u ++ b)) a end) L.
Proof.
  induction s as [|s IH]; intros L G; cbn [Usplit].
  - apply sumf_ext. intros [|a b] _; reflexivity.
  - rewrite IH, sumf_flat_map. apply sumf_ext. intros [|a b] _; [reflexivity|]. cbn [split1]. rewrite sumf_map.
    rewrite (eq_sym (S_coassoc1 0 s (fun u => G (u ++ b)) a) : AW.S (Datatypes.S s) (fun u => G (u ++ b)) a = _). unfold aw. apply sumf_ext. intros [[l1 p] l2] _. cbn [AW.S].
    apply S_ext. intros u. now rewrite <- app_assoc.
Qed.
Lemma diagonal_den dt r t (x : bee) : 0 <= t -> dt_ok dt t -> wf cls_be x -> torsion x = t ->
  returns (be_diagonal dt x r) (den (cls_free (list bkey)) t tt (fun g => ev (fun k => AW.S (Z.to_nat r) g k) (data x))).
Proof.
  intros Ht Hdt Wx Tx. unfold be_diagonal. pose proof (ok_free (list bkey)) as Hc.
  assert (OK : forall k, okey (cls_free (list bkey)) k) by (intros k; eexists; reflexivity).
  eapply returns_bind; [apply (new_den (cls_free (list bkey)) Hc dt t (Some (torsion x)) tt []); auto; exact I|].
  intros y0 Hy0. eapply returns_mono.
  - apply (loop_den (cls_free (list bkey)) Hc t tt (data x) _ (fun k g => AW.S (Z.to_nat r) g k)); [|exact Hy0].
    intros k v F y Hin Hy.
    assert (Hk : k <> []). { intros ->. apply (proj2 (proj2 Wx)) in Hin. destruct Hin as [_ Hb]. discriminate. }
    destruct (Usplit_ok (Z.to_nat r) [[k]]) as [E ND]; [discriminate| |repeat constructor; intros []|].
    { intros m [<-|[]]. destruct k as [|p k]; [congruence|]. now exists p, k, []. }
    rewrite E. cbn [bind].
    assert (KD : kdistinct (dkeys (map (fun m => (m, v)) (Usplit (Z.to_nat r) [[k]])))).
    { unfold dkeys. rewrite map_map. cbn [fst]. rewrite map_id. now apply nodup_kdistinct. }
    rewrite dict_of_id by exact KD.
    eapply returns_bind; [apply (create_den (cls_free (list bkey)) Hc dt t); auto; exact (proj1 Hy)|].
    intros e He. eapply returns_mono; [exact (iadd_den _ t tt _ _ _ _ _ Ht Hy He)|].
    intros z Hz. eapply den_ext; [|exact Hz]. intros g _. cbn beta. apply eqm_eq. f_equal. unfold ev. rewrite sumf_map. cbn [fst snd].
    rewrite sumf_scal, Usplit_sum, sumf_cons, sumf_nil, Z.add_0_r. f_equal. apply S_ext. intros u. now rewrite app_nil_r.
  - intros z Hz. eapply den_ext; [|exact Hz]. intros g _. cbn beta. apply eqm_eq. reflexivity.
Qed.
