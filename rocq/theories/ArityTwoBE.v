(** * Arity two in the Barratt-Eccles operad.  Proof library. *)
From Coq Require Import Setoid Morphisms.
From Verif Require Import PyBase Dict FreeModule Symmetric Simplicial Cubical Utils Surjection BarrattEccles Eqm Spec SpecChain SpecOperad SpecSurj SpecCup FreeModuleFacts FreeModuleLaws ListFacts
  ClassFacts LinearFacts BilFacts SymmetricFacts CycleFacts SymmetricLaws RingFacts Tensor TensorAct KoszulFacts LoopFacts MayFacts BEFacts BELaws BELaws2 BELaws3 CupI CongFacts AcyclicFacts AcyclicLaws ArityTwo ArityTwoLaws.

Notation als := alt_simplex.
Definition vtx (b : Z) : list Z := if b =? 1 then [1; 2] else [2; 1].
Lemma als_S a n : als a (S n) = vtx a :: als (3 - a) n. Proof. reflexivity. Qed.
Lemma als_len a n : length (als a n) = n. Proof. unfold als. now rewrite map_length, altw_len. Qed.
Lemma vtx_perm b : perm 2 (vtx b).
Proof. unfold vtx. destruct (b =? 1); red; cbn; [reflexivity|constructor]. Qed.
Lemma als_cell a d : be_cell 2 (Z.of_nat d) (als a (d + 1)).
Proof.
  split; [|unfold zlen; rewrite als_len; lia]. intros p Hp. unfold als in Hp. apply in_map_iff in Hp. destruct Hp as (b & <- & _). apply (vtx_perm b).
Qed.
Lemma als_dup n : forall a, a = 1 \/ a = 2 -> bdup (als a n) = false.
Proof.
  induction n as [|[|n] IH]; intros a Ha; try reflexivity. rewrite !als_S, bdup_cons2, <- als_S, (IH (3 - a)) by lia. destruct Ha as [-> | ->]; reflexivity.
Qed.
Lemma cell2_als d k : 0 <= d -> be_cell 2 d k -> bdup k = false -> k = als 1 (Z.to_nat d + 1) \/ k = als 2 (Z.to_nat d + 1).
Proof.
  intros Hd [Hs Hl] B. assert (L : length k = (Z.to_nat d + 1)%nat) by (unfold zlen in Hl; lia). rewrite <- L. clear L Hl Hd d.
  assert (G : forall k a, (a = 1 \/ a = 2) -> be_simplex 2 (vtx a :: k) -> bdup (vtx a :: k) = false -> k = als (3 - a) (length k)).
  { clear. induction k as [|q k IH]; intros a Ha Hs B; [reflexivity|]. rewrite bdup_cons2 in B. apply orb_false_iff in B. destruct B as [B1 B2].
    assert (Q : q = vtx (3 - a)). { destruct (perm2 q (Hs q (or_intror (or_introl eq_refl)))) as [-> | ->]; destruct Ha as [-> | ->]; try reflexivity; cbn in B1; discriminate. }
    subst q. cbn [length]. rewrite als_S. f_equal. apply (IH (3 - a)); [lia| |exact B2]. intros p Hp. apply Hs. now right. }
  destruct k as [|p k]; [now left|]. cbn [length]. rewrite !als_S. destruct (perm2 p (Hs p (or_introl eq_refl))) as [-> | ->].
  - left. f_equal. apply (G k 1); auto.
  - right. f_equal. apply (G k 2); auto.
Qed.
Definition zdup (g : bkey -> Z) : Prop := forall u, bdup u = true -> g u = 0.
Lemma fdB_als n : forall a g, zdup g -> fdB g (als a (S (S n))) = g (als (3 - a) (S n)) + sgn (Z.of_nat (S n)) * g (als a (S n)).
Proof.
  induction n as [|n IH]; intros a g Hg.
  - rewrite !als_S. rewrite fdB_cons. change (als (3 - (3 - a)) 0) with (@nil (list Z)). change (als (3 - a) 0) with (@nil (list Z)). rewrite fdB_cons, fdB_nil. change (sgn (Z.of_nat 1)) with (-1). ring.
  - rewrite als_S, fdB_cons, IH.
    2:{ intros u Hu. apply Hg. destruct u as [|w u]; [discriminate|]. rewrite bdup_cons2, Hu. apply orb_true_r. }
    replace (3 - (3 - a)) with a by lia.
    rewrite (Hg (vtx a :: als a (S n))) by (rewrite als_S, bdup_cons2, tup_refl; reflexivity). rewrite <- als_S.
    rewrite (Nat2Z.inj_succ (S n)), <- Z.add_1_r, sgn_add. change (sgn 1) with (-1). ring.
Qed.
Lemma fdB_als2 n g : zdup g -> fdB g (als 2 (S (S n))) = sgn (Z.of_nat (S n)) * fdB g (als 1 (S (S n))).
Proof.
  intros Hg. rewrite !fdB_als by exact Hg. change (3 - 1) with 2. change (3 - 2) with 1. set (s := sgn (Z.of_nat (S n))). assert (Hs : s * s = 1) by apply sgn_sq. rewrite Z.mul_add_distr_l, Z.mul_assoc, Hs. ring.
Qed.
Lemma Fpsi_als d : forall g, zdup g -> Fpsi 2 d g = g (als 1 (S d)).
Proof.
  induction d as [|d IH]; intros g Hg; [reflexivity|]. cbn [Fpsi].
  assert (R : forall b, Fpsi 2 d (fun k => g (idp 2 :: map (pmul (vtx b)) k)) = if b =? 1 then 0 else g (als 1 (S (S d)))).
  { intros b. rewrite IH.
    - assert (M : map (pmul (vtx b)) (als 1 (S d)) = als (if b =? 1 then 1 else 2) (S d)).
      { unfold als. rewrite map_map. unfold vtx. destruct (b =? 1).
        - apply map_ext. intros c. destruct (c =? 1); reflexivity.
        - clear. assert (G : forall n a, map (fun c => pmul [2; 1] (if c =? 1 then [1; 2] else [2; 1])) (altw a n) = map (fun c => if c =? 1 then [1; 2] else [2; 1]) (altw (3 - a) n) \/ ~ (a = 1 \/ a = 2)).
          { induction n as [|n IH]; intros a; [now left|]. destruct (Z.eq_dec a 1) as [->|N1]; [|destruct (Z.eq_dec a 2) as [->|]; [|right; lia]].
            - left. cbn [altw map]. destruct (IH 2) as [E|N]; [|lia]. change (3 - 1) with 2 in *. change (3 - 2) with 1 in *. rewrite E. reflexivity.
            - left. cbn [altw map]. destruct (IH 1) as [E|N]; [|lia]. change (3 - 2) with 1 in *. change (3 - 1) with 2 in *. rewrite E. reflexivity. }
          destruct (G (S d) 1) as [E|N]; [exact E|lia]. }
      rewrite M. destruct (b =? 1); [|reflexivity]. apply Hg. rewrite als_S, bdup_cons2. reflexivity.
    - intros u Hu. apply Hg. assert (G : forall u, bdup u = true -> bdup (map (pmul (vtx b)) u) = true).
      { clear. induction u as [|p [|q u] IHu]; try discriminate. cbn [map]. rewrite !bdup_cons2. intros H. apply orb_true_iff in H. apply orb_true_iff. destruct H as [H|H]; [left|right; now apply IHu].
        apply tup_eqb_eq in H. subst. apply tup_refl. }
      specialize (G u Hu). destruct (map (pmul (vtx b)) u) as [|w v]; [discriminate|]. rewrite bdup_cons2, G. apply orb_true_r. }
  assert (R0 : Fpsi 2 d (fun k => g (idp 2 :: map (pmul [1; 2]) k)) = 0) by exact (R 1). assert (R1 : Fpsi 2 d (fun k => g (idp 2 :: map (pmul [2; 1]) k)) = g (als 1 (S (S d)))) by exact (R 2). unfold RA. change (rot 2 1) with [2; 1]. change (rot 2 0) with [1; 2]. destruct (Nat.even (S d)).
  - change (zrange 0 2) with [0; 1]. rewrite !sumf_cons, sumf_nil. change (rot 2 1) with [2; 1]. change (rot 2 0) with [1; 2]. rewrite R0, R1. ring.
  - rewrite R0, R1. ring.
Qed.
