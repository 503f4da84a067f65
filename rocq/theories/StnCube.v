(** * Steenrod chains of shape 'cube' (C61) *)
From Coq Require Import Setoid Morphisms Znumtheory.
From Verif Require Import PyBase Dict FreeModule Symmetric Simplicial Cubical Utils Surjection BarrattEccles Eqm Spec SpecChain SpecOperad SpecSurj SpecAction SpecCube SpecCubAction FreeModuleFacts FreeModuleLaws ListFacts
  ClassFacts LinearFacts BilFacts SymmetricFacts CycleFacts SymmetricLaws RingFacts Tensor TensorAct KoszulFacts LoopFacts SimplicialFacts SimplicialDiag SimplicialLaws CubicalFacts CubicalDiag CubicalJoin CubicalSerre CubicalLaws
  BEDiag MayFacts BELaws3 SurjFacts SurjBoundary SurjLaws SurjAct SurjMay SteenrodLaws ActFacts ActSign ActCore ActCode CubActFacts CubActCore CubActCode CubActLaws StnLaws SpecCube.

Lemma dim_count c : cube_dim c = dim c.
Proof. unfold cube_dim. rewrite py_count_times. induction c as [|a c IH]; [reflexivity|]. cbn [times_in dim]. now rewrite IH. Qed.
Lemma homogeneous_cube p q k : 1 <= p -> zlen k = p -> cube_degree k = - q * p -> (zlen (zset (map cube_dim k)) =? 1) = forallb (fun s => dim s =? - q) k.
Proof.
  intros Hp Lk Dk. apply eq_true_iff_eq. rewrite Z.eqb_eq, zset_one, forallb_forall. split.
  - intros (a & _ & Ha) b Hb. apply Z.eqb_eq. assert (Ha' : forall c, In c k -> dim c = a) by (intros c Hc; rewrite <- dim_count; apply Ha; now apply in_map).
    assert (E : cube_degree k = a * zlen k).
    { clear -Ha'. unfold cube_degree. induction k as [|b k IH]; [change (zlen (@nil (list Z))) with 0; cbn; ring|]. cbn [map zsum fold_right]. rewrite zlen_cons, (Ha' b) by now left.
      change (fold_right Z.add 0 (map dim k)) with (zsum (map dim k)). rewrite IH by (intros; apply Ha'; now right). ring. }
    pose proof (Ha' b Hb). nia.
  - intros Hk. exists (- q). split; [intros E; apply map_eq_nil in E; subst k; change (zlen (@nil (list Z))) with 0 in Lk; lia|]. intros b Hb. apply in_map_iff in Hb. destruct Hb as (c & <- & Hc). rewrite dim_count. now apply Z.eqb_eq, Hk.
Qed.
Lemma dec_cubes p q (k : list (list Z)) : (zlen k = p /\ (forall u, In u k -> dim u = - q)) \/ ~ (zlen k = p /\ (forall u, In u k -> dim u = - q)).
Proof.
  destruct (Z.eq_dec (zlen k) p) as [E|N]; [|right; tauto]. destruct (forallb (fun u => dim u =? - q) k) eqn:F.
  - left. split; [exact E|]. intros u Hu. rewrite forallb_forall in F. now apply Z.eqb_eq, F.
  - right. intros [_ Hk]. assert (T : forallb (fun u => dim u =? - q) k = true); [|congruence]. apply forallb_forall. intros u Hu. now apply Z.eqb_eq, Hk.
Qed.
Lemma dim_repeat n : dim (repeat 2 n) = Z.of_nat n.
Proof. induction n as [|n IH]; [reflexivity|]. cbn [repeat dim]. rewrite IH. change (2 =? 2) with true. cbv iota. lia. Qed.
Lemma cfilter_wf (f : list (list Z) -> bool) (x : cubc) t : wf cls_cubical x -> torsion x = t -> wf cls_cubical (mkElt (filter (fun kv => f (fst kv)) (data x)) t tt).
Proof.
  intros (Ht & Hd & Hx) Tx. subst t. split; [exact Ht|]. split.
  - cbn [data]. unfold dkeys in *. clear Hx. induction (data x) as [|[k v] d IH]; [exact I|]. cbn [map kdistinct fst] in Hd. destruct Hd as [H1 H2].
    cbn [filter fst]. destruct (f k); [|now apply IH]. cbn [map fst kdistinct]. split; [|now apply IH].
    intros k' Hk'. apply H1. apply in_map_iff in Hk'. destruct Hk' as (p & <- & Hp). apply filter_In in Hp. now apply in_map.
  - intros k v Hin. cbn [data] in Hin. apply filter_In in Hin. now apply Hx.
Qed.
(** #C61_cube# The same for shape='cube': the part of op(standard cube) on the
    products of [p] cubes of dimension -q, when the dimension [n] of the cube
    is not negative. *)
Lemma C61_cube_l (dt p s q n : Z) (b : bool) (dc : conv) (S : surj) :
  p = 2 \/ (3 <= p /\ Z.even p = false) -> dt_ok dt p -> surj_steenrod_operation dt dc p s q b (Some MS) = Ok S ->
  n = (if p =? 2 then - (q + s) else - (q + 2 * s * (p - 1) - (if b then 1 else 0))) -> 0 <= n ->
  exists el r z, cub_standard_element dt n 1 (Some p) = Ok el /\ surj_call_cubical dt S el 1 = Ok r /\
    steenrod_chain_cube dt dc p s q b = Ok z /\ wf cls_cubical z /\ torsion z = p /\
    keys_in (fun k => zlen k = p /\ forall u, In u k -> dim u = - q) z /\
    same (Ok z) (Ok (mkElt (filter (fun kv => forallb (fun u => dim u =? - q) (fst kv)) (data r)) p tt)).
Proof.
  intros Hp Hdt ES En Nn. assert (Ht : 0 <= p) by lia. assert (Hp1 : 2 <= p) by lia. unfold steenrod_chain_cube. rewrite ES. cbn [bind].
  replace (- (if p =? 2 then q + s else q + 2 * s * (p - 1) - (if b then 1 else 0))) with n by (rewrite En; destruct (p =? 2); ring).
  destruct (new_den cls_cubical ok_cubical dt p (Some p) tt [(repeat (repeat 2 (Z.to_nat n)) (Z.to_nat 1), 1)] eq_refl Ht) as (el & Ee & De); [split; [intros ? []|exact I]|intros k _; eexists; reflexivity|].
  change (cub_standard_element dt n 1 (Some p) = Ok el) in Ee. rewrite Ee. cbn [bind].
  assert (Ke : keys_in (fun k => zlen k = 1 /\ cube_degree k = n) el).
  { assert (Dk : forall k : list (list Z), (zlen k = 1 /\ cube_degree k = n) \/ ~ (zlen k = 1 /\ cube_degree k = n)) by (intros k; destruct (Z.eq_dec (zlen k) 1), (Z.eq_dec (cube_degree k) n); tauto).
    apply (den_keys cls_cubical ok_cubical p tt _ el _ Ht (kpred_ss _ Dk) De). intros g _ H0. apply eqm_eq. rewrite ev_cons, ev_nil, H0; [ring|].
    change (Z.to_nat 1) with 1%nat. cbn [repeat]. split; [reflexivity|]. unfold cube_degree. cbn [map zsum fold_right]. rewrite dim_repeat. lia. }
  assert (R : exists r, surj_call_cubical dt S el 1 = Ok r /\ wf cls_cubical r /\ torsion r = p /\ keys_in (fun k => zlen k = p /\ cube_degree k = - q * p) r).
  { destruct (op_den dt dc p s q b S Hp Hdt ES) as [->|(c0 & d & y & Ed & Dy & DS)].
    - destruct (C51_zero_l dt 1 (mkElt [] p dc) el (or_introl eq_refl)) as (r & Er & Z0 & Tr). exists r. rewrite (proj1 De) in Tr. split; [exact Er|].
      unfold is_zero in Z0. split; [|split; [exact Tr|intros k v Hin; unfold cubc, ckey2 in *; rewrite Z0 in Hin; destruct Hin]]. split; [lia|]. unfold cubc, ckey2 in *. rewrite Z0. split; [exact I|intros ? ? []].
    - assert (KS : keys_in (surj_cell p (Z.of_nat d)) S).
      { apply (den_keys cls_surj ok_surj p MS _ S _ Ht (kpred_cell p (Z.of_nat d)) DS). intros g _ H0. apply eqm_eq.
        destruct (FpS_list MS p d ltac:(lia)) as (L & L1 & L2). rewrite L2, ev_zero; [ring|]. intros k v Hin. apply H0. exact (proj1 (L1 _ _ Hin)). }
      destruct (C51_action_degree_l dt p (Z.of_nat d) 1 n 1 S el ltac:(lia) ltac:(lia) (den_wf _ _ _ _ _ Ht DS) (den_wf _ _ _ _ _ Ht De)) as (r & Er & Wr & Tr & Kr); auto.
      + now rewrite (proj1 De), (proj1 DS).
      + now rewrite (proj1 DS).
      + exists r. split; [exact Er|]. split; [exact Wr|]. split; [now rewrite Tr, (proj1 DS)|]. intros k v Hk. destruct (Kr _ _ Hk) as [L1 L2]. split; [lia|]. rewrite L2, Ed, En.
        destruct (p =? 2) eqn:E2; [apply Z.eqb_eq in E2; subst p; ring|]. ring. }
  destruct R as (r & Er & Wr & Tr & Kr). rewrite Er. cbn [bind]. unfold filter_homogeneous.
  rewrite (filter_ext_in _ (fun kv => forallb (fun u => dim u =? - q) (fst kv)) (data r)).
  2:{ intros [k v] Hk. cbn [fst]. destruct (Kr _ _ Hk) as [L1 L2]. apply (homogeneous_cube p); [lia|exact L1|exact L2]. }
  pose proof (cfilter_wf (fun k => forallb (fun u => dim u =? - q) k) r p Wr Tr) as Wf.
  destruct (create_den cls_cubical ok_cubical dt p r (filter (fun kv => forallb (fun u => dim u =? - q) (fst kv)) (data r)) Ht Hdt Tr) as (z & Ez & Dz); [exact (proj1 (proj2 Wf))|intros; eexists; reflexivity|].
  exists el, r, z. split; [reflexivity|]. split; [exact Er|]. split; [exact Ez|]. split; [exact (den_wf _ _ _ _ _ Ht Dz)|]. split; [exact (proj1 Dz)|]. split.
  - apply (den_keys cls_cubical ok_cubical p (attr r) _ z _ Ht (kpred_ss _ (dec_cubes p q)) Dz). intros g _ H0. apply eqm_eq. apply ev_zero. intros k v Hk. apply filter_In in Hk. destruct Hk as [Hk Hh]. cbn [fst] in Hh.
    apply H0. destruct (Kr _ _ Hk) as [L1 _]. split; [exact L1|]. intros u Hu. rewrite forallb_forall in Hh. now apply Z.eqb_eq, Hh.
  - eapply (same_den cls_cubical ok_cubical p tt); [exact Ht|apply returns_ok; destruct (attr r); exact Dz|apply returns_ok, (den_self cls_cubical _ Wf)|intros; reflexivity].
Qed.
(** #C61_cube_example# Two non-zero chains; and when the dimension of the cube would be negative the code uses the 0-cube, so the chain is not zero. *)
Example C61_cube_example_l :
  (exists z, steenrod_chain_cube 0 BF 2 (-1) (-2) false = Ok z /\ zlen (data z) = 6) /\
  (exists z, steenrod_chain_cube 0 BF 2 0 (-1) false = Ok z /\ data z = [([[2]; [2]], 1)]) /\
  (exists z, steenrod_chain_cube 0 BF 2 1 1 false = Ok z /\ data z = [([[]; []], 1)]).
Proof. split; [eexists; split; vm_compute; reflexivity|]. split; [eexists; split; vm_compute; reflexivity|eexists; split; vm_compute; reflexivity]. Qed.
