(** * [repr] (C90) *)
From Coq Require Import Ascii String Permutation Sorting.Sorted.
From Verif Require Import PyBase Dict FreeModule Symmetric Simplicial Cubical Surjection BarrattEccles Spec FreeModuleFacts Printing SpecPrint PrintFacts LatexFacts PrintLaws Repr SpecRepr Inherited InhLaws ClassFacts.
Import ListNotations.

Section S.
Context {K : Type}.
Implicit Types d l : list (K * Z).
Notation gt := (fun p q : K * Z => snd q <= snd p).
Lemma ins_perm p l : Permutation (insert_item p l) (p :: l).
Proof. induction l as [|q l IH]; cbn [insert_item]; [auto|]. destruct (snd p <? snd q); [|auto]. rewrite IH. apply perm_swap. Qed.
Lemma ins_sorted p l : StronglySorted gt l -> StronglySorted gt (insert_item p l).
Proof.
  induction l as [|q l IH]; cbn [insert_item]; intros Hs; [repeat constructor|]. inversion Hs as [|? ? H1 H2]; subst.
  destruct (Z.ltb_spec (snd p) (snd q)).
  - constructor; [now apply IH|]. apply (Permutation_Forall (Permutation_sym (ins_perm p l))). constructor; [lia|exact H2].
  - constructor; [exact Hs|]. constructor; [lia|]. eapply Forall_impl; [|exact H2]. intros r; cbv beta; lia.
Qed.
Lemma ins_count v p l : StronglySorted gt l -> with_count v (insert_item p l) = with_count v (p :: l).
Proof.
  induction l as [|q l IH]; cbn [insert_item]; intros Hs; [reflexivity|]. inversion Hs as [|? ? H1 H2]; subst.
  destruct (Z.ltb_spec (snd p) (snd q)); [|reflexivity]. unfold with_count in *. cbn [filter] in *. rewrite (IH H1).
  destruct (Z.eqb_spec (snd p) v), (Z.eqb_spec (snd q) v); try reflexivity. lia.
Qed.
Lemma by_count_mc d : by_count d (most_common d).
Proof.
  assert (H1 : StronglySorted gt (most_common d)). { induction d as [|p d IH]; [constructor|]. apply ins_sorted, IH. }
  split; [|split; [exact H1|]].
  - clear H1. induction d as [|p d IH]; [constructor|]. cbn [most_common fold_right]. rewrite ins_perm. now constructor.
  - intros v. clear H1. induction d as [|p d IH]; [reflexivity|]. cbn [most_common fold_right].
    rewrite ins_count. { unfold with_count in *. cbn [filter]. unfold most_common in IH. now rewrite IH. }
    clear IH. induction d as [|q d IH]; [constructor|]. apply ins_sorted, IH.
Qed.
Lemma by_count_uniq l : forall l', StronglySorted gt l -> StronglySorted gt l' -> (forall v, with_count v l = with_count v l') -> l = l'.
Proof.
  induction l as [|p l IH]; intros l' Hs Hs' Hf.
  - destruct l' as [|q l']; [reflexivity|]. specialize (Hf (snd q)). unfold with_count in Hf. cbn [filter] in Hf. rewrite Z.eqb_refl in Hf. discriminate.
  - destruct l' as [|q l'].
    { specialize (Hf (snd p)). unfold with_count in Hf. cbn [filter] in Hf. rewrite Z.eqb_refl in Hf. discriminate. }
    inversion Hs as [|? ? H1 H2]; inversion Hs' as [|? ? H1' H2']; subst.
    assert (In p (q :: l')). { assert (X : In p (with_count (snd p) (q :: l'))). { rewrite <- Hf. apply filter_In. split; [now left|apply Z.eqb_refl]. } now apply filter_In in X. }
    assert (In q (p :: l)). { assert (X : In q (with_count (snd q) (p :: l))). { rewrite Hf. apply filter_In. split; [now left|apply Z.eqb_refl]. } now apply filter_In in X. }
    rewrite Forall_forall in H2, H2'.
    assert (snd p = snd q). { assert (snd p <= snd q) by (destruct H as [<-|X]; [lia|now apply H2']). assert (snd q <= snd p) by (destruct H0 as [<-|X]; [lia|now apply H2]). lia. }
    assert (p = q). { specialize (Hf (snd p)). unfold with_count in Hf. cbn [filter] in Hf. rewrite Z.eqb_refl in Hf. rewrite <- H3, Z.eqb_refl in Hf. congruence. }
    subst q. f_equal. apply IH; auto. intros v. specialize (Hf v). unfold with_count in *. cbn [filter] in Hf. destruct (snd p =? v); congruence.
Qed.
Lemma mc_eq d d' : most_common d = most_common d' <-> forall v, with_count v d = with_count v d'.
Proof.
  destruct (by_count_mc d) as (_ & H1 & H2), (by_count_mc d') as (_ & H1' & H2'). split.
  - intros E v. rewrite <- H2, <- H2'. now rewrite E.
  - intros E. apply by_count_uniq; auto. intros v. now rewrite H2, H2'.
Qed.
End S.

Lemma kdistinct_iff {K} `{KeyOk K} (l : list K) : kdistinct l <-> NoDup l /\ forall a b, In a l -> In b l -> keqb a b = true -> a = b.
Proof.
  induction l as [|a l IH]; cbn [kdistinct].
  - split; [intros _; split; [constructor|intros ? ? []]|auto].
  - rewrite IH. split.
    + intros (H1 & H2 & H3). split.
      * constructor; [|exact H2]. intros Hin. apply H1 in Hin. rewrite keqb_refl in Hin. discriminate.
      * intros x y [<-|Hx] [<-|Hy] E; auto.
        -- apply H1 in Hy. congruence.
        -- apply H1 in Hx. apply keqb_sym in E. congruence.
    + intros (H1 & H2). inversion H1 as [|? ? N1 N2]; subst. split; [|split; [exact N2|]].
      * intros k Hk. destruct (keqb a k) eqn:E; [|reflexivity]. apply H2 in E; [subst; tauto|now left|now right].
      * intros x y Hx Hy. apply H2; now right.
Qed.
Lemma kdistinct_perm {K} `{KeyOk K} (l l' : list K) : Permutation l l' -> kdistinct l -> kdistinct l'.
Proof.
  intros P. rewrite !kdistinct_iff. intros [H1 H2]. split; [eapply Permutation_NoDup; eauto|].
  intros a b Ha Hb. apply Permutation_sym in P. apply H2; [exact (Permutation_in a P Ha)|exact (Permutation_in b P Hb)].
Qed.
Lemma canonical_perm {K} `{KeyOk K} (c : pycls K) t (d l : dict K) : Permutation d l -> canonical c t d -> canonical c t l.
Proof.
  intros P [H1 H2]. split; [eapply kdistinct_perm; [|exact H1]; now apply Permutation_map|].
  intros k v Hin. apply H2. eapply Permutation_in; [apply Permutation_sym; exact P|exact Hin].
Qed.
Lemma dget_perm {K} `{KeyOk K} (d l : dict K) k : Permutation d l -> kdistinct (dkeys d) -> dget d k = dget l k.
Proof.
  intros P Hd. assert (Hl : kdistinct (dkeys l)) by (eapply kdistinct_perm; [|exact Hd]; now apply Permutation_map).
  rewrite <- !dget_ind by assumption. unfold ev. now apply Eqm.sumf_perm.
Qed.

(** ** decoding *)
Notation C := (replace ", " ",").
Section Dec.
Context {K X : Type} (rkey : K -> pystr) (sh : X -> pystr) (f : K -> X).
Hypothesis HC : forall k s, C (rkey k ++ s) = sh (f k) ++ C s.
Hypothesis Hcode : code sh (fun _ => True).
Definition item (p : X * Z) : pystr := sh (fst p) ++ lit ": " ++ str_int (snd p).
Definition fv (l : list (K * Z)) : list (X * Z) := map (fun p => (f (fst p), snd p)) l.
Lemma item_code : code item stop.
Proof.
  intros [k v] [k' v'] s t Hs Ht E. unfold item in E. cbn [fst snd] in E. rewrite <- !app_assoc in E. apply Hcode in E; auto. destruct E as [-> E].
  apply app_inv_head in E. apply code_int in E; auto. destruct E as [-> ->]. auto.
Qed.
Lemma braces_C l s : C (braces rkey l ++ s) = lit "{" ++ join (lit ",") (map item (fv l)) ++ lit "}" ++ C s.
Proof.
  unfold braces. rewrite <- !app_assoc. rewrite R_lit_free by notin. f_equal. unfold fv. rewrite map_map.
  rewrite (join_C _ (fun p => item (f (fst p), snd p))).
  - reflexivity.
  - intros [k v] s' _. unfold item. cbn [fst snd]. rewrite <- !app_assoc. rewrite HC. f_equal. rewrite R_lit_free by notin. f_equal.
    apply R_free. apply num_free. cbn. auto.
Qed.
Lemma stop_c s : stop (","%char :: s). Proof. cbn. unfold numeric. cbn. intuition discriminate. Qed.
Lemma stop_b s : stop ("}"%char :: s). Proof. cbn. unfold numeric. cbn. intuition discriminate. Qed.
Lemma join_inj l : forall l' s t, l <> [] -> l' <> [] -> join (lit ",") (map item l) ++ "}"%char :: s = join (lit ",") (map item l') ++ "}"%char :: t -> l = l' /\ s = t.
Proof.
  pose proof item_code as HP. assert (JC : forall a b m, join (lit ",") (map item (a :: b :: m)) = item a ++ ","%char :: join (lit ",") (map item (b :: m))) by reflexivity.
  induction l as [|a l IH]; intros l' s t N N' E; [congruence|]. destruct l' as [|a' l']; [congruence|]. destruct l as [|b l], l' as [|b' l'].
  - cbn [map join] in E. apply HP in E; auto using stop_c, stop_b. destruct E as [-> [= ->]]. auto.
  - rewrite JC in E. cbn [map join] in E. rewrite <- app_assoc in E. apply HP in E; [|solve [apply stop_c|apply stop_b]..]. destruct E as [_ E]. discriminate.
  - rewrite JC in E. cbn [map join] in E. rewrite <- app_assoc in E. apply HP in E; [|solve [apply stop_c|apply stop_b]..]. destruct E as [_ E]. discriminate.
  - rewrite !JC in E. rewrite <- !app_assoc in E. apply HP in E; [|solve [apply stop_c|apply stop_b]..]. destruct E as [-> E]. apply (f_equal (@tl ascii)) in E. apply (IH (b' :: l') s t) in E; try discriminate. destruct E as [-> ->]. auto.
Qed.
Lemma braces_inj l l' : l <> [] -> l' <> [] -> braces rkey l = braces rkey l' -> fv l = fv l'.
Proof.
  intros N N' E. apply (f_equal (fun s => C (s ++ []))) in E. rewrite !braces_C in E. apply app_inv_head in E.
  apply join_inj in E; [apply E| |]; destruct l, l'; cbn; congruence.
Qed.
End Dec.

Section G.
Context {K : Type} `{KO : KeyOk K} {A : Type} (c : pycls K).
Lemma repr_shape name rkey (x : elt K A) : wf c x -> exists l, by_count (data x) l /\
  counter_repr name rkey (data x) = (if dempty (data x) then lit name ++ lit "()" else lit name ++ lit "(" ++ braces rkey l ++ lit ")").
Proof.
  intros W. exists (most_common (data x)). split; [apply by_count_mc|]. unfold counter_repr. destruct (dempty (data x)); [reflexivity|].
  rewrite dict_of_id; [reflexivity|]. eapply kdistinct_perm; [apply Permutation_map, by_count_mc|apply W].
Qed.
Lemma fv_mc {X} (f : K -> X) (d : dict K) : fv f (most_common d) = most_common (fv f d).
Proof.
  assert (I : forall p l, fv f (insert_item p l) = insert_item (f (fst p), snd p) (fv f l)).
  { intros p l. induction l as [|q l IH]; [reflexivity|]. cbn [insert_item fv map snd]. destruct (snd p <? snd q); [|reflexivity].
    cbn [map]. f_equal. exact IH. }
  induction d as [|p d IH]; [reflexivity|]. change (fv f (insert_item p (most_common d)) = insert_item (f (fst p), snd p) (most_common (fv f d))). now rewrite I, IH.
Qed.
Lemma mc_nil {X} (d : list (X * Z)) : most_common d = [] -> d = [].
Proof. intros E. destruct (by_count_mc d) as (P & _). rewrite E in P. apply Permutation_sym in P. now apply Permutation_nil in P. Qed.
Lemma repr_faithful {X} name rkey (sh : X -> pystr) (f : K -> X) (rk : X -> pystr) (x y : elt K A) : (forall k, rkey k = rk (f k)) ->
  (forall k s, C (rkey k ++ s) = sh (f k) ++ C s) -> code sh (fun _ => True) -> wf c x -> wf c y ->
  (counter_repr name rkey (data x) = counter_repr name rkey (data y) <-> forall v, with_count v (fv f (data x)) = with_count v (fv f (data y))).
Proof.
  intros Hrk HC Hcode Wx Wy. rewrite <- mc_eq, <- !fv_mc.
  assert (Dx : forall z : elt K A, wf c z -> counter_repr name rkey (data z) = (if dempty (data z) then lit name ++ lit "()" else lit name ++ lit "(" ++ braces rkey (most_common (data z)) ++ lit ")")).
  { intros z W. unfold counter_repr. destruct (dempty (data z)); [reflexivity|].
    rewrite dict_of_id; [reflexivity|]. eapply kdistinct_perm; [apply Permutation_map, by_count_mc|apply W]. }
  rewrite !Dx by assumption. destruct (data x) as [|p d] eqn:Ex, (data y) as [|q e] eqn:Ey; cbn [dempty].
  - tauto.
  - split; intros E.
    + apply app_inv_head in E. unfold braces in E. cbn in E. discriminate.
    + cbn [most_common fold_right fv map] in E. symmetry in E. apply map_eq_nil in E. apply (mc_nil (q :: e)) in E. discriminate.
  - split; intros E.
    + apply app_inv_head in E. unfold braces in E. cbn in E. discriminate.
    + apply map_eq_nil in E. apply (mc_nil (p :: d)) in E. discriminate.
  - split; intros E.
    + apply app_inv_head in E. apply app_inv_head in E. apply app_inv_tail in E. eapply braces_inj; eauto; intros N; apply mc_nil in N; discriminate.
    + assert (M : forall l, braces rkey l = braces rk (fv f l)).
      { intros l. unfold braces, fv. rewrite map_map. do 3 f_equal. apply map_ext. intros [k v]. cbn [fst snd]. now rewrite Hrk. }
      now rewrite !M, E.
Qed.
End G.

(** #C90_shape# [repr(x)] of an element of any class is the class name with the items in braces, sorted from the
    highest to the lowest coefficient, items with the same coefficient in insertion order, and
    [Name()] for zero. *)
Lemma C90_shape_l (x : simp) (y : cubc) (z : bee) (u : surj) (r : ring) :
  wf cls_simplicial x -> wf cls_cubical y -> wf cls_be z -> wf cls_surj u -> wf cls_ring r ->
  exists lx ly lz lu lr,
    by_count (data x) lx /\ by_count (data y) ly /\ by_count (data z) lz /\ by_count (data u) lu /\ by_count (data r) lr /\
    repr_simplicial x = lit "SimplicialElement(" ++ (if dempty (data x) then [] else braces repr_tuples lx) ++ lit ")" /\
    repr_cubical y = lit "CubicalElement(" ++ (if dempty (data y) then [] else braces repr_tuples ly) ++ lit ")" /\
    repr_be z = lit "BarrattEcclesElement(" ++ (if dempty (data z) then [] else braces repr_tuples lz) ++ lit ")" /\
    repr_surj u = lit "SurjectionElement(" ++ (if dempty (data u) then [] else braces repr_ints lu) ++ lit ")" /\
    repr_ring r = lit "SymmetricRingElement(" ++ (if dempty (data r) then [] else braces (fun k => repr_ints (kval k)) lr) ++ lit ")".
Proof.
  intros Wx Wy Wz Wu Wr.
  destruct (repr_shape cls_simplicial "SimplicialElement" repr_tuples x Wx) as (lx & Hx & Ex).
  destruct (repr_shape cls_cubical "CubicalElement" repr_tuples y Wy) as (ly & Hy & Ey).
  destruct (repr_shape cls_be "BarrattEcclesElement" repr_tuples z Wz) as (lz & Hz & Ez).
  destruct (repr_shape cls_surj "SurjectionElement" repr_ints u Wu) as (lu & Hu & Eu).
  destruct (repr_shape cls_ring "SymmetricRingElement" (fun k => repr_ints (kval k)) r Wr) as (lr & Hr & Er).
  exists lx, ly, lz, lu, lr. repeat (split; [assumption|]).
  split; [eapply eq_trans; [exact Ex|]; destruct (dempty (data x)); reflexivity|].
  split; [eapply eq_trans; [exact Ey|]; destruct (dempty (data y)); reflexivity|].
  split; [eapply eq_trans; [exact Ez|]; destruct (dempty (data z)); reflexivity|].
  split; [eapply eq_trans; [exact Eu|]; destruct (dempty (data u)); reflexivity|].
  eapply eq_trans; [exact Er|]; destruct (dempty (data r)); reflexivity.
Qed.

(** #C90_order_unique# The order is determined: there is exactly one list of the items sorted in this way. *)
Lemma C90_order_unique_l {K} (d l l' : list (K * Z)) : by_count d l -> by_count d l' -> l = l'.
Proof. intros (_ & H1 & H2) (_ & H1' & H2'). apply by_count_uniq; auto. intros v. now rewrite H2, H2'. Qed.

(** #C90_faithful# Two elements of a class have the same [repr] exactly when for every integer the items with
    this coefficient are the same in the same order (for the symmetric ring: up to the class of the
    keys, which [==] ignores). *)
Lemma C90_faithful_l :
  (forall x y : simp, wf cls_simplicial x -> wf cls_simplicial y -> (repr_simplicial x = repr_simplicial y <-> forall v, with_count v (data x) = with_count v (data y))) /\
  (forall x y : cubc, wf cls_cubical x -> wf cls_cubical y -> (repr_cubical x = repr_cubical y <-> forall v, with_count v (data x) = with_count v (data y))) /\
  (forall x y : bee, wf cls_be x -> wf cls_be y -> (repr_be x = repr_be y <-> forall v, with_count v (data x) = with_count v (data y))) /\
  (forall x y : surj, wf cls_surj x -> wf cls_surj y -> (repr_surj x = repr_surj y <-> forall v, with_count v (data x) = with_count v (data y))) /\
  (forall x y : ring, wf cls_ring x -> wf cls_ring y -> (repr_ring x = repr_ring y <-> forall v, with_count v (map (fun kv => (kval (fst kv), snd kv)) (data x)) = with_count v (map (fun kv => (kval (fst kv), snd kv)) (data y)))).
Proof.
  assert (I : forall X (d : list (X * Z)), fv (fun k => k) d = d). { intros X d. unfold fv. rewrite <- (map_id d) at 2. apply map_ext. now intros [? ?]. }
  split; [|split; [|split; [|split]]]; intros x y Wx Wy.
  - rewrite <- (I _ (data x)), <- (I _ (data y)). eapply repr_faithful; eauto using tuples_C, code_tuples.
  - rewrite <- (I _ (data x)), <- (I _ (data y)). eapply repr_faithful; eauto using tuples_C, code_tuples.
  - rewrite <- (I _ (data x)), <- (I _ (data y)). eapply repr_faithful; eauto using tuples_C, code_tuples.
  - rewrite <- (I _ (data x)), <- (I _ (data y)). eapply repr_faithful; eauto using ints_C, code_ints.
  - eapply (repr_faithful cls_ring "SymmetricRingElement" (fun k => repr_ints (kval k)) shown_ints kval repr_ints); auto using code_ints. intros k s. apply ints_C.
Qed.

Lemma with_count_eqb {K A} `{KeyOk K} (c : pycls K) (x y : elt K A) : wf c x -> wf c y -> (forall v, with_count v (data x) = with_count v (data y)) -> elt_eqb x y = true.
Proof.
  intros [_ [Dx _]] [_ [Dy _]] E. apply mc_eq in E. apply dict_eqb_dget. intros k.
  rewrite (dget_perm (data x) (most_common (data x)) k); [|apply by_count_mc|exact Dx]. rewrite E. symmetry. apply dget_perm; [apply by_count_mc|exact Dy].
Qed.

(** #C90_eq# Elements with the same [repr] are equal ([==]). *)
Lemma C90_eq_l :
  (forall x y : simp, wf cls_simplicial x -> wf cls_simplicial y -> repr_simplicial x = repr_simplicial y -> elt_eqb x y = true) /\
  (forall x y : cubc, wf cls_cubical x -> wf cls_cubical y -> repr_cubical x = repr_cubical y -> elt_eqb x y = true) /\
  (forall x y : bee, wf cls_be x -> wf cls_be y -> repr_be x = repr_be y -> elt_eqb x y = true) /\
  (forall x y : surj, wf cls_surj x -> wf cls_surj y -> repr_surj x = repr_surj y -> elt_eqb x y = true) /\
  (forall x y : ring, wf cls_ring x -> wf cls_ring y -> repr_ring x = repr_ring y -> elt_eqb x y = true).
Proof.
  destruct C90_faithful_l as (F1 & F2 & F3 & F4 & F5).
  split; [|split; [|split; [|split]]]; intros x y Wx Wy E.
  - eapply with_count_eqb; eauto. now apply F1.
  - eapply with_count_eqb; eauto. now apply F2.
  - eapply with_count_eqb; eauto. now apply F3.
  - eapply with_count_eqb; eauto. now apply F4.
  - assert (F := proj1 (F5 x y Wx Wy) E). apply mc_eq in F. apply dict_eqb_dget. intros k.
    assert (M : forall d : dict skey, dget d k = dget (vals d) (kval k)). { intros d. induction d as [|[k1 v1] d IH]; [reflexivity|]. cbn [vals map dget fst snd]. rewrite IH. reflexivity. }
    assert (D : forall z : ring, wf cls_ring z -> kdistinct (dkeys (vals (data z)))).
    { intros z [_ [Dz _]]. revert Dz. induction (data z) as [|[k1 v1] d IH]; cbn [vals dkeys map fst kdistinct]; [auto|]. intros [D1 D2]. split; [|now apply IH].
      intros k' Hin. unfold vals in Hin. rewrite map_map in Hin. apply in_map_iff in Hin. destruct Hin as ([k2 v2] & <- & Hin). apply (in_map fst) in Hin. now apply D1 in Hin. }
    rewrite !M. fold (vals (data x)) (vals (data y)) in F.
    rewrite (dget_perm _ (most_common (vals (data x)))); [|apply by_count_mc|now apply D]. rewrite F. symmetry. apply dget_perm; [apply by_count_mc|now apply D].
Qed.

(** #C90_roundtrip# Evaluating the [repr] calls the constructor on the printed dict, whose items are those of [x]
    sorted by coefficient: the result is equal to the copy of [x] (C89), in particular equal
    to [x] when the class default of the torsion is 0 or the torsion of [x], for every class. *)
Lemma C90_roundtrip_l {K A} `{KeyOk K} (dt : Z) (c : pycls K) (a0 : A) (x : elt K A) (l : list (K * Z)) :
  cls_ok c -> wf c x -> 0 <= dt -> by_count (data x) l ->
  same (new dt c l None a0) (copied dt c a0 x) /\
  (dt = 0 \/ torsion x = dt -> exists y, new dt c l None a0 = Ok y /\ wf c y /\ elt_eqb x y = true).
Proof.
  intros Hc W Hdt (P & _ & _).
  assert (Wl : wf c (mkElt l (torsion x) (attr x))). { split; [apply W|]. cbn [data torsion]. eapply canonical_perm; [exact P|apply W]. }
  destruct (C89_copy_l dt c a0 x Hc W Hdt) as (y & Ey & Wy & Ty & Ay & Gy).
  destruct (C89_copy_l dt c a0 _ Hc Wl Hdt) as (z & Ez & Wz & Tz & Az & Gz). unfold copied in Ez. cbn [data] in Ez, Gz.
  assert (G : forall k, dget (data z) k = dget (data y) k). { intros k. rewrite Gy, Gz. now rewrite (dget_perm (data x) l k P) by apply W. }
  split.
  - exists z, y. repeat split; auto; [apply dict_eqb_dget; exact G|congruence|congruence].
  - intros Hd. exists z. split; [exact Ez|]. split; [exact Wz|].
    destruct (C89_copy_eq_l dt c a0 x Hc W Hdt) as (y' & Ey' & He & _). rewrite Ey in Ey'. injection Ey' as <-.
    specialize (He Hd). apply dict_eqb_dget. intros k. rewrite G. now apply dict_eqb_dget.
Qed.

(** #C90_example# The coefficients -1, 2, 10 are printed as 10, 2, -1; two elements that are equal ([==]) may have
    different representations; the torsion is not shown. *)
Example C90_example_l :
  let x := mkElt [([1; 2; 1], -1); ([2; 1; 3], 2); ([1], 10); ([1; 2], 2)] 0 BF : surj in
  wf cls_surj x /\ repr_surj x = lit "SurjectionElement({(1,): 10, (2, 1, 3): 2, (1, 2): 2, (1, 2, 1): -1})" /\
  by_count (data x) [([1], 10); ([2; 1; 3], 2); ([1; 2], 2); ([1; 2; 1], -1)] /\
  repr_surj (mkElt [] 0 BF) = lit "SurjectionElement()" /\
  (let y := mkElt [([1; 2], 1); ([2; 1], 1)] 0 BF : surj in let z := mkElt [([2; 1], 1); ([1; 2], 1)] 0 BF : surj in elt_eqb y z = true /\ repr_surj y <> repr_surj z) /\
  (forall t d (r : ring), repr_ring r = repr_ring (mkElt (data r) t d)) /\
  repr_be (mkElt [([[1; 2]; [2; 1]], 2)] 3 tt) = lit "BarrattEcclesElement({((1, 2), (2, 1)): 2})".
Proof.
  cbv zeta. split; [apply wfb_wf; reflexivity|]. split; [reflexivity|].
  split; [exact (by_count_mc [([1; 2; 1], -1); ([2; 1; 3], 2); ([1], 10); ([1; 2], 2)])|]. split; [reflexivity|].
  split; [split; [reflexivity|intros E; discriminate]|]. split; reflexivity.
Qed.
