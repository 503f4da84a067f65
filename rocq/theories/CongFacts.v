(** * Linear operations respect equality of elements *)
From Coq Require Import Setoid Morphisms.
From Verif Require Import PyBase Dict FreeModule Eqm Spec FreeModuleFacts FreeModuleLaws LinearFacts TensorAct.

Section Cong.
Context {K A : Type} `{KO : KeyOk K} {KE : KeyEq K}.
Lemma resp_all (g : K -> Z) : resp g.
Proof. intros k k' E. apply keqb_eq in E. now subst. Qed.
Lemma eqb_ev (c : pycls K) (x y : elt K A) g : wf c x -> wf c y -> elt_eqb x y = true -> ev g (data x) = ev g (data y).
Proof. intros (_ & Kx & _) (_ & Ky & _) E. apply dict_eqb_ev; auto. apply resp_all. Qed.
Lemma eqb_keys (c : pycls K) (x y : elt K A) P : wf c x -> wf c y -> elt_eqb x y = true -> keys_in P x -> keys_in P y.
Proof.
  intros Wx (_ & Ky & Cy) E Px k v Hin. unfold elt_eqb in E. rewrite dict_eqb_dget in E. specialize (E k). rewrite (dget_in (data y) k v Ky Hin) in E.
  destruct (Cy k v Hin) as [[Nv _] _]. assert (I : In k (dkeys (data x))).
  { destruct (existsb (fun k' => keqb k' k) (dkeys (data x))) eqn:Ex.
    - apply existsb_exists in Ex. destruct Ex as (k' & Hk & F). apply keqb_eq in F. now subst.
    - exfalso. apply Nv. rewrite <- E. apply dget_notin. intros k' Hk'. destruct (keqb k' k) eqn:F; [|reflexivity]. rewrite <- Ex. symmetry. apply existsb_exists. eauto. }
  apply in_map_iff in I. destruct I as ([k' v'] & Ek & I). cbn in Ek. subst k'. eapply Px; eauto.
Qed.
Lemma eqb_empty (c : pycls K) (x y : elt K A) : wf c x -> wf c y -> elt_eqb x y = true -> dempty (data x) = dempty (data y).
Proof.
  intros Wx Wy E. assert (E' : elt_eqb y x = true) by (unfold elt_eqb in *; rewrite dict_eqb_dget in *; intros k; now rewrite E).
  destruct (data x) as [|[k v] l] eqn:Ex; destruct (data y) as [|[k' v'] l'] eqn:Ey; try reflexivity; exfalso.
  - refine (eqb_keys c x y (fun _ => False) Wx Wy E _ k' v' _); [intros ? ? ?; rewrite Ex in *; auto|]. rewrite Ey. now left.
  - refine (eqb_keys c y x (fun _ => False) Wy Wx E' _ k v _); [intros ? ? ?; rewrite Ey in *; auto|]. rewrite Ex. now left.
Qed.
End Cong.

Lemma linop_cong {K A K' B} `{KO : KeyOk K} {KE : KeyEq K} `{KO' : KeyOk K'} (c : pycls K) (c' : pycls K') (Hc' : cls_ok c') t (a : A) (b : B) P Q D f (x y : elt K A) :
  0 <= t -> linop c c' t a b P Q D f -> wf c x -> wf c y -> torsion x = t -> torsion y = t -> attr x = a -> attr y = a -> keys_in P x -> elt_eqb x y = true -> same (f x) (f y).
Proof.
  intros Ht L Wx Wy Tx Ty Ax Ay Kx E. pose proof (eqb_keys c x y P Wx Wy E Kx) as Ky.
  destruct (L x Wx Tx Ax Kx) as (u & Eu & Du & _). destruct (L y Wy Ty Ay Ky) as (v & Ev & Dv & _).
  eapply (same_den c' Hc' t b); [exact Ht|exists u; split; eauto|exists v; split; eauto|]. intros g _. cbn beta. apply eqm_eq. now apply (eqb_ev c).
Qed.

Section Cong2.
Context {K A : Type} `{KO : KeyOk K}.
Lemma eqb_ev' (c : pycls K) (x y : elt K A) g : resp g -> wf c x -> wf c y -> elt_eqb x y = true -> ev g (data x) = ev g (data y).
Proof. intros Hg (_ & Kx & _) (_ & Ky & _) E. apply dict_eqb_ev; auto. Qed.
Lemma eqb_keys' (c : pycls K) (x y : elt K A) (P : K -> Prop) : (forall k k', keqb k k' = true -> P k -> P k') -> wf c x -> wf c y -> elt_eqb x y = true -> keys_in P x -> keys_in P y.
Proof.
  intros HP Wx (_ & Ky & Cy) E Px k v Hin. unfold elt_eqb in E. rewrite dict_eqb_dget in E. specialize (E k). rewrite (dget_in (data y) k v Ky Hin) in E.
  destruct (Cy k v Hin) as [[Nv _] _]. destruct (existsb (fun k' => keqb k' k) (dkeys (data x))) eqn:Ex.
  - apply existsb_exists in Ex. destruct Ex as (k' & Hk & F). apply in_map_iff in Hk. destruct Hk as ([k2 v'] & <- & I). eapply HP; [exact F|]. eapply Px; eauto.
  - exfalso. apply Nv. rewrite <- E. apply dget_notin. intros k' Hk'. destruct (keqb k' k) eqn:F; [|reflexivity]. rewrite <- Ex. symmetry. apply existsb_exists. eauto.
Qed.
Lemma eqb_sym (x y : elt K A) : elt_eqb x y = true -> elt_eqb y x = true.
Proof. unfold elt_eqb. rewrite !dict_eqb_dget. intros E k. now rewrite E. Qed.
Lemma eqb_zero (c : pycls K) (x y : elt K A) : wf c x -> wf c y -> elt_eqb x y = true -> is_zero x -> is_zero y.
Proof.
  intros Wx Wy E Z. unfold is_zero in *. destruct (data y) as [|[k v] l] eqn:Ey; [reflexivity|]. exfalso.
  refine (eqb_keys' c x y (fun _ => False) _ Wx Wy E _ k v _); [auto|intros ? ? ?; rewrite Z in *; auto|]. rewrite Ey. now left.
Qed.
Lemma eqb_nonzero (c : pycls K) (x y : elt K A) : wf c x -> wf c y -> elt_eqb x y = true -> ~ is_zero x -> ~ is_zero y.
Proof. intros Wx Wy E N Z. apply N. apply (eqb_zero c y x); auto using eqb_sym. Qed.
End Cong2.

Lemma gives_cong {K A} `{KO : KeyOk K} (c : pycls K) (Hc : cls_ok c) (r r' : res (elt K A)) t a l l' :
  0 <= t -> gives c r t a l -> gives c r' t a l' -> (forall k, coef l k = coef l' k) -> same r r'.
Proof.
  intros Ht (z & -> & Wz & Tz & Az & Rz) (z' & -> & Wz' & Tz' & Az' & Rz') E. exists z, z'. split; [reflexivity|]. split; [reflexivity|]. split; [|split; congruence].
  destruct Wz as (_ & Cz), Wz' as (_ & Cz'). unfold elt_eqb, dict_eqb. apply forallb_forall. intros k Hk. apply Z.eqb_eq.
  assert (Hb : bad c k = Ok false).
  { apply in_app_or in Hk. destruct Hk as [Hk|Hk]; apply in_map_iff in Hk; destruct Hk as ([k' v] & <- & Hk); cbn; [apply Cz in Hk|apply Cz' in Hk]; apply Hk. }
  specialize (Rz k Hb). specialize (Rz' k Hb). rewrite E in Rz. rewrite Tz in *. rewrite Tz' in *.
  assert (R : eqm t (dget (data z) k) (dget (data z') k)) by (unfold eqm; replace (dget (data z) k - dget (data z') k) with ((dget (data z) k - coef l' k) - (dget (data z') k - coef l' k)) by ring; now apply Z.divide_sub_r).
  destruct (Z.eq_dec t 0) as [->|Hn]; [now apply eqm_0 in R|].
  apply eqm_small with t; auto; try lia; eapply dget_range; eauto; lia.
Qed.
Lemma extend_cong {K A K'} `{KO : KeyOk K} `{PyKey K'} (c : pycls K) (f : K -> list (K' * Z)) (x y : elt K A) k :
  (forall a b, keqb a b = true -> f a = f b) -> wf c x -> wf c y -> elt_eqb x y = true -> coef (extend f x) k = coef (extend f y) k.
Proof. intros Hf Wx Wy E. rewrite !coef_ev, !ev_extend. apply (eqb_ev' c); auto. intros a b Hab. now rewrite (Hf a b Hab). Qed.
Lemma extend2_cong {K1 A1 K2 A2 K'} `{KO1 : KeyOk K1} `{KO2 : KeyOk K2} `{PyKey K'} (c1 : pycls K1) (c2 : pycls K2) (f : K1 -> K2 -> list (K' * Z)) (x x' : elt K1 A1) (y y' : elt K2 A2) k :
  (forall a b e, keqb a b = true -> f a e = f b e) -> (forall a b e, keqb a b = true -> f e a = f e b) -> wf c1 x -> wf c1 x' -> elt_eqb x x' = true -> wf c2 y -> wf c2 y' -> elt_eqb y y' = true ->
  coef (extend2 f x y) k = coef (extend2 f x' y') k.
Proof.
  intros HL HR Wx Wx' Ex Wy Wy' Ey. rewrite !coef_ev, !ev_extend2. rewrite (eqb_ev' c1 x x'); auto.
  - apply ev_ext. intros a v _. apply (eqb_ev' c2); auto. intros b b' E. now rewrite (HR b b' a E).
  - intros a b E. apply ev_ext. intros e v _. now rewrite (HL a b e E).
Qed.
