(** * Linear operators between classes of elements.  Proof library. *)
From Coq Require Import Setoid Morphisms.
From Verif Require Import PyBase Dict FreeModule Eqm Spec FreeModuleFacts FreeModuleLaws.

(** predicates on keys, decidable and compatible with key equality *)
Definition kpred {K} `{PyKey K} (P : K -> Prop) : Prop :=
  (forall k, P k \/ ~ P k) /\ (forall k k', keqb k k' = true -> P k -> P k').

Lemma kpred_eq {K} `{KeyEq K} (P : K -> Prop) : (forall k, P k \/ ~ P k) -> kpred P.
Proof. intros HP. split; [exact HP|]. intros k k' E. apply keqb_eq in E. now subst. Qed.
Lemma kpred_bool {K} `{KeyEq K} (b : K -> bool) : kpred (fun k => b k = true).
Proof. apply kpred_eq. intros k. destruct (b k); [now left|right; discriminate]. Qed.

(** forms that are well defined on the part of the module spanned by [P] *)
Definition admP {K} `{PyKey K} (c : pycls K) (P : K -> Prop) (g : K -> Z) : Prop :=
  (forall k k', keqb k k' = true -> P k -> g k = g k') /\ (forall k, P k -> bad c k = Ok true -> g k = 0).
Lemma adm_admP {K} `{PyKey K} (c : pycls K) P g : adm c g -> admP c P g.
Proof. intros [H1 H2]. split; auto. Qed.

Section Lin.
Context {K A : Type} `{KO : KeyOk K}.
Variable c : pycls K.
Hypothesis Hc : cls_ok c.

Lemma den_keys t a F (y : elt K A) (P : K -> Prop) : 0 <= t -> kpred P -> den c t a F y ->
  (forall g, adm c g -> (forall k, P k -> g k = 0) -> eqm t (F g) 0) -> keys_in P y.
Proof.
  intros Ht [HP1 HP2] (H1 & H2 & H3 & H4) HF k v Hin. destruct (HP1 k) as [|N]; [assumption|]. exfalso.
  pose proof (proj2 H3 _ _ Hin) as [Hv Hb].
  assert (E : eqm t (ev (ind k) (data y)) 0).
  { rewrite H4 by now apply adm_ind. apply HF; [now apply adm_ind|]. intros k' Hk'. unfold ind.
    destruct (keqb k' k) eqn:E; [|reflexivity]. exfalso. eauto. }
  rewrite dget_ind in E by apply H3. rewrite (dget_in _ _ v) in E by (apply H3 || assumption).
  destruct Hv as [Hv1 Hv2]. destruct (Z.eq_dec t 0) as [->|Nt]; [apply eqm_0 in E; lia|].
  apply eqm_small in E; lia.
Qed.

(** the form [g] cut down to [P], built from a decision of [P] for the finitely
    many keys that matter is avoided: we use existence only *)
Lemma clip (P : K -> Prop) (g : K -> Z) (l : list K) : kpred P -> admP c P g ->
  exists h, adm c h /\ (forall k, P k -> In k l -> h k = g k) /\ (forall k, (forall k', In k' l -> keqb k' k = false) -> h k = 0).
Proof.
  intros [HP1 HP2] [Hg1 Hg2]. induction l as [|k0 l IH].
  - exists (fun _ => 0). repeat split; auto. intros k _ [].
  - destruct IH as (h & Hh1 & Hh2 & Hh3).
    destruct (HP1 k0) as [P0|N0].
    + exists (fun k => if keqb k0 k then g k0 else h k). split; [split|split].
      * intros k k' E. rewrite (keqb_cong_l _ _ k0 E). now rewrite (proj1 Hh1 k k' E).
      * intros k Hb. destruct (keqb k0 k) eqn:E; [|now apply Hh1]. apply Hg2; auto. rewrite (proj1 Hc _ _ E). exact Hb.
      * intros k Pk [->|Hin]; [now rewrite keqb_refl|]. destruct (keqb k0 k) eqn:E; [apply Hg1; auto|]. now apply Hh2.
      * intros k Hk. rewrite (Hk k0) by now left. apply Hh3. intros k' Hk'. apply Hk. now right.
    + exists h. split; [exact Hh1|]. split.
      * intros k Pk [->|Hin]; [contradiction|]. now apply Hh2.
      * intros k Hk. apply Hh3. intros k' Hk'. apply Hk. now right.
Qed.

(** evaluate a form that is only admissible on [P]; [F] must depend only on
    the values on [P] *)
Lemma den_ev_on t a F (y : elt K A) (P : K -> Prop) g (l : list K) : kpred P -> den c t a F y -> keys_in P y ->
  admP c P g -> (forall h, (forall k, P k -> In k l -> h k = g k) -> eqm t (F h) (F g)) ->
  eqm t (ev g (data y)) (F g).
Proof.
  intros HP (H1 & H2 & H3 & H4) Hk Hg HF.
  destruct (clip P g (l ++ dkeys (data y)) HP Hg) as (h & Hh1 & Hh2 & Hh3).
  rewrite <- (HF h) by (intros k Pk Hin; apply Hh2; auto; apply in_or_app; now left).
  rewrite <- H4 by assumption. apply eqm_eq. apply ev_ext. intros k v Hin. symmetry. apply Hh2; [eapply Hk; eauto|].
  apply in_or_app. right. now apply (in_map fst) in Hin.
Qed.

Lemma keys_in_add dt t a F G (x y z : elt K A) (P : K -> Prop) : 0 <= t -> dt_ok dt t -> kpred P ->
  den c t a F x -> den c t a G y -> keys_in P x -> keys_in P y -> den c t a (fun g => F g + G g) z -> keys_in P z.
Proof.
  intros Ht Hdt HP Hx Hy Kx Ky Hz. apply (den_keys t a _ z P Ht HP Hz). intros g Hg H0.
  rewrite <- (den_ev _ _ _ _ _ _ Hx Hg), <- (den_ev _ _ _ _ _ _ Hy Hg).
  rewrite !ev_zero; [reflexivity| |]; intros k v Hin; apply H0; eauto.
Qed.
Lemma keys_in_scale t a F n (x z : elt K A) (P : K -> Prop) : 0 <= t -> kpred P ->
  den c t a F x -> keys_in P x -> den c t a (fun g => n * F g) z -> keys_in P z.
Proof.
  intros Ht HP Hx Kx Hz. apply (den_keys t a _ z P Ht HP Hz). intros g Hg H0.
  rewrite <- (den_ev _ _ _ _ _ _ Hx Hg). rewrite ev_zero; [now rewrite Z.mul_0_r|]. intros k v Hin; apply H0; eauto.
Qed.
End Lin.

(** ** Linear operators *)
Section Op.
Context {K A K' B : Type} `{KO : KeyOk K} `{KO' : KeyOk K'}.
Variable c : pycls K.
Hypothesis Hc : cls_ok c.
Variable c' : pycls K'.
Hypothesis Hc' : cls_ok c'.

(** [f] sends elements with keys in [P] (torsion [t], attributes [a]) to the
    element that represents the dual operator [D], with keys in [Q]. *)
Definition linop (t : Z) (a : A) (b : B) (P : K -> Prop) (Q : K' -> Prop) (D : (K' -> Z) -> K -> Z) (f : elt K A -> res (elt K' B)) : Prop :=
  forall x, wf c x -> torsion x = t -> attr x = a -> keys_in P x ->
    returns (f x) (fun y => den c' t b (fun g => ev (D g) (data x)) y /\ keys_in Q y).

(** the dual operator only looks at the values on [Q], for arguments in [P] *)
Definition local (P : K -> Prop) (Q : K' -> Prop) (D : (K' -> Z) -> K -> Z) : Prop :=
  forall k, P k -> exists l : list K', (forall k', In k' l -> Q k') /\
    forall g h, (forall k', In k' l -> g k' = h k') -> D g k = D h k.
(** preserves admissible forms *)
Definition admop (P : K -> Prop) (Q : K' -> Prop) (D : (K' -> Z) -> K -> Z) : Prop :=
  forall g, admP c' Q g -> admP c P (D g).

Lemma local_list P Q D (d : dict K) : local P Q D -> (forall k v, In (k, v) d -> P k) ->
  exists l : list K', (forall k', In k' l -> Q k') /\ forall g h, (forall k', In k' l -> g k' = h k') -> ev (D g) d = ev (D h) d.
Proof.
  intros HL. induction d as [|[k v] d IH]; intros Hd.
  - exists []. split; [intros ? []|]. reflexivity.
  - destruct IH as (l & Hl1 & Hl2); [intros; eapply Hd; right; eauto|].
    destruct (HL k) as (l' & Hl1' & Hl2'); [eapply Hd; left; eauto|].
    exists (l' ++ l). split.
    + intros k' Hk'. apply in_app_iff in Hk'. destruct Hk'; auto.
    + intros g h E. rewrite !ev_cons. rewrite (Hl2' g h), (Hl2 g h); [reflexivity| |]; intros; apply E, in_or_app; auto.
Qed.

(** keys of the result from locality *)
Lemma local_zero P Q D (x : elt K A) g : local P Q D -> (forall k, P k -> D (fun _ => 0) k = 0) -> keys_in P x ->
  (forall k, Q k -> g k = 0) -> ev (D g) (data x) = 0.
Proof.
  intros HL HD0 Hx Hg. apply ev_zero. intros k v Hin. apply Hx in Hin. destruct (HL k Hin) as (l & Hl1 & Hl2).
  rewrite <- (HD0 k Hin). apply Hl2. auto.
Qed.
Lemma linop_intro t a b P Q D f : 0 <= t -> kpred Q -> local P Q D -> (forall k, P k -> D (fun _ => 0) k = 0) ->
  (forall x, wf c x -> torsion x = t -> attr x = a -> keys_in P x ->
     returns (f x) (den c' t b (fun g => ev (D g) (data x)))) -> linop t a b P Q D f.
Proof.
  intros Ht HQ HL HD0 Hf x Hx Et Ea Hk. eapply returns_mono; [now apply Hf|]. intros y Hy. split; [exact Hy|].
  eapply (den_keys c' Hc' t b _ y Q Ht HQ Hy). intros g Hg Hz. apply eqm_eq.
  eapply local_zero; eauto.
Qed.
End Op.

(** composition of operators *)
Lemma linop_comp {K A K' B K'' C} `{KO : KeyOk K} `{KO' : KeyOk K'} `{KO'' : KeyOk K''}
  (c : pycls K) (c' : pycls K') (c'' : pycls K'') (Hc : cls_ok c) (Hc' : cls_ok c') (Hc'' : cls_ok c'')
  t (a : A) (b : B) (e : C) P Q R D1 D2 f h :
  0 <= t -> kpred Q ->
  linop c c' t a b P Q D1 f -> linop c' c'' t b e Q R D2 h ->
  local P Q D1 -> admop c' c'' Q R D2 ->
  linop c c'' t a e P R (fun g => D1 (D2 g)) (fun x => let! y := f x in h y).
Proof.
  intros Ht HQ Hf1 Hf2 HL HA x Hx Et Ea Hk. eapply returns_bind; [now apply Hf1|]. intros y [Hy Ky].
  eapply returns_mono; [apply Hf2|].
  - eapply den_wf; eauto.
  - now destruct Hy.
  - now destruct Hy as (_ & ? & _).
  - exact Ky.
  - intros z [Hz Kz]. split; [|exact Kz]. eapply den_ext; [|exact Hz]. intros g Hg. cbn beta.
    destruct (local_list P Q D1 (data x) HL Hk) as (l & Hl1 & Hl2).
    apply (den_ev_on c' Hc' t b _ y Q (D2 g) l HQ Hy Ky).
    + apply HA. now apply adm_admP.
    + intros h' Hh'. apply eqm_eq. apply Hl2. intros k' Hk'. apply Hh'; auto.
Qed.

(** equality of operators *)
Lemma linop_same {K A K' B} `{KO : KeyOk K} `{KO' : KeyOk K'} (c : pycls K) (c' : pycls K') (Hc' : cls_ok c')
  t (a : A) (b : B) P Q Q' D D' f f' (x : elt K A) :
  0 <= t -> linop c c' t a b P Q D f -> linop c c' t a b P Q' D' f' ->
  wf c x -> torsion x = t -> attr x = a -> keys_in P x ->
  (forall g k, adm c' g -> P k -> bad c k = Ok false -> eqm t (D g k) (D' g k)) -> same (f x) (f' x).
Proof.
  intros Ht Hf1 Hf2 Hx Et Ea Hk HD.
  eapply (same_den c' Hc' t b).
  - exact Ht.
  - eapply returns_mono; [now apply Hf1|]. intros y [Hy _]. exact Hy.
  - eapply returns_mono; [now apply Hf2|]. intros y [Hy _]. exact Hy.
  - intros g Hg. apply ev_eqm. intros k v Hin. apply HD; auto; [eapply Hk; eauto|]. apply (proj2 (proj2 Hx) _ _ Hin).
Qed.

(** additivity of a linear operator *)
Lemma linop_add {K A K' B} `{KO : KeyOk K} `{KO' : KeyOk K'} (c : pycls K) (c' : pycls K') (Hc : cls_ok c) (Hc' : cls_ok c')
  dt t (a : A) (b : B) P Q D f (x y : elt K A) :
  0 <= t -> dt_ok dt t -> kpred P -> linop c c' t a b P Q D f -> admop c c' P Q D ->
  wf c x -> torsion x = t -> attr x = a -> keys_in P x ->
  wf c y -> torsion y = t -> attr y = a -> keys_in P y ->
  same (let! s := add dt c x y in f s) (let! p := f x in let! q := f y in add dt c' p q).
Proof.
  intros Ht Hdt HP Hf HA Hx Etx Eax Hkx Hy Ety Eay Hky.
  pose proof (den_self c x Hx) as Dx. pose proof (den_self c y Hy) as Dy. rewrite Etx, Eax in Dx. rewrite Ety, Eay in Dy.
  eapply (same_den c' Hc' t b _ _); [exact Ht| | |].
  - eapply returns_bind; [eapply (add_den c Hc dt t); eauto|]. intros z Hz.
    assert (Kz : keys_in P z) by (exact (keys_in_add c Hc dt t a _ _ x y z P Ht Hdt HP Dx Dy Hkx Hky Hz)).
    eapply returns_mono; [apply Hf|].
    + eapply den_wf; eauto.
    + now destruct Hz.
    + now destruct Hz as (_ & ? & _).
    + exact Kz.
    + intros w [Hw _]. eapply den_ext; [|exact Hw]. intros g Hg.
      apply (den_ev_on c Hc t a _ z P (D g) (dkeys (data x) ++ dkeys (data y)) HP Hz Kz).
      * apply HA, adm_admP, Hg.
      * intros h Hh. apply eqm_eq. f_equal; apply ev_ext; intros k v Hin; (apply Hh; [eauto|]); apply in_or_app;
          apply (in_map fst) in Hin; [now left|now right].
  - eapply returns_bind; [now apply Hf|]. intros p [Hp _]. eapply returns_bind; [now apply Hf|]. intros q [Hq _].
    eapply (add_den c' Hc' dt t); eauto.
  - intros g Hg. cbn beta. reflexivity.
Qed.
Lemma linop_scale {K A K' B} `{KO : KeyOk K} `{KO' : KeyOk K'} (c : pycls K) (c' : pycls K') (Hc : cls_ok c) (Hc' : cls_ok c')
  dt t (a : A) (b : B) P Q D f (x : elt K A) n :
  0 <= t -> dt_ok dt t -> kpred P -> linop c c' t a b P Q D f -> admop c c' P Q D ->
  wf c x -> torsion x = t -> attr x = a -> keys_in P x ->
  same (let! s := scale dt c n x in f s) (let! p := f x in scale dt c' n p).
Proof.
  intros Ht Hdt HP Hf HA Hx Etx Eax Hkx.
  pose proof (den_self c x Hx) as Dx. rewrite Etx, Eax in Dx.
  eapply (same_den c' Hc' t b _ _); [exact Ht| | |].
  - eapply returns_bind; [eapply (scale_den c Hc dt t); eauto|]. intros z Hz.
    assert (Kz : keys_in P z) by (exact (keys_in_scale c Hc t a _ n x z P Ht HP Dx Hkx Hz)).
    eapply returns_mono; [apply Hf|].
    + eapply den_wf; eauto.
    + now destruct Hz.
    + now destruct Hz as (_ & ? & _).
    + exact Kz.
    + intros w [Hw _]. eapply den_ext; [|exact Hw]. intros g Hg.
      apply (den_ev_on c Hc t a _ z P (D g) (dkeys (data x)) HP Hz Kz).
      * apply HA, adm_admP, Hg.
      * intros h Hh. apply eqm_eq. f_equal; apply ev_ext; intros k v Hin; (apply Hh; [eauto|]); now apply (in_map fst) in Hin.
  - eapply returns_bind; [now apply Hf|]. intros p [Hp _]. eapply (scale_den c' Hc' dt t); eauto.
  - intros g Hg. cbn beta. reflexivity.
Qed.

(** tracking of key objects through the constructors (for the class of keys) *)
Section KeyObjects.
Context {K A : Type} `{KO : KeyOk K}.
Variable c : pycls K.
Lemma strip_in d k v : In (k, v) (strip (K := K) d) -> In k (dkeys d).
Proof. intros Hin. apply filter_In in Hin. destruct Hin as [Hin _]. now apply (in_map fst) in Hin. Qed.
Lemma reduce_keys t d : dkeys (reduce (K := K) t d) = dkeys d.
Proof. unfold reduce. destruct (t =? 0); [reflexivity|]. unfold dkeys. rewrite map_map. now apply map_ext. Qed.
Lemma pref_keys t d d' k v : pref c t d = Ok d' -> In (k, v) d' -> In k (dkeys d).
Proof.
  intros E Hin. apply pref_inv in E. destruct E as [-> _]. unfold prefd in Hin. apply strip_in in Hin.
  rewrite reduce_keys in Hin. unfold dkeys in *. rewrite map_map in Hin. exact Hin.
Qed.
Lemma create_keys dt (x y : elt K A) d (P : K -> Prop) : create dt c x d = Ok y -> (forall k, In k (dkeys d) -> P (ckey c k)) -> keys_in P y.
Proof.
  intros E HP k v Hin. unfold create in E.
  destruct (pref c dt (convert c d)) as [d1|] eqn:E1; cbn in E; [|discriminate].
  destruct (pref c (torsion x) d1) as [d2|] eqn:E2; cbn in E; [|discriminate]. injection E as <-. cbn in Hin.
  apply (pref_keys _ _ _ _ _ E2) in Hin. unfold dkeys in Hin. apply in_map_iff in Hin. destruct Hin as ([k' v'] & <- & Hin).
  apply (pref_keys _ _ _ _ _ E1) in Hin. cbn. revert Hin. apply dict_of_Forall. intros k0 Hk0.
  unfold dkeys in Hk0. rewrite map_map in Hk0. apply in_map_iff in Hk0. destruct Hk0 as ([k1 v1] & <- & Hin). cbn.
  apply HP. now apply (in_map fst) in Hin.
Qed.
Lemma iadd_keys (x y z : elt K A) (P : K -> Prop) : iadd c x y = Ok z -> keys_in P x -> keys_in P y -> keys_in P z.
Proof.
  intros E Hx Hy k v Hin. unfold iadd in E. destruct (negb _); [discriminate|].
  destruct (pref _ _ _) as [d|] eqn:Ed in E; cbn in E; [|discriminate]. injection E as <-. cbn in Hin.
  apply (pref_keys _ _ _ _ _ Ed) in Hin. revert Hin. apply dupdate_Forall; intros k' Hk'; unfold dkeys in Hk'; apply in_map_iff in Hk';
    destruct Hk' as ([k1 v1] & <- & Hin); [eapply Hx|eapply Hy]; eauto.
Qed.
Lemma add_term_keys dt (x answer z : elt K A) k v (P : K -> Prop) : add_term dt c x answer k v = Ok z -> keys_in P answer -> P (ckey c k) -> keys_in P z.
Proof.
  intros E Ha Hk. unfold add_term in E. destruct (create dt c x [(k, v)]) as [y|] eqn:Ey; cbn in E; [|discriminate].
  eapply iadd_keys; eauto. eapply create_keys; eauto. intros k' [<-|[]]. exact Hk.
Qed.
Lemma for_inv {S B} (I : S -> Prop) (l : list B) (body : S -> B -> res S) : 
  (forall s b s', In b l -> I s -> body s b = Ok s' -> I s') -> forall s s', I s -> for_ l s body = Ok s' -> I s'.
Proof.
  induction l as [|b l IH]; intros Hb s s' Hs E; cbn in E; [congruence|].
  destruct (body s b) as [s1|] eqn:E1; cbn in E; [|discriminate]. eapply IH; [| |exact E].
  - intros s0 b0 s0' Hin. apply Hb. now right.
  - eapply Hb; [now left| |exact E1]. exact Hs.
Qed.
End KeyObjects.

(** loops over pairs of terms *)
Lemma pair_loop_den {K A K1 K2} `{KO : KeyOk K} (c : pycls K) (Hc : cls_ok c) t (a : A)
  (d1 : dict K1) (d2 : dict K2) (body : elt K A -> (K1 * Z) * (K2 * Z) -> res (elt K A)) (Phi : K1 -> K2 -> (K -> Z) -> Z) :
  (forall k1 v1 k2 v2 F y, In (k1, v1) d1 -> In (k2, v2) d2 -> den c t a F y ->
     returns (body y ((k1, v1), (k2, v2))) (den c t a (fun g => F g + v1 * v2 * Phi k1 k2 g))) ->
  forall F y, den c t a F y ->
  returns (for_ (list_prod d1 d2) y body)
    (den c t a (fun g => F g + ev (fun k1 => ev (fun k2 => Phi k1 k2 g) d2) d1)).
Proof.
  intros Hb F y Hy. eapply returns_mono.
  - apply (for_den c t (list_prod d1 d2) body (fun p g => snd (fst p) * snd (snd p) * Phi (fst (fst p)) (fst (snd p)) g) a); [|exact Hy].
    intros [[k1 v1] [k2 v2]] F' y' Hin Hy'. apply in_prod_iff in Hin. cbn [fst snd]. apply Hb; tauto.
  - intros z Hz. eapply den_ext; [|exact Hz]. intros g Hg. cbn beta. apply eqm_eq. f_equal.
    rewrite sumf_list_prod. unfold ev at 1. apply sumf_ext. intros [k1 v1] _. cbn [fst snd].
    unfold ev. rewrite <- sumf_scal. apply sumf_ext. intros [k2 v2] _. cbn [fst snd]. ring.
Qed.
(** the simplest loop *)
Lemma loop_den {K A K1} `{KO : KeyOk K} (c : pycls K) (Hc : cls_ok c) t (a : A)
  (d1 : dict K1) (body : elt K A -> K1 * Z -> res (elt K A)) (Phi : K1 -> (K -> Z) -> Z) :
  (forall k1 v1 F y, In (k1, v1) d1 -> den c t a F y ->
     returns (body y (k1, v1)) (den c t a (fun g => F g + v1 * Phi k1 g))) ->
  forall F y, den c t a F y ->
  returns (for_ d1 y body) (den c t a (fun g => F g + ev (fun k1 => Phi k1 g) d1)).
Proof.
  intros Hb F y Hy. eapply returns_mono.
  - apply (for_den c t d1 body (fun p g => snd p * Phi (fst p) g) a); [|exact Hy].
    intros [k1 v1] F' y' Hin Hy'. cbn [fst snd]. apply Hb; tauto.
  - intros z Hz. eapply den_ext; [|exact Hz]. intros g Hg. cbn beta. apply eqm_eq. f_equal.
Qed.

(** ** Bilinear operations *)
Section Bil.
Context {K1 A1 K2 A2 K A : Type} `{KO1 : KeyOk K1} `{KO2 : KeyOk K2} `{KO : KeyOk K}.
Variable c1 : pycls K1.
Variable c2 : pycls K2.
Variable c : pycls K.
Hypothesis Hc1 : cls_ok c1.
Hypothesis Hc2 : cls_ok c2.
Hypothesis Hc : cls_ok c.
Variables (t : Z) (a1 : A1) (a2 : A2) (a : A).
Variables (P1 : K1 -> Prop) (P2 : K2 -> Prop) (Q : K -> Prop).
Variable Phi : (K -> Z) -> K1 -> K2 -> Z.
Variable f : elt K1 A1 -> elt K2 A2 -> res (elt K A).

Definition bilop : Prop := forall x y, wf c1 x -> torsion x = t -> attr x = a1 -> keys_in P1 x ->
  wf c2 y -> torsion y = t -> attr y = a2 -> keys_in P2 y ->
  returns (f x y) (den c t a (fun g => ev (fun k1 => ev (fun k2 => Phi g k1 k2) (data y)) (data x))).
Definition local2 : Prop := forall k1 k2, P1 k1 -> P2 k2 -> exists l : list K, (forall k, In k l -> Q k) /\
  (forall g h, (forall k, In k l -> g k = h k) -> Phi g k1 k2 = Phi h k1 k2) .
Definition adm2 : Prop := forall g, admP c Q g ->
  (forall k2, P2 k2 -> bad c2 k2 = Ok false -> admP c1 P1 (fun k1 => Phi g k1 k2)) /\
  (forall k1, P1 k1 -> bad c1 k1 = Ok false -> admP c2 P2 (fun k2 => Phi g k1 k2)).

Hypothesis Ht : 0 <= t.
Hypothesis HQ : kpred Q.
Hypothesis Hf : bilop.
Hypothesis HL : local2.
Hypothesis HA : adm2.
Hypothesis HZ : forall k1 k2, P1 k1 -> P2 k2 -> Phi (fun _ => 0) k1 k2 = 0.

Definition DBR (y : elt K2 A2) (g : K -> Z) (k1 : K1) : Z := ev (fun k2 => Phi g k1 k2) (data y).
Definition DBL (x : elt K1 A1) (g : K -> Z) (k2 : K2) : Z := ev (fun k1 => Phi g k1 k2) (data x).

Lemma dict_local {B} (d : dict B) (P : B -> Prop) (G : (K -> Z) -> B -> Z) : (forall k v, In (k, v) d -> P k) ->
  (forall k, P k -> exists l : list K, (forall k', In k' l -> Q k') /\ (forall g h, (forall k', In k' l -> g k' = h k') -> G g k = G h k)) ->
  exists l : list K, (forall k', In k' l -> Q k') /\ (forall g h, (forall k', In k' l -> g k' = h k') -> ev (G g) d = ev (G h) d).
Proof.
  intros Hd HP. induction d as [|[k v] d IH].
  - exists []. split; [intros ? []|reflexivity].
  - destruct IH as (l & L1 & L2); [intros; eapply Hd; right; eauto|].
    destruct (HP k) as (l' & L1' & L2'); [eapply Hd; left; eauto|]. exists (l' ++ l). split.
    + intros k' Hk'. apply in_app_iff in Hk'. destruct Hk'; auto.
    + intros g h E. rewrite !ev_cons. rewrite (L2 g h), (L2' g h); [reflexivity| |]; intros; apply E, in_or_app; auto.
Qed.
Lemma DBR_local y : keys_in P2 y -> local P1 Q (DBR y).
Proof. intros Ky k Hk. apply (dict_local (data y) P2 (fun g => Phi g k) Ky). intros k2 Hk2. now apply HL. Qed.
Lemma DBL_local x : keys_in P1 x -> local P2 Q (DBL x).
Proof. intros Kx k Hk. apply (dict_local (data x) P1 (fun g k1 => Phi g k1 k) Kx). intros k1 Hk1. now apply HL. Qed.
Lemma DBR_admop y : keys_in P2 y -> wf c2 y -> admop c1 c P1 Q (DBR y).
Proof.
  intros Ky Wy g Hg. split.
  - intros k k' E Pk. apply ev_ext. intros k2 v Hin. apply (proj1 (HA g Hg) k2); eauto. apply (proj2 (proj2 Wy) _ _ Hin).
  - intros k Pk Hb. apply ev_zero. intros k2 v Hin. apply (proj1 (HA g Hg) k2); eauto. apply (proj2 (proj2 Wy) _ _ Hin).
Qed.
Lemma DBL_admop x : keys_in P1 x -> wf c1 x -> admop c2 c P2 Q (DBL x).
Proof.
  intros Kx Wx g Hg. split.
  - intros k k' E Pk. apply ev_ext. intros k1 v Hin. apply (proj2 (HA g Hg) k1); eauto. apply (proj2 (proj2 Wx) _ _ Hin).
  - intros k Pk Hb. apply ev_zero. intros k1 v Hin. apply (proj2 (HA g Hg) k1); eauto. apply (proj2 (proj2 Wx) _ _ Hin).
Qed.
Lemma linop_bilR y : wf c2 y -> torsion y = t -> attr y = a2 -> keys_in P2 y ->
  linop c1 c t a1 a P1 Q (DBR y) (fun x => f x y).
Proof.
  intros Wy Ty Ay Ky. apply (linop_intro c1 c Hc); auto using DBR_local.
  - intros k Hk. apply ev_zero. intros k2 v Hin. apply HZ; eauto.
  - intros x Wx Tx Ax Kx. now apply Hf.
Qed.
Lemma ev_exch {B C} (G : B -> C -> Z) (d : dict B) (e : dict C) :
  ev (fun k1 => ev (fun k2 => G k1 k2) e) d = ev (fun k2 => ev (fun k1 => G k1 k2) d) e.
Proof.
  unfold ev. erewrite sumf_ext; [|intros p _; symmetry; apply sumf_scal]. rewrite sumf_exch.
  apply sumf_ext. intros [k2 v2] _. cbn [fst snd]. rewrite <- sumf_scal. apply sumf_ext. intros [k1 v1] _. cbn. ring.
Qed.
Lemma linop_bilL x : wf c1 x -> torsion x = t -> attr x = a1 -> keys_in P1 x ->
  linop c2 c t a2 a P2 Q (DBL x) (fun y => f x y).
Proof.
  intros Wx Tx Ax Kx. apply (linop_intro c2 c Hc); auto using DBL_local.
  - intros k Hk. apply ev_zero. intros k2 v Hin. apply HZ; eauto.
  - intros y Wy Ty Ay Ky. eapply returns_mono; [now apply Hf|].
    intros z Hz. eapply den_ext; [|exact Hz]. intros g Hg. apply eqm_eq. apply ev_exch.
Qed.
Lemma bilop_keys x y z : wf c1 x -> torsion x = t -> attr x = a1 -> keys_in P1 x ->
  wf c2 y -> torsion y = t -> attr y = a2 -> keys_in P2 y -> f x y = Ok z ->
  wf c z /\ torsion z = t /\ attr z = a /\ keys_in Q z.
Proof.
  intros Wx Tx Ax Kx Wy Ty Ay Ky E. destruct (linop_bilR y Wy Ty Ay Ky x Wx Tx Ax Kx) as (z' & E' & Hz & Kz).
  assert (z = z') as -> by congruence. split; [eapply den_wf; eauto|]. destruct Hz as (? & ? & _). auto.
Qed.
End Bil.

(** bilinearity, for use with [linop_add] *)
Lemma bilop_add_l {K1 A1 K2 A2 K A : Type} `{KO1 : KeyOk K1} `{KO2 : KeyOk K2} `{KO : KeyOk K}
  (c1 : pycls K1) (c2 : pycls K2) (c : pycls K) (Hc1 : cls_ok c1) (Hc2 : cls_ok c2) (Hc : cls_ok c)
  dt t (a1 : A1) (a2 : A2) (a : A) P1 P2 Q Phi f x x' y :
  0 <= t -> dt_ok dt t -> kpred P1 -> kpred Q -> bilop c1 c2 c t a1 a2 a P1 P2 Phi f -> local2 P1 P2 Q Phi -> adm2 c1 c2 c P1 P2 Q Phi ->
  (forall k1 k2, P1 k1 -> P2 k2 -> Phi (fun _ => 0) k1 k2 = 0) ->
  wf c1 x -> torsion x = t -> attr x = a1 -> keys_in P1 x ->
  wf c1 x' -> torsion x' = t -> attr x' = a1 -> keys_in P1 x' ->
  wf c2 y -> torsion y = t -> attr y = a2 -> keys_in P2 y ->
  same (let! s := add dt c1 x x' in f s y) (let! p := f x y in let! q := f x' y in add dt c p q).
Proof.
  intros. eapply (linop_add c1 c Hc1 Hc dt t a1 a P1 Q (DBR Phi y) (fun x => f x y)); eauto.
  - eapply (linop_bilR c1 c2 c Hc); eauto.
  - eapply (DBR_admop c1 c2 c); eauto.
Qed.
Lemma bilop_add_r {K1 A1 K2 A2 K A : Type} `{KO1 : KeyOk K1} `{KO2 : KeyOk K2} `{KO : KeyOk K}
  (c1 : pycls K1) (c2 : pycls K2) (c : pycls K) (Hc1 : cls_ok c1) (Hc2 : cls_ok c2) (Hc : cls_ok c)
  dt t (a1 : A1) (a2 : A2) (a : A) P1 P2 Q Phi f x y y' :
  0 <= t -> dt_ok dt t -> kpred P2 -> kpred Q -> bilop c1 c2 c t a1 a2 a P1 P2 Phi f -> local2 P1 P2 Q Phi -> adm2 c1 c2 c P1 P2 Q Phi ->
  (forall k1 k2, P1 k1 -> P2 k2 -> Phi (fun _ => 0) k1 k2 = 0) ->
  wf c1 x -> torsion x = t -> attr x = a1 -> keys_in P1 x ->
  wf c2 y -> torsion y = t -> attr y = a2 -> keys_in P2 y ->
  wf c2 y' -> torsion y' = t -> attr y' = a2 -> keys_in P2 y' ->
  same (let! s := add dt c2 y y' in f x s) (let! p := f x y in let! q := f x y' in add dt c p q).
Proof.
  intros. eapply (linop_add c2 c Hc2 Hc dt t a2 a P2 Q (DBL Phi x) (fun y => f x y)); eauto.
  - eapply (linop_bilL c1 c2 c Hc); eauto.
  - eapply (DBL_admop c1 c2 c); eauto.
Qed.

(** ** Dual operators given by formal sums *)
Definition rep {K K'} (P : K -> Prop) (Q : K' -> Prop) (D : (K' -> Z) -> K -> Z) : Prop :=
  forall k, P k -> exists T : dict K', (forall k' v, In (k', v) T -> Q k') /\ forall g, D g k = ev g T.
Definition rep2 {K1 K2 K} (P1 : K1 -> Prop) (P2 : K2 -> Prop) (Q : K -> Prop) (Phi : (K -> Z) -> K1 -> K2 -> Z) : Prop :=
  forall k1 k2, P1 k1 -> P2 k2 -> exists T : dict K, (forall k' v, In (k', v) T -> Q k') /\ forall g, Phi g k1 k2 = ev g T.
Lemma rep_local {K K'} P Q (D : (K' -> Z) -> K -> Z) : rep P Q D -> local P Q D.
Proof.
  intros HD k Hk. destruct (HD k Hk) as (T & HT1 & HT2). exists (dkeys T). split.
  - intros k' Hin. unfold dkeys in Hin. apply in_map_iff in Hin. destruct Hin as ([k0 v] & <- & Hin). eapply HT1; eauto.
  - intros g h E. rewrite !HT2. apply ev_ext. intros k' v Hin. apply E. now apply (in_map fst) in Hin.
Qed.
Lemma rep_zero {K K'} P Q (D : (K' -> Z) -> K -> Z) : rep P Q D -> forall k, P k -> D (fun _ => 0) k = 0.
Proof. intros HD k Hk. destruct (HD k Hk) as (T & HT1 & ->). now apply ev_zero. Qed.
Lemma rep_lin {K K' B} P Q (D : (K' -> Z) -> K -> Z) (G : K' -> B -> Z) (d : dict B) : rep P Q D -> forall k, P k ->
  D (fun p => ev (G p) d) k = ev (fun e => D (fun p => G p e) k) d.
Proof.
  intros HD k Hk. destruct (HD k Hk) as (T & HT1 & HT2). rewrite HT2. rewrite (ev_ext (fun e => D _ k) (fun e => ev (fun p => G p e) T)) by (intros; apply HT2).
  apply (ev_exch (fun p e => G p e)).
Qed.
Lemma rep_ext {K K'} P Q (D : (K' -> Z) -> K -> Z) g h k : rep P Q D -> P k -> (forall k', Q k' -> g k' = h k') -> D g k = D h k.
Proof.
  intros HD Hk E. destruct (HD k Hk) as (T & HT1 & HT2). rewrite !HT2. apply ev_ext. intros; apply E; eauto.
Qed.
Lemma rep_eqm {K K'} P Q (D : (K' -> Z) -> K -> Z) t g h k : rep P Q D -> P k -> (forall k', Q k' -> eqm t (g k') (h k')) -> eqm t (D g k) (D h k).
Proof.
  intros HD Hk E. destruct (HD k Hk) as (T & HT1 & HT2). rewrite !HT2. apply ev_eqm. intros; apply E; eauto.
Qed.
Lemma rep2_local2 {K1 K2 K} P1 P2 Q (Phi : (K -> Z) -> K1 -> K2 -> Z) : rep2 P1 P2 Q Phi -> local2 P1 P2 Q Phi.
Proof.
  intros HD k1 k2 H1 H2. destruct (HD k1 k2 H1 H2) as (T & HT1 & HT2). exists (dkeys T). split.
  - intros k' Hin. unfold dkeys in Hin. apply in_map_iff in Hin. destruct Hin as ([k0 v] & <- & Hin). eapply HT1; eauto.
  - intros g h E. rewrite !HT2. apply ev_ext. intros k' v Hin. apply E. now apply (in_map fst) in Hin.
Qed.
Lemma rep2_zero {K1 K2 K} P1 P2 Q (Phi : (K -> Z) -> K1 -> K2 -> Z) : rep2 P1 P2 Q Phi -> forall k1 k2, P1 k1 -> P2 k2 -> Phi (fun _ => 0) k1 k2 = 0.
Proof. intros HD k1 k2 H1 H2. destruct (HD k1 k2 H1 H2) as (T & HT1 & ->). now apply ev_zero. Qed.
Lemma rep2_lin {K1 K2 K B} P1 P2 Q (Phi : (K -> Z) -> K1 -> K2 -> Z) (G : K -> B -> Z) (d : dict B) : rep2 P1 P2 Q Phi -> forall k1 k2, P1 k1 -> P2 k2 ->
  Phi (fun p => ev (G p) d) k1 k2 = ev (fun e => Phi (fun p => G p e) k1 k2) d.
Proof.
  intros HD k1 k2 H1 H2. destruct (HD k1 k2 H1 H2) as (T & HT1 & HT2). rewrite HT2.
  rewrite (ev_ext (fun e => Phi _ k1 k2) (fun e => ev (fun p => G p e) T)) by (intros; apply HT2).
  apply (ev_exch (fun p e => G p e)).
Qed.
Lemma rep2_ext {K1 K2 K} P1 P2 Q (Phi : (K -> Z) -> K1 -> K2 -> Z) g h k1 k2 : rep2 P1 P2 Q Phi -> P1 k1 -> P2 k2 ->
  (forall k', Q k' -> g k' = h k') -> Phi g k1 k2 = Phi h k1 k2.
Proof.
  intros HD H1 H2 E. destruct (HD k1 k2 H1 H2) as (T & HT1 & HT2). rewrite !HT2. apply ev_ext. intros; apply E; eauto.
Qed.
Lemma rep2_R {K1 K2 A2 K} P1 P2 Q (Phi : (K -> Z) -> K1 -> K2 -> Z) (y : elt K2 A2) : rep2 P1 P2 Q Phi -> keys_in P2 y -> rep P1 Q (DBR Phi y).
Proof.
  intros HD Ky k Hk. unfold DBR. unfold keys_in in Ky. induction (data y) as [|[k2 v2] d IH].
  - exists []. split; [intros ? ? []|reflexivity].
  - destruct IH as (T & T1 & T2); [intros; eapply Ky; right; eauto|].
    destruct (HD k k2 Hk) as (T' & T1' & T2'); [eapply Ky; left; eauto|].
    exists (map (fun p => (fst p, v2 * snd p)) T' ++ T). split.
    + intros k' v Hin. apply in_app_iff in Hin. destruct Hin as [Hin|Hin]; [|eauto]. apply in_map_iff in Hin.
      destruct Hin as ([k0 v0] & [= <- <-] & Hin). eauto.
    + intros g. rewrite ev_cons, ev_app, ev_map_val, T2, T2'. reflexivity.
Qed.
Lemma rep2_L {K1 A1 K2 K} P1 P2 Q (Phi : (K -> Z) -> K1 -> K2 -> Z) (x : elt K1 A1) : rep2 P1 P2 Q Phi -> keys_in P1 x -> rep P2 Q (DBL Phi x).
Proof.
  intros HD Kx. change (DBL Phi x) with (DBR (fun g k2 k1 => Phi g k1 k2) x). apply (rep2_R P2 P1).
  - intros k2 k1 H2 H1. now apply HD.
  - exact Kx.
Qed.

(** a form on [K] seen from a class with [KeyEq]: admissibility is about bad keys only *)
Lemma admP_keyeq {K} `{KeyEq K} (c : pycls K) (P : K -> Prop) g : (forall k, P k -> bad c k = Ok true -> g k = 0) -> admP c P g.
Proof. intros Hg. split; [|exact Hg]. intros k k' E _. apply keqb_eq in E. now subst. Qed.

(** associativity of bilinear operations, on elements from the basis *)
Lemma bilop_assoc {K1 A1 K2 A2 K3 A3 Kp Ap Kq Aq K A} `{KO1 : KeyOk K1} `{KO2 : KeyOk K2} `{KO3 : KeyOk K3} `{KOp : KeyOk Kp} `{KOq : KeyOk Kq} `{KO : KeyOk K}
  (c1 : pycls K1) (c2 : pycls K2) (c3 : pycls K3) (cp : pycls Kp) (cq : pycls Kq) (c : pycls K)
  (Hcp : cls_ok cp) (Hcq : cls_ok cq) (Hc : cls_ok c)
  t (a1 : A1) (a2 : A2) (a3 : A3) (ap : Ap) (aq : Aq) (a : A) P1 P2 P3 Pp Pq Q Phi1 Phi2 Phi3 Phi4 f1 f2 f3 f4 x y z :
  0 <= t -> kpred Pp -> kpred Pq ->
  bilop c1 c2 cp t a1 a2 ap P1 P2 Phi1 f1 -> rep2 P1 P2 Pp Phi1 ->
  bilop cp c3 c t ap a3 a Pp P3 Phi2 f2 -> adm2 cp c3 c Pp P3 Q Phi2 ->
  bilop c2 c3 cq t a2 a3 aq P2 P3 Phi3 f3 -> rep2 P2 P3 Pq Phi3 ->
  bilop c1 cq c t a1 aq a P1 Pq Phi4 f4 -> adm2 c1 cq c P1 Pq Q Phi4 ->
  (forall g k1 k2 k3, adm c g -> P1 k1 -> P2 k2 -> P3 k3 -> bad c1 k1 = Ok false -> bad c2 k2 = Ok false -> bad c3 k3 = Ok false ->
     eqm t (Phi1 (fun p => Phi2 g p k3) k1 k2) (Phi3 (fun q => Phi4 g k1 q) k2 k3)) ->
  wf c1 x -> torsion x = t -> attr x = a1 -> keys_in P1 x ->
  wf c2 y -> torsion y = t -> attr y = a2 -> keys_in P2 y ->
  wf c3 z -> torsion z = t -> attr z = a3 -> keys_in P3 z ->
  same (let! p := f1 x y in f2 p z) (let! q := f3 y z in f4 x q).
Proof.
  intros Ht KPp KPq B1 R1 B2 AD2 B3 R3 B4 AD4 Heq Wx Tx Ax Kx Wy Ty Ay Ky Wz Tz Az Kz.
  assert (Hgood : forall (KK AA : Type) (PK : PyKey KK) (cc : pycls KK) (w : elt KK AA) k v, wf cc w -> In (k, v) (data w) -> bad cc k = Ok false).
  { intros KK AA PK cc w k v [_ [_ W]] Hin. now apply (W _ _ Hin). }
  eapply (same_den c Hc t a).
  - exact Ht.
  - eapply returns_bind.
    + apply (linop_bilR c1 c2 cp Hcp t a1 a2 ap P1 P2 Pp Phi1 f1 Ht KPp B1 (rep2_local2 _ _ _ _ R1) (rep2_zero _ _ _ _ R1) y Wy Ty Ay Ky x Wx Tx Ax Kx).
    + intros p [Dp Kp']. eapply returns_mono; [apply B2|].
      * eapply den_wf; eauto.
      * now destruct Dp.
      * now destruct Dp as (_ & ? & _).
      * exact Kp'.
      * exact Wz.
      * exact Tz.
      * exact Az.
      * exact Kz.
      * intros w Dw. eapply den_ext; [|exact Dw]. intros g Hg. cbn beta.
        destruct (local_list P1 Pp (DBR Phi1 y) (data x) (rep_local _ _ _ (rep2_R _ _ _ _ y R1 Ky)) Kx) as (l & L1 & L2).
        apply (den_ev_on cp Hcp t ap _ p Pp (DBR Phi2 z g) l KPp Dp Kp').
        -- apply (DBR_admop cp c3 c Pp P3 Q Phi2 AD2 z Kz Wz). now apply adm_admP.
        -- intros h Hh. apply eqm_eq. apply L2. auto.
  - eapply returns_bind.
    + apply (linop_bilR c2 c3 cq Hcq t a2 a3 aq P2 P3 Pq Phi3 f3 Ht KPq B3 (rep2_local2 _ _ _ _ R3) (rep2_zero _ _ _ _ R3) z Wz Tz Az Kz y Wy Ty Ay Ky).
    + intros q [Dq Kq']. eapply returns_mono; [apply B4|].
      * exact Wx.
      * exact Tx.
      * exact Ax.
      * exact Kx.
      * eapply den_wf; eauto.
      * now destruct Dq.
      * now destruct Dq as (_ & ? & _).
      * exact Kq'.
      * intros w Dw. eapply den_ext; [|exact Dw]. intros g Hg. cbn beta. rewrite ev_exch.
        destruct (local_list P2 Pq (DBR Phi3 z) (data y) (rep_local _ _ _ (rep2_R _ _ _ _ z R3 Kz)) Ky) as (l & L1 & L2).
        apply (den_ev_on cq Hcq t aq _ q Pq (DBL Phi4 x g) l KPq Dq Kq').
        -- apply (DBL_admop c1 cq c P1 Pq Q Phi4 AD4 x Kx Wx). now apply adm_admP.
        -- intros h Hh. apply eqm_eq. apply L2. auto.
  - intros g Hg. cbn beta. unfold DBR, DBL.
    transitivity (ev (fun k1 => ev (fun k2 => ev (fun k3 => Phi1 (fun p => Phi2 g p k3) k1 k2) (data z)) (data y)) (data x)).
    { apply eqm_eq. apply ev_ext. intros k1 v1 Hi1. apply ev_ext. intros k2 v2 Hi2.
      apply (rep2_lin P1 P2 Pp Phi1 (fun p k3 => Phi2 g p k3)); eauto. }
    transitivity (ev (fun k2 => ev (fun k3 => ev (fun k1 => Phi3 (fun q => Phi4 g k1 q) k2 k3) (data x)) (data z)) (data y)).
    2:{ apply eqm_eq. apply ev_ext. intros k2 v2 Hi2. apply ev_ext. intros k3 v3 Hi3. symmetry.
        apply (rep2_lin P2 P3 Pq Phi3 (fun q k1 => Phi4 g k1 q)); eauto. }
    rewrite ev_exch. apply ev_eqm. intros k2 v2 Hi2. rewrite ev_exch. apply ev_eqm. intros k3 v3 Hi3. apply ev_eqm. intros k1 v1 Hi1.
    apply Heq; eauto.
Qed.
