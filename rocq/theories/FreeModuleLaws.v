(** * Laws of the generic free module element (C01-C07, C09). *)
From Coq Require Import Setoid Morphisms Znumtheory.
From Verif Require Import PyBase Dict FreeModule Eqm Spec FreeModuleFacts.

(** ** Tools to prove [same] *)
Lemma same_den {K A} `{KeyOk K} (c : pycls K) (Hc : cls_ok c) t (a : A) F G r r' :
  0 <= t -> returns r (den c t a F) -> returns r' (den c t a G) ->
  (forall g, adm c g -> eqm t (F g) (G g)) -> same r r'.
Proof.
  intros Ht (x & -> & Hx) (y & -> & Hy) E. exists x, y. split; [reflexivity|]. split; [reflexivity|].
  split; [eapply den_eqb; eauto|]. destruct Hx as (-> & -> & _), Hy as (-> & -> & _). auto.
Qed.

Lemma same_refl_returns {K A} `{KeyOk K} (r r' : res (elt K A)) : r = r' -> (exists x, r = Ok x) -> same r r'.
Proof.
  intros <- [x ->]. exists x, x. repeat split; auto. unfold elt_eqb. now apply dict_eqb_dget.
Qed.
Lemma same_sym {K A} `{KeyOk K} (r r' : res (elt K A)) : same r r' -> same r' r.
Proof.
  intros (x & y & E1 & E2 & E3 & E4 & E5). exists y, x. repeat split; auto.
  unfold elt_eqb in *. apply dict_eqb_dget. intros k. symmetry. revert k. now apply dict_eqb_dget.
Qed.
Lemma same_trans {K A} `{KeyOk K} (r r' r'' : res (elt K A)) : same r r' -> same r' r'' -> same r r''.
Proof.
  intros (x & y & E1 & E2 & E3 & E4 & E5) (y' & z & F1 & F2 & F3 & F4 & F5).
  rewrite E2 in F1. injection F1 as <-. exists x, z. repeat split; try congruence; auto.
  unfold elt_eqb in *. apply dict_eqb_dget. intros k.
  transitivity (dget (data y) k); revert k; now apply dict_eqb_dget.
Qed.

(** solve [returns _ (den _ _ _ _)] goals by the rules for the operations *)
Ltac den_step :=
  lazymatch goal with
  | |- returns (bind _ _) _ => eapply returns_bind; [ | let y := fresh "y" in let Hy := fresh "Hy" in intros y Hy; cbn beta in Hy ]
  | |- returns (add _ _ _ _) _ => eapply add_den; try eassumption
  | |- returns (sub _ _ _ _) _ => eapply sub_den; try eassumption
  | |- returns (scale _ _ _ _) _ => eapply scale_den; try eassumption
  | |- returns (neg _ _ _) _ => eapply neg_den; try eassumption
  | |- returns (iadd _ _ _) _ => eapply iadd_den; try eassumption
  | |- returns (isub _ _ _) _ => eapply isub_den; try eassumption
  | |- returns (zero _ _ _) _ => eapply zero_den; try eassumption
  end.

Section Laws.
Context {K A : Type} `{KO : KeyOk K}.
Variable c : pycls K.
Hypothesis Hc : cls_ok c.

Lemma den_tors t (a : A) F y : den c t a F y -> torsion y = t.
Proof. now intros (-> & _). Qed.
Lemma den_attr t (a : A) F y : den c t a F y -> attr y = a.
Proof. now intros (_ & -> & _). Qed.

Lemma zero_den' dt t a F (x : elt K A) : 0 <= t -> dt_ok dt t -> den c t a F x ->
  returns (zero dt c x) (den c t a (fun _ => 0)).
Proof.
  intros Ht Hd Hx. destruct Hx as (E & <- & _). now apply zero_den.
Qed.
End Laws.

Ltac wfd x :=
  match goal with
  | Hx : wf ?c x |- _ => pose proof (den_self c x Hx)
  end.

(** #C01_constructor# Whatever the data and the torsion (or the class
    default), a constructed element is canonical. *)
Lemma C01_constructor_l {K A} `{KeyOk K} (c : pycls K) (dt : Z) (d : dict K) (ot : option Z) (a : A) (x : elt K A) :
  cls_ok c -> 0 <= match ot with Some t => t | None => dt end ->
  new dt c d ot a = Ok x -> wf c x.
Proof.
  intros Hc Ht E. unfold new in E. set (t := match ot with Some t => t | None => dt end) in *.
  destruct (pref c t (convert c d)) as [d'|] eqn:Ep; cbn in E; [|discriminate]. injection E as <-.
  apply pref_inv in Ep. destruct Ep as [-> Hk]. split; [exact Ht|]. cbn.
  apply prefd_canonical; auto. apply dict_of_distinct.
Qed.

Lemma pref_wf {K A} `{KeyOk K} (c : pycls K) t d d' : 0 <= t -> kdistinct (dkeys d) -> pref c t d = Ok d' ->
  forall a : A, wf c (mkElt d' t a).
Proof.
  intros Ht Hd E a. apply pref_inv in E. destruct E as [-> Hk]. split; [exact Ht|]. cbn. now apply prefd_canonical.
Qed.

(** #C01_create# [x.create(d)] is canonical, for any data [d]. *)
Lemma C01_create_l {K A} `{KeyOk K} (c : pycls K) (dt : Z) (x y : elt K A) (d : dict K) :
  cls_ok c -> 0 <= dt -> 0 <= torsion x -> create dt c x d = Ok y -> wf c y.
Proof.
  intros Hc Hdt Ht E. unfold create in E.
  destruct (pref c dt (convert c d)) as [d1|] eqn:E1; cbn in E; [|discriminate].
  destruct (pref c (torsion x) d1) as [d2|] eqn:E2; cbn in E; [|discriminate]. injection E as <-.
  eapply pref_wf; eauto. exact (proj1 (proj2 (pref_wf (A := unit) c dt _ _ Hdt (dict_of_distinct _) E1 tt))).
Qed.

(** #C01_operations# Sums, differences, multiples, negatives, quotients, in
    place sums and differences, changes of torsion and [zero()] of canonical
    elements are canonical (whenever they return, whatever [default_torsion]). *)
Lemma C01_operations_l {K A} `{KeyOk K} (c : pycls K) (dt : Z) (x y z : elt K A) (n : Z) :
  cls_ok c -> 0 <= dt -> wf c x -> wf c y -> 
  (add dt c x y = Ok z \/ sub dt c x y = Ok z \/ scale dt c n x = Ok z \/ neg dt c x = Ok z \/
   truediv dt c x n = Ok z \/ iadd c x y = Ok z \/ isub c x y = Ok z \/ zero dt c x = Ok z \/
   (0 <= n /\ set_torsion c x n = Ok z)) -> wf c z.
Proof.
  intros Hc Hdt Hx Hy E. pose proof (proj1 Hx) as Htx.
  destruct E as [E|[E|[E|[E|[E|[E|[E|[E|[Hn E]]]]]]]]].
  - unfold add in E. destruct (negb _); [discriminate|].
    destruct (create dt c x (data x)) as [w|] eqn:Ew; cbn in E; [|discriminate].
    apply C01_create_l in Ew; auto.
    destruct (pref _ _ _) as [d|] eqn:Ed in E; cbn in E; [|discriminate]. injection E as <-.
    refine (pref_wf c _ _ _ _ _ Ed _); [assumption|]. apply dupdate_distinct, Ew.
  - unfold sub in E. destruct (negb _); [discriminate|].
    destruct (create dt c x (data x)) as [w|] eqn:Ew; cbn in E; [|discriminate].
    apply C01_create_l in Ew; auto.
    destruct (pref _ _ _) as [d|] eqn:Ed in E; cbn in E; [|discriminate]. injection E as <-.
    refine (pref_wf c _ _ _ _ _ Ed _); [assumption|]. apply dsubtract_distinct, Ew.
  - exact (C01_create_l c dt x z _ Hc Hdt Htx E).
  - exact (C01_create_l c dt x z _ Hc Hdt Htx E).
  - unfold truediv in E. destruct (torsion x =? 0); [discriminate|].
    destruct (py_pow_inv _ _); cbn in E; [|discriminate]. exact (C01_create_l c dt x z _ Hc Hdt Htx E).
  - unfold iadd in E. destruct (negb _); [discriminate|].
    destruct (pref _ _ _) as [d|] eqn:Ed in E; cbn in E; [|discriminate]. injection E as <-.
    refine (pref_wf c _ _ _ _ _ Ed _); [assumption|]. apply dupdate_distinct, Hx.
  - unfold isub in E. destruct (negb _); [discriminate|].
    destruct (pref _ _ _) as [d|] eqn:Ed in E; cbn in E; [|discriminate]. injection E as <-.
    refine (pref_wf c _ _ _ _ _ Ed _); [assumption|]. apply dsubtract_distinct, Hx.
  - rewrite zero_data in E. injection E as <-. split; [exact Htx|]. apply canonical_nil.
  - unfold set_torsion in E. destruct (pref _ _ _) as [d|] eqn:Ed in E; cbn in E; [|discriminate]. injection E as <-.
    refine (pref_wf c _ _ _ _ _ Ed _); [assumption|]. apply Hx.
Qed.

Ltac same_tac Hc t :=
  eapply (same_den _ Hc t); [ eassumption || lia | | | ].

(** #C02_add_assoc# *)
Lemma C02_add_assoc_l {K A} `{KeyOk K} (c : pycls K) (dt : Z) (x y z : elt K A) :
  cls_ok c -> wf c x -> wf c y -> wf c z -> torsion y = torsion x -> torsion z = torsion x ->
  attr y = attr x -> dt_ok dt (torsion x) ->
  same (let! s := add dt c x y in add dt c s z) (let! s := add dt c y z in add dt c x s).
Proof.
  intros Hc Hx Hy Hz Ey Ez Ea Hdt. pose proof (proj1 Hx) as Ht. wfd x. wfd y. wfd z. rewrite ?Ey, ?Ez, ?Ea in *.
  eapply (same_den c Hc (torsion x)); [assumption| | |].
  - repeat den_step.
  - repeat den_step.
  - intros g Hg. cbn beta. now rewrite Z.add_assoc.
Qed.

(** #C02_add_comm# *)
Lemma C02_add_comm_l {K A} `{KeyOk K} (c : pycls K) (dt : Z) (x y : elt K A) :
  cls_ok c -> wf c x -> wf c y -> torsion y = torsion x -> attr y = attr x -> dt_ok dt (torsion x) ->
  same (add dt c x y) (add dt c y x).
Proof.
  intros Hc Hx Hy Ey Ea Hdt. pose proof (proj1 Hx) as Ht. wfd x. wfd y. rewrite ?Ey, ?Ea in *.
  eapply (same_den c Hc (torsion x)); [assumption| | |].
  - repeat den_step.
  - repeat den_step.
  - intros g Hg. cbn beta. now rewrite Z.add_comm.
Qed.

(** #C02_add_zero# [x + x.zero() == x == x.zero() + x], and [zero()] is empty. *)
Lemma C02_add_zero_l {K A} `{KeyOk K} (c : pycls K) (dt : Z) (x : elt K A) :
  cls_ok c -> wf c x -> dt_ok dt (torsion x) ->
  same (let! o := zero dt c x in add dt c x o) (Ok x) /\
  same (let! o := zero dt c x in add dt c o x) (Ok x) /\
  zero dt c x = Ok (mkElt [] (torsion x) (attr x)).
Proof.
  intros Hc Hx Hdt. pose proof (proj1 Hx) as Ht. wfd x. split; [|split; [|apply zero_data]].
  - eapply (same_den c Hc (torsion x)); [assumption| | |].
    + den_step; [eapply zero_den'; eauto|]. den_step.
    + apply returns_ok. eassumption.
    + intros g Hg. cbn beta. now rewrite Z.add_0_r.
  - eapply (same_den c Hc (torsion x)); [assumption| | |].
    + den_step; [eapply zero_den'; eauto|]. den_step.
    + apply returns_ok. eassumption.
    + intros g Hg. reflexivity.
Qed.

(** #C02_sub_add_neg# *)
Lemma C02_sub_add_neg_l {K A} `{KeyOk K} (c : pycls K) (dt : Z) (x y : elt K A) :
  cls_ok c -> wf c x -> wf c y -> torsion y = torsion x -> dt_ok dt (torsion x) ->
  same (sub dt c x y) (let! n := neg dt c y in add dt c x n).
Proof.
  intros Hc Hx Hy Ey Hdt. pose proof (proj1 Hx) as Ht. wfd x. wfd y. rewrite ?Ey in *.
  eapply (same_den c Hc (torsion x)); [assumption| | |].
  - repeat den_step.
  - repeat den_step.
  - intros g Hg. cbn beta. reflexivity.
Qed.

(** #C02_sub_self# *)
Lemma C02_sub_self_l {K A} `{KeyOk K} (c : pycls K) (dt : Z) (x : elt K A) :
  cls_ok c -> wf c x -> dt_ok dt (torsion x) ->
  same (sub dt c x x) (zero dt c x) /\ same (let! n := neg dt c x in add dt c x n) (zero dt c x).
Proof.
  intros Hc Hx Hdt. pose proof (proj1 Hx) as Ht. wfd x. split.
  - eapply (same_den c Hc (torsion x)); [assumption| | |].
    + repeat den_step.
    + eapply zero_den'; eauto.
    + intros g Hg. cbn beta. now rewrite Z.sub_diag.
  - eapply (same_den c Hc (torsion x)); [assumption| | |].
    + repeat den_step.
    + eapply zero_den'; eauto.
    + intros g Hg. cbn beta. now rewrite Z.add_opp_diag_r.
Qed.

(** #C02_inplace# [+=] and [-=] compute what [+] and [-] compute. *)
Lemma C02_inplace_l {K A} `{KeyOk K} (c : pycls K) (dt : Z) (x y : elt K A) :
  cls_ok c -> wf c x -> wf c y -> torsion y = torsion x -> dt_ok dt (torsion x) ->
  same (iadd c x y) (add dt c x y) /\ same (isub c x y) (sub dt c x y).
Proof.
  intros Hc Hx Hy Ey Hdt. pose proof (proj1 Hx) as Ht. wfd x. wfd y. rewrite ?Ey in *.
  split; (eapply (same_den c Hc (torsion x)); [assumption| | |]); repeat den_step; intros g Hg; reflexivity.
Qed.

(** #C02_coefficients# The coefficient of every basis element in [x + y],
    [x - y], [-x], [n * x] is the sum, ... of the coefficients in Z/t. *)
Lemma C02_coefficients_l {K A} `{KeyOk K} (c : pycls K) (dt : Z) (x y : elt K A) (n : Z) :
  cls_ok c -> wf c x -> wf c y -> torsion y = torsion x -> dt_ok dt (torsion x) ->
  exists s d m i, add dt c x y = Ok s /\ sub dt c x y = Ok d /\ scale dt c n x = Ok m /\ neg dt c x = Ok i /\
    forall k, let t := torsion x in
      (t | dget (data s) k - (dget (data x) k + dget (data y) k)) /\
      (t | dget (data d) k - (dget (data x) k - dget (data y) k)) /\
      (t | dget (data m) k - n * dget (data x) k) /\
      (t | dget (data i) k + dget (data x) k).
Proof.
  intros Hc Hx Hy Ey Hdt. pose proof (proj1 Hx) as Ht. wfd x. wfd y. rewrite ?Ey in *.
  match goal with Hx : den _ _ _ _ x, Hy : den _ _ _ _ y |- _ =>
    destruct (add_den c Hc dt _ Ht Hdt _ _ _ _ _ _ Hx Hy) as (s & Es & Hs);
    destruct (sub_den c Hc dt _ Ht Hdt _ _ _ _ _ _ Hx Hy) as (d & Ed & Hd);
    destruct (scale_den c Hc dt _ Ht Hdt _ _ n _ Hx) as (m & Em & Hm);
    destruct (neg_den c Hc dt _ Ht Hdt _ _ _ Hx) as (i & Ei & Hi)
  end.
  exists s, d, m, i. repeat (split; [assumption|]). intros k t.
  destruct (bad c k) as [[]|] eqn:Eb.
  1,3: assert (Z0 : forall e0 : elt K A, canonical c (torsion x) (data e0) -> dget (data e0) k = 0);
       [ intros e0 [_ He]; apply dget_notin; intros k' Hk'; destruct (keqb k' k) eqn:E; [|reflexivity]; exfalso;
         apply in_map_iff in Hk'; destruct Hk' as ([k1 v1] & <- & Hin); apply He in Hin; cbn in E;
         rewrite (proj1 Hc _ _ E), Eb in Hin; now destruct Hin |];
       rewrite !Z0 by (first [apply Hs | apply Hd | apply Hm | apply Hi | apply H1 | apply H2]);
       rewrite ?Z.mul_0_r; cbn; repeat split; apply Z.divide_0_r.
  assert (Ev : forall (e : elt K A) F a, den c (torsion x) a F e -> eqm (torsion x) (dget (data e) k) (F (ind k))).
  { intros e F a He. rewrite <- dget_ind by apply He. apply He. now apply adm_ind. }
  pose proof (Ev _ _ _ Hs) as Vs. pose proof (Ev _ _ _ Hd) as Vd. pose proof (Ev _ _ _ Hm) as Vm.
  pose proof (Ev _ _ _ Hi) as Vi. cbn beta in *.
  rewrite !dget_ind in * by (apply Hx || apply Hy). unfold eqm in *.
  replace (dget (data i) k + dget (data x) k) with (dget (data i) k - - dget (data x) k) by ring. auto.
Qed.

(** #C03_module_laws# *)
Lemma C03_module_laws_l {K A} `{KeyOk K} (c : pycls K) (dt : Z) (x y : elt K A) (a b : Z) :
  cls_ok c -> wf c x -> wf c y -> torsion y = torsion x -> dt_ok dt (torsion x) ->
  same (scale dt c (a * b) x) (let! z := scale dt c b x in scale dt c a z) /\
  same (scale dt c (a + b) x) (let! p := scale dt c a x in let! q := scale dt c b x in add dt c p q) /\
  same (let! s := add dt c x y in scale dt c a s)
       (let! p := scale dt c a x in let! q := scale dt c a y in add dt c p q) /\
  same (scale dt c 1 x) (Ok x) /\
  same (scale dt c 0 x) (zero dt c x) /\
  same (scale dt c (torsion x) x) (zero dt c x) /\
  same (scale dt c (-1) x) (neg dt c x).
Proof.
  intros Hc Hx Hy Ey Hdt. pose proof (proj1 Hx) as Ht. wfd x. wfd y. rewrite ?Ey in *.
  repeat split; (eapply (same_den c Hc (torsion x)); [assumption| | |]);
    try (repeat den_step; fail); try (eapply zero_den'; eauto; fail); try (apply returns_ok; eassumption);
    intros g Hg; cbn beta.
  - now rewrite Z.mul_assoc.
  - now rewrite Z.mul_add_distr_r.
  - now rewrite Z.mul_add_distr_l.
  - now rewrite Z.mul_1_l.
  - reflexivity.
  - exists (ev g (data x)). ring.
  - now replace (-1 * ev g (data x)) with (- ev g (data x)) by ring.
Qed.

Lemma py_pow_inv_spec a n : 0 < n ->
  match py_pow_inv a n with
  | Ok i => 0 <= i < n /\ eqm n (a * i) 1
  | Err e => e = ValueError /\ ~ rel_prime a n
  end.
Proof.
  intros Hn. unfold py_pow_inv. destruct (find _ _) as [i|] eqn:E.
  - apply find_some in E. destruct E as [Hi E]. apply in_zrange in Hi. split; [lia|].
    apply Z.eqb_eq in E. rewrite <- (eqm_mod n (a * i)), E, eqm_mod by lia. reflexivity.
  - split; [reflexivity|]. intros Hrp. apply rel_prime_bezout in Hrp. destruct Hrp as [u v Huv].
    pose proof (find_none _ _ E (u mod n)) as Hf. cbn beta in Hf.
    rewrite Z.mul_mod_idemp_r in Hf by lia.
    replace (a * u) with (1 + (- v) * n) in Hf by lia. rewrite Z_mod_plus_full, Z.eqb_refl in Hf.
    discriminate Hf. apply in_zrange. apply Z.mod_pos_bound. lia.
Qed.
Lemma eqm_inv_rel_prime a i n : eqm n (a * i) 1 -> rel_prime a n.
Proof.
  intros [q Hq]. apply bezout_rel_prime. apply Bezout_intro with i (- q). lia.
Qed.

(** #C04_division# For torsion [t > 0]: when [n] is coprime to [t], [x / n]
    returns the unique element [y] with [n * y == x]; otherwise [ValueError]. *)
Lemma C04_division_l {K A} `{KeyOk K} (c : pycls K) (dt : Z) (x : elt K A) (n : Z) :
  cls_ok c -> wf c x -> 0 < torsion x -> dt_ok dt (torsion x) ->
  (rel_prime n (torsion x) ->
     exists y, truediv dt c x n = Ok y /\ wf c y /\ torsion y = torsion x /\
       same (scale dt c n y) (Ok x) /\
       forall z, wf c z -> torsion z = torsion x -> attr z = attr x -> same (scale dt c n z) (Ok x) ->
         elt_eqb z y = true) /\
  (~ rel_prime n (torsion x) -> truediv dt c x n = Err ValueError).
Proof.
  intros Hc Hx Hpos Hdt. pose proof (proj1 Hx) as Ht. wfd x. unfold truediv.
  replace (torsion x =? 0) with false by (symmetry; apply Z.eqb_neq; lia).
  pose proof (py_pow_inv_spec n (torsion x) Hpos) as Hs.
  destruct (py_pow_inv n (torsion x)) as [i|e]; cbn.
  - destruct Hs as [Hi Hs]. split.
    + intros _. pose proof (scale_den c Hc dt (torsion x) Ht Hdt _ _ i x H1) as Hr.
      unfold scale in Hr. destruct Hr as (y & Ey & Hy). exists y. split; [exact Ey|].
      split; [eapply den_wf; eauto|]. split; [apply Hy|]. split.
      * eapply (same_den c Hc (torsion x)); [assumption| | |].
        -- den_step.
        -- apply returns_ok. eassumption.
        -- intros g Hg. cbn beta. rewrite Z.mul_assoc, Hs. now rewrite Z.mul_1_l.
      * intros z Hz Etz Eaz Hsame.
        pose proof (den_self c z Hz) as Dz. rewrite Etz, Eaz in Dz.
        destruct Hsame as (w & x' & Ew & E1 & E2 & E3 & E4). injection E1 as <-.
        destruct (scale_den c Hc dt (torsion x) Ht Hdt _ _ n z Dz) as (w' & Ew' & Dw).
        rewrite Ew in Ew'. injection Ew' as <-.
        eapply (den_eqb c Hc (torsion x)); [exact Ht|exact Dz|exact Hy|].
        intros g Hg. cbn beta.
        assert (Ewx : ev g (data w) = ev g (data x)).
        { apply dict_eqb_ev; auto; [apply Hg|apply Dw|apply Hx]. }
        rewrite <- Ewx. rewrite (den_ev c _ _ _ _ g Dw Hg). cbn beta.
        rewrite Z.mul_assoc, (Z.mul_comm i n), Hs. now rewrite Z.mul_1_l.
    + intros Hn. exfalso. apply Hn. eapply eqm_inv_rel_prime; eauto.
  - destruct Hs as [-> Hs]. split; [intros Hr; contradiction|auto].
Qed.

(** #C04_division_torsion_zero# *)
Lemma C04_division_torsion_zero_l {K A} `{KeyOk K} (c : pycls K) (dt : Z) (x : elt K A) (n : Z) :
  torsion x = 0 -> truediv dt c x n = Err TypeError.
Proof. intros E. unfold truediv. now rewrite E. Qed.

(** #C05_torsion_mismatch# *)
Lemma C05_torsion_mismatch_l {K A} `{KeyOk K} (c : pycls K) (dt : Z) (x y : elt K A) :
  torsion x <> torsion y ->
  add dt c x y = Err TypeError /\ sub dt c x y = Err TypeError /\
  iadd c x y = Err TypeError /\ isub c x y = Err TypeError.
Proof.
  intros E. apply Z.eqb_neq in E. unfold add, sub, iadd, isub. rewrite E. auto.
Qed.

(** #C06_equality# [==] holds exactly when all coefficients agree. *)
Lemma C06_equality_l {K A} `{KeyOk K} (x y : elt K A) :
  elt_eqb x y = true <-> (forall k, dget (data x) k = dget (data y) k).
Proof. apply dict_eqb_dget. Qed.

Lemma kdistinct_incl_perm {K} `{KeyOk K} (l l' : list K) : kdistinct l -> kdistinct l' ->
  (forall k, In k l -> exists k', In k' l' /\ keqb k k' = true) ->
  (forall k, In k l' -> exists k', In k' l /\ keqb k k' = true) ->
  exists l'', Permutation l'' l' /\ Forall2 (fun a b => keqb a b = true) l l''.
Proof.
  revert l'. induction l as [|a l IH]; intros l' D D' H1 H2.
  - destruct l' as [|b l']; [exists []; auto|]. destruct (H2 b) as (? & [] & _). now left.
  - destruct (H1 a) as (b & Hb & Eab); [now left|].
    apply in_split in Hb. destruct Hb as (l1 & l2 & ->). cbn [kdistinct] in D. destruct D as [D1 D2].
    assert (D'2 : kdistinct (l1 ++ l2) /\ (forall k, In k (l1 ++ l2) -> keqb k b = false)).
    { clear -D' H0. induction l1 as [|e l1 IH]; cbn [app kdistinct] in *.
      - split; [apply D'|]. intros k Hk. apply keqb_false_sym. now apply D'.
      - destruct D' as [D1 D2]. apply IH in D2. destruct D2 as [D2 D3]. split.
        + split; [|exact D2]. intros k Hk. apply D1. apply in_app_or in Hk. apply in_or_app. cbn. tauto.
        + intros k [<-|Hk]; [|auto]. apply D1. apply in_or_app. cbn. tauto. }
    destruct D'2 as [D'2 D'3].
    destruct (IH (l1 ++ l2) D2 D'2) as (l'' & P & F).
    + intros k Hk. destruct (H1 k) as (k' & Hk' & E); [now right|]. exists k'. split; [|exact E].
      apply in_app_or in Hk'. cbn in Hk'. apply in_or_app. destruct Hk' as [?|[<-|?]]; auto.
      exfalso. pose proof (D1 k Hk) as N. rewrite (keqb_trans _ _ _ Eab (keqb_sym _ _ E)) in N. discriminate.
    + intros k Hk. destruct (H2 k) as (k' & Hk' & E).
      { apply in_app_or in Hk. apply in_or_app. cbn. tauto. }
      exists k'. split; [|exact E]. destruct Hk' as [<-|?]; [|auto].
      exfalso. pose proof (D'3 k Hk) as N. rewrite (keqb_trans _ _ _ E Eab) in N. discriminate.
    + exists (b :: l''). split.
      * apply Permutation_cons_app. exact P.
      * constructor; assumption.
Qed.

(** #C06_hash# Equal canonical elements have the same set of keys up to key
    equality, so any hash of the frozenset of keys agrees. *)
Lemma C06_hash_l {K A} `{KeyOk K} (c : pycls K) (x y : elt K A) :
  wf c x -> wf c y -> elt_eqb x y = true ->
  (forall (T : Type) (hash : list K -> T),
     (* a hash of frozensets: invariant under reordering and under replacing
        keys by equal keys *)
     (forall l l', Permutation l l' -> hash l = hash l') ->
     (forall l l', Forall2 (fun a b => keqb a b = true) l l' -> hash l = hash l') ->
     hash (hash_keys x) = hash (hash_keys y)).
Proof.
  intros [Tx Hx] [Ty Hy] E T hash HP HF. unfold elt_eqb in E. rewrite dict_eqb_dget in E.
  assert (Hin : forall (t : Z) (d e : dict K), canonical c t d -> (forall k, dget d k = dget e k) ->
            forall k, In k (dkeys d) -> exists k', In k' (dkeys e) /\ keqb k k' = true).
  { intros t d e [Hd Hd'] Hde k Hk. apply in_map_iff in Hk. destruct Hk as ([k1 v] & <- & Hin).
    pose proof (proj1 (proj1 (Hd' _ _ Hin))) as Hv.
    pose proof (dget_in _ _ _ Hd Hin) as Hg. cbn. rewrite Hde in Hg.
    destruct (existsb (fun k' => keqb k1 k') (dkeys e)) eqn:Ex.
    - apply existsb_exists in Ex. destruct Ex as (k' & ? & ?). eauto.
    - exfalso. rewrite dget_notin in Hg; [congruence|]. intros k' Hk'.
      destruct (keqb k' k1) eqn:E'; [|reflexivity]. apply keqb_sym in E'.
      assert (existsb (fun k' => keqb k1 k') (dkeys e) = true); [|congruence].
      apply existsb_exists. eauto. }
  unfold hash_keys.
  destruct (kdistinct_incl_perm (dkeys (data x)) (dkeys (data y))) as (l'' & P & F).
  - apply Hx.
  - apply Hy.
  - apply (Hin (torsion x)); auto.
  - apply (Hin (torsion y)); auto.
  - rewrite (HF _ _ F). now apply HP.
Qed.

(** #C07_set_torsion# [set_torsion(n)] replaces every coefficient by its residue. *)
Lemma C07_set_torsion_l {K A} `{KeyOk K} (c : pycls K) (x : elt K A) (n : Z) :
  cls_ok c -> wf c x -> 0 <= n ->
  exists y, set_torsion c x n = Ok y /\ wf c y /\ torsion y = n /\ attr y = attr x /\
    forall k, dget (data y) k = if n =? 0 then dget (data x) k else dget (data x) k mod n.
Proof.
  intros Hc Hx Hn. unfold set_torsion. rewrite pref_ok by (eapply canonical_okey; apply Hx).
  cbn. eexists. split; [reflexivity|]. split.
  { split; [exact Hn|]. cbn. apply prefd_canonical; [exact Hn|apply Hx|eapply canonical_okey; apply Hx]. }
  split; [reflexivity|]. split; [reflexivity|]. cbn [data].
  destruct Hx as [_ [Hd Hb]]. revert Hd Hb. generalize (data x) as d. intros d Hd Hb k.
  unfold prefd. induction d as [|[k1 v] d IH].
  - unfold reduce. destruct (n =? 0); cbn; [reflexivity|now destruct n].
  - cbn [dkeys map fst kdistinct] in Hd. destruct Hd as [Hd1 Hd2].
    assert (IH' := IH Hd2 (fun k v Hin => Hb k v (or_intror Hin))). clear IH.
    assert (Hz : zb c (k1, v) = (k1, v)).
    { unfold zb. cbn. now rewrite (proj2 (Hb k1 v (or_introl eq_refl))). }
    cbn [map]. rewrite Hz. unfold reduce in *.
    assert (Hnot : keqb k1 k = true -> dget d k = 0).
    { intros E. apply dget_notin. intros k' Hk'. apply Hd1 in Hk'.
      rewrite (keqb_cong_r _ _ _ E) in Hk'. now apply keqb_false_sym. }
    destruct (n =? 0) eqn:En; unfold strip in *; cbn [filter snd fst map].
    + destruct (v =? 0) eqn:Ev; cbn [negb dget fst snd].
      * rewrite IH'. destruct (keqb k1 k) eqn:E; [|reflexivity]. rewrite Hnot by reflexivity. apply Z.eqb_eq in Ev. congruence.
      * rewrite IH'. reflexivity.
    + apply Z.eqb_neq in En. destruct (v mod n =? 0) eqn:Ev; cbn [negb dget fst snd].
      * rewrite IH'. destruct (keqb k1 k) eqn:E; [|reflexivity]. rewrite Hnot by reflexivity.
        apply Z.eqb_eq in Ev. rewrite Ev. now destruct n.
      * rewrite IH'. now destruct (keqb k1 k).
Qed.

Lemma set_torsion_den2 {K A} `{KeyOk K} (c : pycls K) (Hc : cls_ok c) t a F (x : elt K A) t' :
  0 <= t -> 0 <= t' -> (t' | t) -> den c t a F x ->
  returns (set_torsion c x t') (den c t' a F).
Proof.
  intros Ht Ht' Hd Hx. pose proof (den_wf c _ _ _ _ Ht Hx) as Hw.
  destruct (set_torsion_den c x t' Hw Ht') as (y & Ey & Hy). exists y. split; [exact Ey|].
  destruct Hx as (Ex & <- & _ & Hev). eapply den_ext; [|exact Hy]. intros g Hg.
  eapply eqm_trans_div; eauto.
Qed.

(** #C07_reduction_is_additive# Reducing commutes with sums, differences and
    multiples (from Z, or from Z/t to Z/t' with t' | t). *)
Lemma C07_reduction_is_additive_l {K A} `{KeyOk K} (c : pycls K) (dt : Z) (x y : elt K A) (n a : Z) :
  cls_ok c -> wf c x -> wf c y -> torsion y = torsion x -> dt_ok dt (torsion x) -> dt_ok dt n ->
  0 <= n -> (n | torsion x) ->
  same (let! s := add dt c x y in set_torsion c s n)
       (let! p := set_torsion c x n in let! q := set_torsion c y n in add dt c p q) /\
  same (let! s := sub dt c x y in set_torsion c s n)
       (let! p := set_torsion c x n in let! q := set_torsion c y n in sub dt c p q) /\
  same (let! s := scale dt c a x in set_torsion c s n)
       (let! p := set_torsion c x n in scale dt c a p).
Proof.
  intros Hc Hx Hy Ey Hdt Hdn Hn Hdiv. pose proof (proj1 Hx) as Ht. wfd x. wfd y. rewrite ?Ey in *.
  repeat split; (eapply (same_den c Hc n); [assumption| | |]);
    repeat (first [den_step | eapply (set_torsion_den2 c Hc (torsion x)); eassumption]);
    intros g Hg; reflexivity.
Qed.

(** #C07_iterated# Reducing mod n and then mod m is reducing mod m when m | n. *)
Lemma C07_iterated_l {K A} `{KeyOk K} (c : pycls K) (x : elt K A) (n m : Z) :
  cls_ok c -> wf c x -> 0 <= n -> 0 <= m -> (m | n) ->
  same (let! y := set_torsion c x n in set_torsion c y m) (set_torsion c x m).
Proof.
  intros Hc Hx Hn Hm Hdiv. eapply (same_den c Hc m); [assumption| | |].
  - eapply returns_bind; [apply (set_torsion_den c x n); auto|]. intros y Hy.
    eapply (set_torsion_den2 c Hc n); eauto.
  - apply (set_torsion_den c x m); auto.
  - intros g Hg. reflexivity.
Qed.

(** #C09_independence# For two values of [default_torsion] compatible with
    the torsion of the elements (0, or a multiple of it), all operations
    compute the same elements. *)
Lemma C09_independence_l {K A} `{KeyOk K} (c : pycls K) (dt dt' : Z) (x y : elt K A) (n : Z) (d : dict K) :
  cls_ok c -> wf c x -> wf c y -> torsion y = torsion x -> dt_ok dt (torsion x) -> dt_ok dt' (torsion x) ->
  same (add dt c x y) (add dt' c x y) /\ same (sub dt c x y) (sub dt' c x y) /\
  same (scale dt c n x) (scale dt' c n x) /\ same (neg dt c x) (neg dt' c x) /\
  (kdistinct (dkeys d) -> (forall k, In k (dkeys d) -> exists b, bad c k = Ok b) ->
   same (create dt c x d) (create dt' c x d)).
Proof.
  intros Hc Hx Hy Ey Hdt Hdt'. pose proof (proj1 Hx) as Ht. wfd x. wfd y. rewrite ?Ey in *.
  split; [|split; [|split; [|split]]].
  1-4: eapply (same_den c Hc (torsion x)); [assumption| | |]; [den_step|den_step|intros g Hg; reflexivity].
  intros Hd Hk. eapply (same_den c Hc (torsion x)); [assumption| | |].
  - apply create_den with (t := torsion x); auto.
  - apply create_den with (t := torsion x); auto.
  - reflexivity.
Qed.

(** #C09_refuted# With [default_torsion = 2], adding zero to the element
    [a] of torsion 3 with coefficient 2 loses it. *)
Lemma C09_refuted_l : exists (dt : Z) (x : elt Z unit),
  wf (cls_free Z) x /\ torsion x = 3 /\
  ~ same (add dt (cls_free Z) x x) (add 0 (cls_free Z) x x).
Proof.
  exists 2, (mkElt [(7, 2)] 3 tt). split; [|split; [reflexivity|]].
  - split; [cbn; lia|]. split; [cbn; tauto|]. intros k v [[= <- <-]|[]]. split; [|reflexivity]. split; cbn; lia.
  - intros (a & b & Ea & Eb & E & _). vm_compute in Ea, Eb. injection Ea as <-. injection Eb as <-. discriminate E.
Qed.
