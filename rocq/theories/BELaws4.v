(** * Property theorems of the Barratt-Eccles operad: composition. *)
From Coq Require Import Setoid Morphisms.
From Verif Require Import PyBase Dict FreeModule Symmetric Simplicial Utils Surjection BarrattEccles Eqm Spec SpecOperad FreeModuleFacts FreeModuleLaws ListFacts
  ClassFacts LinearFacts BilFacts SymmetricFacts CycleFacts SymmetricLaws RingFacts TensorAct LoopFacts ActGeneric BEFacts EZ BECompose.

Lemma fdB_fd g s : fdB g s = fd g s.
Proof. revert g. induction s as [|v w IH]; intros g; [reflexivity|]. now rewrite fdB_cons, fd_cons, IH. Qed.
Lemma Pcomp_chain i g k1 k2 : g [] = 0 ->
  Pcomp i (fdB g) k1 k2 = fdB (fun u => Pcomp i g u k2) k1 + sgn (zlen k1 - 1) * fdB (fun u => Pcomp i g k1 u) k2.
Proof.
  intros G0. unfold Pcomp. rewrite (EE_ext (gc i) (fdB g) (fd g)) by (intros; apply fdB_fd). rewrite EE_chain, !fdB_fd, G0. rewrite Z.mul_0_r, Z.add_0_r. reflexivity.
Qed.
(** ** C37 *)
(** #C37_compose_formula# The composite of two basis elements is the signed sum
    over the lattice paths in the grid of their entries; at every vertex of the
    path the two permutations are composed.  Extended bilinearly. *)
Lemma C37_compose_formula_l (dt n1 n2 p q i : Z) (x y : bee) :
  1 <= n1 -> 1 <= n2 -> 1 <= i <= n1 -> wf cls_be x -> wf cls_be y -> torsion y = torsion x -> dt_ok dt (torsion x) ->
  keys_in (be_cell n1 p) x -> keys_in (be_cell n2 q) y -> ~ is_zero x -> ~ is_zero y ->
  gives cls_be (be_compose dt x y i) (torsion x) tt (extend2 (grid_paths (insert_at i)) x y).
Proof.
  intros Hn1 Hn2 Hi Wx Wy Ty Hdt Kx Ky Nx Ny. pose proof (proj1 Wx) as Ht.
  eapply (den_gives cls_be ok_be); [exact Ht|apply (compose_den dt (torsion x) n1 n2 p q i); auto|]. intros g _. cbn beta. rewrite ev_extend2. reflexivity.
Qed.
(** #C37_compose_degree# The composite has arity n1 + n2 - 1 and degree p + q. *)
Lemma C37_compose_degree_l (dt n1 n2 p q i : Z) (x y : bee) :
  1 <= n1 -> 1 <= n2 -> 1 <= i <= n1 -> wf cls_be x -> wf cls_be y -> torsion y = torsion x -> dt_ok dt (torsion x) ->
  keys_in (be_cell n1 p) x -> keys_in (be_cell n2 q) y -> ~ is_zero x -> ~ is_zero y ->
  exists z, be_compose dt x y i = Ok z /\ wf cls_be z /\ torsion z = torsion x /\ keys_in (be_cell (n1 + n2 - 1) (p + q)) z.
Proof.
  intros Hn1 Hn2 Hi Wx Wy Ty Hdt Kx Ky Nx Ny. pose proof (proj1 Wx) as Ht.
  destruct (linop_bilR cls_be cls_be cls_be ok_be (torsion x) tt tt tt _ _ _ _ _ Ht (kpred_bdeg (n1 + n2 - 1) (p + q)) (bil_compose dt (torsion x) n1 n2 p q i Ht Hdt Hn1 Hn2 Hi)
    (rep2_local2 _ _ _ _ (rep_compose n1 n2 p q i Hn1 Hn2 Hi)) (rep2_zero _ _ _ _ (rep_compose n1 n2 p q i Hn1 Hn2 Hi)) y Wy Ty (be_attr y) Ky x Wx eq_refl (be_attr x) Kx) as (z & E & Dz & Kz).
  exists z. split.
  - etransitivity; [|exact E]. unfold compose0, extended, is_zero in *. destruct (data x); [congruence|]. destruct (data y); [congruence|]. reflexivity.
  - split; [eapply den_wf; eauto|]. split; [exact (proj1 Dz)|exact Kz].
Qed.
(** #C37_bilinear# Composition (extended by zero) is additive in both arguments. *)
Lemma C37_bilinear_l (dt n1 n2 p q i : Z) (x x' y y' : bee) :
  1 <= n1 -> 1 <= n2 -> 1 <= i <= n1 -> wf cls_be x -> wf cls_be x' -> wf cls_be y -> wf cls_be y' ->
  torsion x' = torsion x -> torsion y = torsion x -> torsion y' = torsion x -> dt_ok dt (torsion x) ->
  keys_in (be_cell n1 p) x -> keys_in (be_cell n1 p) x' -> keys_in (be_cell n2 q) y -> keys_in (be_cell n2 q) y' ->
  let comp := extended dt cls_be (fun a b => be_compose dt a b i) in
  same (let! s := add dt cls_be x x' in comp s y) (let! u := comp x y in let! v := comp x' y in add dt cls_be u v) /\
  same (let! s := add dt cls_be y y' in comp x s) (let! u := comp x y in let! v := comp x y' in add dt cls_be u v).
Proof.
  intros Hn1 Hn2 Hi Wx Wx' Wy Wy' Tx' Ty Ty' Hdt Kx Kx' Ky Ky'. pose proof (proj1 Wx) as Ht.
  pose proof (bil_compose dt (torsion x) n1 n2 p q i Ht Hdt Hn1 Hn2 Hi) as B. pose proof (rep_compose n1 n2 p q i Hn1 Hn2 Hi) as R. pose proof (adm_compose n1 n2 p q i Hn1 Hn2 Hi) as AD.
  split.
  - eapply (bilop_add_l cls_be cls_be cls_be ok_be ok_be ok_be dt (torsion x)); eauto using kpred_bdeg, be_attr; [eapply rep2_local2; eauto|eapply rep2_zero; eauto].
  - eapply (bilop_add_r cls_be cls_be cls_be ok_be ok_be ok_be dt (torsion x)); eauto using kpred_bdeg, be_attr; [eapply rep2_local2; eauto|eapply rep2_zero; eauto].
Qed.
(** #C37_chain_map# d(x o_i y) == dx o_i y + (-1)^p x o_i dy, extended by zero. *)
Lemma C37_chain_map_l (dt n1 n2 p q i : Z) (x y : bee) :
  1 <= n1 -> 1 <= n2 -> 1 <= i <= n1 -> wf cls_be x -> wf cls_be y -> torsion y = torsion x -> dt_ok dt (torsion x) ->
  keys_in (be_cell n1 p) x -> keys_in (be_cell n2 q) y ->
  let comp := extended dt cls_be (fun a b => be_compose dt a b i) in
  same (let! z := comp x y in be_boundary dt z)
       (let! dx := be_boundary dt x in let! u := comp dx y in
        let! dy := be_boundary dt y in let! v := comp x dy in let! w := scale dt cls_be (sgn p) v in add dt cls_be u w).
Proof.
  intros Hn1 Hn2 Hi Wx Wy Ty Hdt Kx Ky. pose proof (proj1 Wx) as Ht. intros comp.
  pose proof (bil_compose dt (torsion x) n1 n2 p q i Ht Hdt Hn1 Hn2 Hi) as B0. pose proof (rep_compose n1 n2 p q i Hn1 Hn2 Hi) as R0.
  pose proof (bil_compose dt (torsion x) n1 n2 (p - 1) q i Ht Hdt Hn1 Hn2 Hi) as B1. pose proof (rep_compose n1 n2 (p - 1) q i Hn1 Hn2 Hi) as R1. pose proof (adm_compose n1 n2 (p - 1) q i Hn1 Hn2 Hi) as AD1.
  pose proof (bil_compose dt (torsion x) n1 n2 p (q - 1) i Ht Hdt Hn1 Hn2 Hi) as B2. pose proof (rep_compose n1 n2 p (q - 1) i Hn1 Hn2 Hi) as R2. pose proof (adm_compose n1 n2 p (q - 1) i Hn1 Hn2 Hi) as AD2.
  replace (p - 1 + q) with (p + q - 1) in R1, AD1 by lia. replace (p + (q - 1)) with (p + q - 1) in R2, AD2 by lia.
  eapply (bil_leibniz cls_be cls_be cls_be ok_be ok_be ok_be dt (torsion x) (sgn p) tt tt tt (be_cell n1 p) (be_cell n1 (p - 1)) (be_cell n2 q) (be_cell n2 (q - 1))
    (be_cell (n1 + n2 - 1) (p + q)) (be_cell (n1 + n2 - 1) (p + q - 1)) (be_cell (n1 + n2 - 1) (p + q - 1)) fdB fdB fdB (Pcomp i)); eauto using kpred_bdeg, be_attr.
  - apply linop_beb; auto using kpred_bdeg, face_deg.
  - apply rep_fdB, face_deg.
  - apply linop_beb; auto using kpred_bdeg, face_deg.
  - apply rep_fdB, face_deg.
  - apply linop_beb; auto using kpred_bdeg, face_deg.
  - apply adm_fdB, face_deg.
  - intros g k1 k2 [_ Hg] [_ L1] _ _ _. apply eqm_eq. rewrite Pcomp_chain by (apply Hg; reflexivity). now rewrite L1, Z.add_simpl_r.
Qed.
(** #C37_example# The hypotheses hold for ((1,2),(2,1)) and ((1,2),(2,1)); the
    composite at position 1 has two terms. *)
Example C37_example_l : 
  exists x z, be_new 0 [([[1; 2]; [2; 1]], 1)] None = Ok x /\ wf cls_be x /\ keys_in (be_cell 2 1) x /\ ~ is_zero x /\ be_compose 0 x x 1 = Ok z /\
    data z = [([[1; 2; 3]; [2; 1; 3]; [3; 2; 1]], -1); ([[1; 2; 3]; [3; 1; 2]; [3; 2; 1]], 1)].
Proof.
  eexists. eexists. split; [vm_compute; reflexivity|]. split.
  - split; [cbn; lia|]. split; [split; [intros ? []|exact I]|]. intros k v [[= <- <-]|[]]. split; [split; [discriminate|cbn; lia]|reflexivity].
  - split; [|split; [discriminate|split; vm_compute; reflexivity]].
    intros k v [[= <- <-]|[]]. split; [|reflexivity]. intros p [<-|[<-|[]]]; unfold perm; vm_compute; [reflexivity|apply perm_swap].
Qed.
(** ** C38 *)
(** #C38_sequential# (x o_i y) o_{i-1+j} z == x o_i (y o_j z), extended by zero. *)
Lemma C38_sequential_l (dt n1 n2 n3 p q r i j : Z) (x y z : bee) :
  1 <= n1 -> 1 <= n2 -> 1 <= n3 -> 1 <= i <= n1 -> 1 <= j <= n2 ->
  wf cls_be x -> wf cls_be y -> wf cls_be z -> torsion y = torsion x -> torsion z = torsion x -> dt_ok dt (torsion x) ->
  keys_in (be_cell n1 p) x -> keys_in (be_cell n2 q) y -> keys_in (be_cell n3 r) z ->
  let comp i := extended dt cls_be (fun a b => be_compose dt a b i) in
  same (let! xy := comp i x y in comp (i - 1 + j) xy z) (let! yz := comp j y z in comp i x yz).
Proof.
  intros Hn1 Hn2 Hn3 Hi Hj Wx Wy Wz Ty Tz Hdt Kx Ky Kz. pose proof (proj1 Wx) as Ht. intros comp.
  assert (Hij : 1 <= i - 1 + j <= n1 + n2 - 1) by lia. assert (Hn12 : 1 <= n1 + n2 - 1) by lia. assert (Hn23 : 1 <= n2 + n3 - 1) by lia.
  eapply (bilop_assoc cls_be cls_be cls_be cls_be cls_be cls_be ok_be ok_be ok_be (torsion x) tt tt tt tt tt tt (be_cell n1 p) (be_cell n2 q) (be_cell n3 r) _ _ _
     (Pcomp i) (Pcomp (i - 1 + j)) (Pcomp j) (Pcomp i)); eauto using kpred_bdeg, be_attr, bil_compose, rep_compose, adm_compose.
  - replace (be_cell (n1 + n2 - 1 + n3 - 1) (p + q + r)) with (be_cell (n1 + (n2 + n3 - 1) - 1) (p + (q + r))) by (f_equal; lia). now apply adm_compose.
  - intros g k1 k2 k3 _ [K1 _] [K2 _] [K3 _] _ _ _. apply eqm_eq. unfold Pcomp. apply (EE_assoc (gc i) (gc (i - 1 + j)) (gc j) (gc i) _ k1 k2 k3 g (Nat.le_refl _)).
    intros a b c Ha Hb Hc'. unfold gc. apply (gcomp_seq n1 n2); auto.
Qed.
(** #C38_parallel# (x o_i y) o_{k-1+n2} z == (-1)^{|y||z|} (x o_k z) o_i y for i < k, extended by zero. *)
Lemma C38_parallel_l (dt n1 n2 n3 p q r i k : Z) (x y z : bee) :
  1 <= n1 -> 1 <= n2 -> 1 <= n3 -> 1 <= i -> i < k <= n1 ->
  wf cls_be x -> wf cls_be y -> wf cls_be z -> torsion y = torsion x -> torsion z = torsion x -> dt_ok dt (torsion x) ->
  keys_in (be_cell n1 p) x -> keys_in (be_cell n2 q) y -> keys_in (be_cell n3 r) z ->
  let comp i := extended dt cls_be (fun a b => be_compose dt a b i) in
  same (let! xy := comp i x y in comp (k - 1 + n2) xy z) (let! xz := comp k x z in let! w := comp i xz y in scale dt cls_be (sgn (q * r)) w).
Proof.
  intros Hn1 Hn2 Hn3 Hi Hk Wx Wy Wz Ty Tz Hdt Kx Ky Kz. pose proof (proj1 Wx) as Ht. intros comp.
  assert (Hij : 1 <= k - 1 + n2 <= n1 + n2 - 1) by lia. assert (Hn12 : 1 <= n1 + n2 - 1) by lia. assert (Hn13 : 1 <= n1 + n3 - 1) by lia.
  assert (Hi' : 1 <= i <= n1) by lia. assert (Hk' : 1 <= k <= n1) by lia. assert (Hi'' : 1 <= i <= n1 + n3 - 1) by lia.
  eapply (bil_parallel cls_be cls_be cls_be cls_be cls_be cls_be ok_be ok_be ok_be dt (torsion x) (sgn (q * r)) tt tt tt tt tt tt (be_cell n1 p) (be_cell n2 q) (be_cell n3 r) _ _ _ _
     (Pcomp i) (Pcomp (k - 1 + n2)) (Pcomp k) (Pcomp i)); eauto using kpred_bdeg, be_attr, bil_compose, rep_compose, adm_compose.
  intros g k1 k2 k3 _ [K1 _] [K2 L2] [K3 L3] _ _ _. apply eqm_eq. unfold Pcomp.
  pose proof (EE_parallel (gc i) (gc (k - 1 + n2)) (gc k) (gc i) _ k1 k2 k3 g (Nat.le_refl _)) as H. unfold LL in H. rewrite L2, L3, !Z.add_simpl_r in H. apply H.
  intros a b c Ha Hb Hc'. unfold gc. apply (gcomp_par n1 n2 n3); auto; lia.
Qed.
(** #C38_unit# The basis element ((1)) is a unit for composition, at every position. *)
Lemma C38_unit_l (dt n p i : Z) (x : bee) : 1 <= n -> 1 <= i <= n -> wf cls_be x -> dt_ok dt (torsion x) -> keys_in (be_cell n p) x ->
  let comp i := extended dt cls_be (fun a b => be_compose dt a b i) in
  same (let! e := be_new dt [([[1]], 1)] (Some (torsion x)) in comp i x e) (Ok x) /\
  same (let! e := be_new dt [([[1]], 1)] (Some (torsion x)) in comp 1 e x) (Ok x).
Proof.
  intros Hn Hi Wx Hdt Kx. pose proof (proj1 Wx) as Ht. intros comp. assert (H11 : 1 <= 1) by lia. assert (H111 : 1 <= 1 <= 1) by lia.
  assert (HE : returns (be_new dt [([[1]], 1)] (Some (torsion x))) (fun e => den cls_be (torsion x) tt (fun g => ev g [([[1]], 1)]) e /\ keys_in (be_cell 1 0) e)).
  { destruct (new_den cls_be ok_be dt (torsion x) (Some (torsion x)) tt [([[1]], 1)] eq_refl Ht) as (e & Ee & De); [split; [intros ? []|exact I]|intros; apply be_okey|].
    exists e. split; [exact Ee|]. split; [exact De|]. eapply (den_keys cls_be ok_be); [exact Ht|apply kpred_bdeg|exact De|].
    intros g _ Hg. cbn beta. rewrite ev_cons, ev_nil, Hg; [apply eqm_eq; ring|]. split; [|reflexivity]. intros q [<-|[]]. unfold perm. vm_compute. reflexivity. }
  destruct HE as (e & Ee & De & Ke). rewrite Ee. cbn [bind].
  assert (We : wf cls_be e) by (eapply den_wf; eauto). pose proof (den_self cls_be x Wx) as Dx. rewrite be_attr in Dx.
  split.
  - eapply (same_den cls_be ok_be (torsion x) tt); [exact Ht| |apply returns_ok; exact Dx|].
    + apply (bil_compose dt (torsion x) n 1 p 0 i Ht Hdt Hn H11 Hi x e Wx eq_refl (be_attr x) Kx We (proj1 De) (be_attr e) Ke).
    + intros g Hg. cbn beta. rewrite ev_exch.
      pose proof (den_ev_on cls_be ok_be (torsion x) tt _ e (be_cell 1 0) (DBL (Pcomp i) x g) [[[1]]] (kpred_bdeg 1 0) De Ke) as E. cbn beta in E.
      unfold DBL in E at 1. rewrite E.
      * unfold DBL. rewrite ev_cons, ev_nil. apply eqm_eq. rewrite Z.mul_1_l, Z.add_0_r. apply ev_ext. intros k v Hin. unfold Pcomp. rewrite EE_single_r.
        pose proof (good_ne x k v Wx Hin). destruct k as [|a k]; [congruence|]. f_equal. rewrite <- (map_id (a :: k)) at 2. apply map_ext. intros b. apply gcomp_unit_r.
      * apply (DBL_admop cls_be cls_be cls_be _ _ _ _ (adm_compose n 1 p 0 i Hn H11 Hi) x Kx Wx). now apply adm_admP.
      * intros h Hh. rewrite !ev_cons, !ev_nil, Hh; [reflexivity| |now left]. split; [|reflexivity]. intros q [<-|[]]. unfold perm. vm_compute. reflexivity.
  - eapply (same_den cls_be ok_be (torsion x) tt); [exact Ht| |apply returns_ok; exact Dx|].
    + apply (bil_compose dt (torsion x) 1 n 0 p 1 Ht Hdt H11 Hn H111 e x We (proj1 De) (be_attr e) Ke Wx eq_refl (be_attr x) Kx).
    + intros g Hg. cbn beta.
      pose proof (den_ev_on cls_be ok_be (torsion x) tt _ e (be_cell 1 0) (DBR (Pcomp 1) x g) [[[1]]] (kpred_bdeg 1 0) De Ke) as E. cbn beta in E.
      unfold DBR in E at 1. rewrite E.
      * unfold DBR. rewrite ev_cons, ev_nil. apply eqm_eq. rewrite Z.mul_1_l, Z.add_0_r. apply ev_ext. intros k v Hin. unfold Pcomp. rewrite EE_single_l.
        pose proof (good_ne x k v Wx Hin). destruct k as [|a k]; [congruence|]. f_equal. rewrite <- (map_id (a :: k)) at 2. apply map_ext. intros b. apply gcomp_unit_l.
      * apply (DBR_admop cls_be cls_be cls_be _ _ _ _ (adm_compose 1 n 0 p 1 H11 Hn H111) x Kx Wx). now apply adm_admP.
      * intros h Hh. rewrite !ev_cons, !ev_nil, Hh; [reflexivity| |now left]. split; [|reflexivity]. intros q [<-|[]]. unfold perm. vm_compute. reflexivity.
Qed.
