(** * Printing (C67, C68). *)
From Coq Require Import Ascii String.
From Verif Require Import PyBase Dict FreeModule Symmetric Simplicial Cubical Surjection BarrattEccles Spec FreeModuleFacts Printing SpecPrint PrintFacts LatexFacts.
Import ListNotations.

Lemma wf_nz {K A} `{PyKey K} (c : pycls K) (x : elt K A) : wf c x -> nz (data x).
Proof. intros W k v Hin. now apply (proj2 (proj2 W) k v Hin). Qed.
Lemma tuples_head k : exists w, shown_tuples k = "("%char :: w. Proof. apply tup_head. Qed.
Lemma ints_head k : exists w, shown_ints k = "("%char :: w. Proof. apply tup_head. Qed.
Lemma str_tuples {A} (x : elt (list (list Z)) A) : nz (data x) -> (let! s := str_dict repr_tuples (data x) in Ok (replace ", " "," s)) = Ok (shown shown_tuples (data x)).
Proof. intros H. rewrite str_dict_shown by exact H. cbn [bind]. f_equal. apply shown_C. apply tuples_C. Qed.
Lemma str_ints {A} (x : elt (list Z) A) : nz (data x) -> (let! s := str_dict repr_ints (data x) in Ok (replace ", " "," s)) = Ok (shown shown_ints (data x)).
Proof. intros H. rewrite str_dict_shown by exact H. cbn [bind]. f_equal. apply shown_C. apply ints_C. Qed.
Lemma str_sg_C p : str_sg p = shown_ints p.
Proof. unfold str_sg. rewrite <- (app_nil_r (repr_ints p)), ints_C. apply app_nil_r. Qed.

(** #C67_simplex# Simplices, cubes and permutations print as tuples without spaces. *)
Lemma C67_simplex_l (s : list Z) : str_simplex s = shown_ints s /\ str_cube s = shown_ints s /\ str_sg s = shown_ints s.
Proof. repeat split; apply str_sg_C. Qed.
(** #C67_simplicial# [str] never fails and prints every term, coefficient first. *)
Lemma C67_simplicial_l (x : simp) : wf cls_simplicial x -> str_simplicial x = Ok (shown shown_tuples (data x)).
Proof. intros W. apply str_tuples. eapply wf_nz; eauto. Qed.
(** #C67_cubical# *)
Lemma C67_cubical_l (x : cubc) : wf cls_cubical x -> str_cubical x = Ok (shown shown_tuples (data x)).
Proof. intros W. apply str_tuples. eapply wf_nz; eauto. Qed.
(** #C67_barratt_eccles# *)
Lemma C67_barratt_eccles_l (x : bee) : wf cls_be x -> str_be x = Ok (shown shown_tuples (data x)).
Proof. intros W. apply str_tuples. eapply wf_nz; eauto. Qed.
(** #C67_surjection# *)
Lemma C67_surjection_l (x : surj) : wf cls_surj x -> str_surj x = Ok (shown shown_ints (data x)).
Proof. intros W. apply str_ints. eapply wf_nz; eauto. Qed.
(** #C67_ring# Group elements and plain tuples print alike. *)
Lemma C67_ring_l (x : ring) : wf cls_ring x -> str_ring x = Ok (shown (fun k => shown_ints (kval k)) (data x)).
Proof.
  intros W. unfold str_ring. rewrite str_dict_shown by (eapply wf_nz; eauto). cbn [bind]. f_equal. apply shown_C. intros k s. destruct (is_sge k); [rewrite str_sg_C; apply C_idem_ints|apply ints_C].
Qed.

Lemma faithful {K A} (key : K -> pystr) (x y : elt K A) : code key (fun _ => True) -> (forall k, exists w, key k = "("%char :: w) -> nz (data x) -> nz (data y) ->
  (Ok (shown key (data x)) = Ok (shown key (data y)) <-> data x = data y) /\ (Ok (shown key (data x)) = Ok (lit "0") <-> is_zero x).
Proof.
  intros HK Hh Hx Hy. split; split.
  - intros [= E]. now apply (shown_inj key HK Hh) in E.
  - now intros ->.
  - intros [= E]. now apply (shown_zero key HK Hh) in E.
  - unfold is_zero. now intros ->.
Qed.
(** #C67_faithful_simplicial# Two elements print the same exactly if they have
    the same terms in the same order; only zero prints as [0]. *)
Lemma C67_faithful_simplicial_l (x y : simp) : wf cls_simplicial x -> wf cls_simplicial y ->
  (str_simplicial x = str_simplicial y <-> data x = data y) /\ (str_simplicial x = Ok (lit "0") <-> is_zero x).
Proof. intros Wx Wy. rewrite !C67_simplicial_l by assumption. apply faithful; auto using code_tuples, tuples_head; eapply wf_nz; eauto. Qed.
(** #C67_faithful_cubical# *)
Lemma C67_faithful_cubical_l (x y : cubc) : wf cls_cubical x -> wf cls_cubical y ->
  (str_cubical x = str_cubical y <-> data x = data y) /\ (str_cubical x = Ok (lit "0") <-> is_zero x).
Proof. intros Wx Wy. rewrite !C67_cubical_l by assumption. apply faithful; auto using code_tuples, tuples_head; eapply wf_nz; eauto. Qed.
(** #C67_faithful_barratt_eccles# *)
Lemma C67_faithful_barratt_eccles_l (x y : bee) : wf cls_be x -> wf cls_be y ->
  (str_be x = str_be y <-> data x = data y) /\ (str_be x = Ok (lit "0") <-> is_zero x).
Proof. intros Wx Wy. rewrite !C67_barratt_eccles_l by assumption. apply faithful; auto using code_tuples, tuples_head; eapply wf_nz; eauto. Qed.
(** #C67_faithful_surjection# *)
Lemma C67_faithful_surjection_l (x y : surj) : wf cls_surj x -> wf cls_surj y ->
  (str_surj x = str_surj y <-> data x = data y) /\ (str_surj x = Ok (lit "0") <-> is_zero x).
Proof. intros Wx Wy. rewrite !C67_surjection_l by assumption. apply faithful; auto using code_ints, ints_head; eapply wf_nz; eauto. Qed.
Definition vals (d : dict skey) : list (list Z * Z) := map (fun kv => (kval (fst kv), snd kv)) d.
Lemma shown_vals d : shown (fun k => shown_ints (kval k)) d = shown shown_ints (vals d).
Proof. destruct d as [|kv d]; [reflexivity|]. unfold shown, vals. cbn [map]. rewrite map_map. reflexivity. Qed.
(** #C67_faithful_ring# In the symmetric ring the same, up to the class of the
    keys (group element or plain tuple), which [==] ignores as well. *)
Lemma C67_faithful_ring_l (x y : ring) : wf cls_ring x -> wf cls_ring y ->
  (str_ring x = str_ring y <-> map (fun kv => (kval (fst kv), snd kv)) (data x) = map (fun kv => (kval (fst kv), snd kv)) (data y)) /\ (str_ring x = Ok (lit "0") <-> is_zero x).
Proof.
  intros Wx Wy. rewrite !C67_ring_l by assumption. rewrite !shown_vals. fold (vals (data x)). fold (vals (data y)).
  assert (N : forall z : ring, wf cls_ring z -> nz (vals (data z))).
  { intros z Wz k v Hin. apply in_map_iff in Hin. destruct Hin as ([k' v'] & [= <- <-] & Hin). now apply (wf_nz cls_ring z Wz k'). }
  destruct (faithful (A := unit) shown_ints (mkElt (vals (data x)) 0 tt) (mkElt (vals (data y)) 0 tt) code_ints ints_head (N x Wx) (N y Wy)) as [F1 F2]. cbn [data] in *. split; [exact F1|].
  rewrite F2. unfold is_zero. cbn [data]. destruct (data x); cbn; split; congruence.
Qed.
(** #C67_example# *)
Example C67_example_l :
  wf cls_surj (mkElt [([1; 2; 1], -1); ([2; 1; 3], 2); ([1], 10)] 0 BF : surj) /\
  str_surj (mkElt [([1; 2; 1], -1); ([2; 1; 3], 2); ([1], 10)] 0 BF : surj) = Ok (lit "- (1,2,1) + 2(2,1,3) + 10(1,)").
Proof. split; [apply wfb_wf; reflexivity|reflexivity]. Qed.

(** #C68_simplicial# [_latex_] of a non-zero simplicial element whose keys are
    non-empty, with non-empty simplices, and not a single vertex. *)
Lemma C68_simplicial_l (x : simp) : wf cls_simplicial x -> ~ is_zero x ->
  keys_in (fun k => k <> [] /\ (forall s, In s k -> s <> []) /\ (forall v, k <> [[v]])) x ->
  latex_simplicial x = Ok (shown latex_simplices (data x)).
Proof.
  intros W N Kx. unfold latex_simplicial. rewrite C67_simplicial_l by assumption. cbn [bind]. f_equal. apply simp_passes; [exact N|].
  intros k v Hin. destruct (Kx k v Hin) as (H1 & H2 & H3). repeat split; assumption.
Qed.
(** #C68_vertex# A single vertex prints with a stray comma: the LaTeX form of
    ((v,),) is [v,] and not [v]. *)
Lemma C68_vertex_l (v : Z) : latex_simplicial (mkElt [([[v]], 1)] 0 tt) = Ok (lit "[" ++ str_int v ++ lit ",]") /\
  latex_simplices [[v]] = lit "[" ++ str_int v ++ lit "]".
Proof.
  split; [|reflexivity]. unfold latex_simplicial. rewrite C67_simplicial_l.
  2:{ split; [cbn; lia|]. split; [split; [intros ? []|exact I]|]. intros k w [[= <- <-]|[]]. split; [split; [discriminate|cbn; lia]|reflexivity]. }
  cbn [bind data]. f_equal. set (n := str_int v).
  assert (FR : forall h o new w, In h (lit ",()") -> replace (String h o) new (n ++ w) = n ++ replace (String h o) new w).
  { intros h o new w Hh. apply R_free. intros X. apply (num_free v h); [cbn in *; tauto|exact X]. }
  assert (E0 : shown shown_tuples [([[v]], 1)] = lit "((" ++ n ++ lit ",),)").
  { unfold shown, shown_first, shown_tuples, shown_ints. cbn [map fst snd concat tup_with Z.ltb Z.compare shown_coef Z.abs Z.eqb Pos.eqb app lit list_ascii_of_string]. rewrite app_nil_r, <- app_assoc. reflexivity. }
  rewrite E0.
  rewrite (R_lit_free "," "),(") by notin. rewrite FR by (cbn; auto). change (replace ",),(" "] \otimes [" (lit ",),)")) with (lit ",),)").
  rewrite (R_lit_free ")" ",(") by notin. rewrite FR by (cbn; auto). change (replace "),(" "] \otimes [" (lit ",),)")) with (lit ",),)").
  rewrite R_hit. rewrite FR by (cbn; auto). change (replace "((" "[" (lit ",),)")) with (lit ",),)").
  rewrite (R_lit_free "," "))") by notin. rewrite FR by (cbn; auto). change (replace ",))" "]" (lit ",),)")) with (lit ",),)").
  rewrite (R_lit_free ")" ",)") by notin. rewrite FR by (cbn; auto). change (replace "),)" "]" (lit ",),)")) with (lit ",]").
  rewrite (R_lit_free ")" ")") by notin. rewrite FR by (cbn; auto). reflexivity.
Qed.
(** #C68_cubical# [_latex_] of a non-zero cubical element: keys non-empty, with
    non-empty cubes, and no digit 0 or 1 in a printed coefficient (coefficients
    1 and -1 are not printed). *)
Lemma C68_cubical_l (x : cubc) : wf cls_cubical x -> ~ is_zero x ->
  keys_in (fun k => k <> [] /\ forall s, In s k -> s <> [] /\ forall e, In e s -> e = 0 \/ e = 1 \/ e = 2) x ->
  (forall k v, In (k, v) (data x) -> no_binary_digit v) ->
  latex_cubical x = Ok (shown latex_cubes (data x)).
Proof.
  intros W N Kx Hv. unfold latex_cubical. rewrite C67_cubical_l by assumption. cbn [bind]. f_equal. apply cub_passes; [exact N|].
  intros k v Hin. destruct (Kx k v Hin) as (H1 & H2). split; [|now apply (Hv k v)]. split; [split; [exact H1|]|]; intros; now apply H2 with (s := s) (e := 0) || (apply H2; assumption) || (eapply H2; eassumption).
Qed.
(** #C68_cubical_refuted# Without the condition on the digits the output is
    wrong: the coefficient 10 is printed as if it were the cube [1][0]; and zero
    prints as the vertex [0]. *)
Lemma C68_cubical_refuted_l :
  latex_cubical (mkElt [([[2]], 10)] 0 tt) = Ok (lit "[1][0][01]") /\
  shown latex_cubes [([[2]], 10)] = lit "10[01]" /\
  latex_cubical (mkElt [([[1; 0; 2]], 1)] 0 tt) = Ok (lit "[1][0][01]") /\
  latex_cubical (mkElt [] 0 tt) = Ok (lit "[0]") /\ latex_cubical (mkElt [([[0]], 1)] 0 tt) = Ok (lit "[0]").
Proof. repeat split. Qed.
(** #C68_example# *)
Example C68_example_l :
  latex_simplicial (mkElt [([[0]; [0; 1; 2]], 1); ([[0; 12]], -3)] 0 tt) = Ok (lit "[0] \otimes [0,1,2] - 3[0,12]") /\
  latex_cubical (mkElt [([[2; 2]; [1; 0]], -1); ([[0; 2]; [2; 1]], 24)] 0 tt) = Ok (lit "- [01][01] \otimes [1][0] + 24[0][01] \otimes [01][1]").
Proof. split; reflexivity. Qed.
