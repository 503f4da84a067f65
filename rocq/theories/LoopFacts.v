(** * Loops over positions.  Proof library. *)
From Coq Require Import Setoid Morphisms.
From Verif Require Import PyBase Dict FreeModule Eqm Spec FreeModuleFacts FreeModuleLaws ListFacts LinearFacts.

Lemma in_enumerate {B} (l : list B) i b : In (i, b) (enumerate l) -> exists l1 l2, l = l1 ++ b :: l2 /\ i = zlen l1.
Proof.
  revert i. induction l as [|a l IH]; intros i; [intros []|]. rewrite enumerate_cons. intros [[= <- <-]|Hin].
  - exists [], l. auto.
  - apply in_map_iff in Hin. destruct Hin as ([j b'] & [= <- <-] & Hin). destruct (IH _ Hin) as (l1 & l2 & -> & ->).
    exists (a :: l1), l2. split; [reflexivity|]. now rewrite zlen_cons.
Qed.
Lemma in_zrange_splits {B} (l : list B) i : In i (zrange 0 (zlen l)) -> exists l1 b l2, l = l1 ++ b :: l2 /\ i = zlen l1.
Proof.
  intros Hi. apply in_zrange in Hi. destruct (split_at l i Hi) as (l1 & b & l2 & E & <-). eauto.
Qed.

Section Loops.
Context {K A : Type} `{KO : KeyOk K}.
Variable c : pycls K.
Variables (t : Z) (a : A).

Lemma for_enum_den {B} (l : list B) (body : elt K A -> Z * B -> res (elt K A)) (Phi : list B -> B -> list B -> (K -> Z) -> Z) :
  (forall l1 b l2 F y, l = l1 ++ b :: l2 -> den c t a F y -> returns (body y (zlen l1, b)) (den c t a (fun g => F g + Phi l1 b l2 g))) ->
  forall F y, den c t a F y ->
  returns (for_ (enumerate l) y body) (den c t a (fun g => F g + sumf (fun '(l1, b, l2) => Phi l1 b l2 g) (splits l))).
Proof.
  intros Hb F y Hy. eapply returns_mono.
  - apply (for_den c t (enumerate l) body (fun p g => Phi (slice_to l (fst p)) (snd p) (slice_from l (fst p + 1)) g) a); [|exact Hy].
    intros [i b] F' y' Hin Hy'. apply in_enumerate in Hin. destruct Hin as (l1 & l2 & E & ->). cbn [fst snd].
    rewrite E, slice_to_app, slice_from_app_S. now apply Hb.
  - intros z Hz. eapply den_ext; [|exact Hz]. intros g _. cbn beta. apply eqm_eq. f_equal. rewrite sumf_enumerate. apply sumf_ext.
    intros [[l1 b] l2] Hin. apply splits_in in Hin. cbn [fst snd]. now rewrite Hin, slice_to_app, slice_from_app_S.
Qed.
Lemma for_range_den {B} (d : B) (l : list B) (body : elt K A -> Z -> res (elt K A)) (Phi : list B -> B -> list B -> (K -> Z) -> Z) n :
  n = zlen l ->
  (forall l1 b l2 F y, l = l1 ++ b :: l2 -> den c t a F y -> returns (body y (zlen l1)) (den c t a (fun g => F g + Phi l1 b l2 g))) ->
  forall F y, den c t a F y ->
  returns (for_ (zrange 0 n) y body) (den c t a (fun g => F g + sumf (fun '(l1, b, l2) => Phi l1 b l2 g) (splits l))).
Proof.
  intros -> Hb F y Hy. eapply returns_mono.
  - apply (for_den c t (zrange 0 (zlen l)) body (fun i g => Phi (slice_to l i) (znth d l i) (slice_from l (i + 1)) g) a); [|exact Hy].
    intros i F' y' Hin Hy'. apply in_zrange_splits in Hin. destruct Hin as (l1 & b & l2 & E & ->).
    rewrite E, slice_to_app, slice_from_app_S. unfold znth. rewrite zlen_length, nth_middle. now apply Hb.
  - intros z Hz. eapply den_ext; [|exact Hz]. intros g _. cbn beta. apply eqm_eq. f_equal. rewrite sumf_zrange_splits. apply sumf_ext.
    intros [[l1 b] l2] Hin. apply splits_in in Hin. cbn [fst snd]. rewrite Hin, slice_to_app, slice_from_app_S. unfold znth. now rewrite zlen_length, nth_middle.
Qed.
End Loops.

Lemma new_basis_gen {K A} `{KO : KeyOk K} (c : pycls K) (a : A) dt ot t k : (forall k, ckey c k = k) -> t = match ot with Some t => t | None => dt end -> 0 <= t -> t <> 1 ->
  bad c k = Ok false -> new dt c (dict_of [(k, 1)]) ot a = Ok (mkElt [(k, 1)] t a).
Proof.
  intros Hck Et Ht N Hb. unfold new. rewrite <- Et. unfold convert, dict_of. cbn [fold_left dset fst snd map]. rewrite Hck.
  unfold pref, zero_bad. cbn [mapM bind fst snd]. rewrite Hb. cbn [bind]. unfold reduce, strip.
  destruct (Z.eqb_spec t 0) as [->|Nt]; cbn [map filter fst snd].
  - reflexivity.
  - rewrite Z.mod_1_l by lia. reflexivity.
Qed.
Lemma wf_basis_gen {K A} `{KO : KeyOk K} (c : pycls K) (a : A) t k : 0 <= t -> t <> 1 -> bad c k = Ok false -> wf c (mkElt [(k, 1)] t a).
Proof.
  intros Ht N Hb. split; [exact Ht|]. split; [cbn; tauto|]. intros k' v [[= <- <-]|[]]. split; [|exact Hb]. unfold canon_coef. cbn. lia.
Qed.
