(** * Cuts of a list in overlapping pieces (Alexander-Whitney).  Proof library. *)
From Coq Require Import Setoid Morphisms.
From Verif Require Import PyBase Dict FreeModule Symmetric Simplicial Eqm Spec FreeModuleFacts FreeModuleLaws ListFacts ClassFacts LinearFacts SymmetricFacts
  CycleFacts SymmetricLaws RingFacts Tensor TensorAct LoopFacts.
Section AW.
Context {EE : Type}.
(** the sum over the cuts of a simplex *)
Definition aw (H : list EE -> list EE -> Z) (s : list EE) : Z := sumf (fun '(l1, a, l2) => H (l1 ++ [a]) (a :: l2)) (splits s).
Lemma aw_nil H : aw H [] = 0. Proof. reflexivity. Qed.
Lemma aw_cons H v w : aw H (v :: w) = H [v] (v :: w) + aw (fun f b => H (v :: f) b) w.
Proof.
  unfold aw. rewrite splits_cons, sumf_cons, sumf_map. cbn [app]. f_equal. apply sumf_ext. now intros [[l1 a] l2] _.
Qed.
Lemma aw_ext H H' s : (forall l1 a l2, s = l1 ++ a :: l2 -> H (l1 ++ [a]) (a :: l2) = H' (l1 ++ [a]) (a :: l2)) -> aw H s = aw H' s.
Proof. intros E. apply sumf_ext. intros [[l1 a] l2] Hin. apply splits_in in Hin. now apply E. Qed.
Lemma aw_add H H' s : aw (fun f b => H f b + H' f b) s = aw H s + aw H' s.
Proof. unfold aw. rewrite <- sumf_add. apply sumf_ext. now intros [[l1 a] l2] _. Qed.
Lemma aw_sub H H' s : aw (fun f b => H f b - H' f b) s = aw H s - aw H' s.
Proof. unfold aw. rewrite <- sumf_sub. apply sumf_ext. now intros [[l1 a] l2] _. Qed.
Lemma aw_sumf {B} (H : B -> list EE -> list EE -> Z) l s : aw (fun f b => sumf (fun e => H e f b) l) s = sumf (fun e => aw (H e) s) l.
Proof. unfold aw. rewrite sumf_exch. apply sumf_ext. now intros [[l1 a] l2] _. Qed.

(** coassociativity *)
Lemma aw_app_snoc (H : list EE -> list EE -> Z) l1 a : aw H (l1 ++ [a]) = sumf (fun '(m1, b, m2) => H (m1 ++ [b]) (b :: m2 ++ [a])) (splits l1) + H (l1 ++ [a]) [a].
Proof.
  revert H. induction l1 as [|v l1 IH]; intros H; cbn [app].
  - rewrite aw_cons, aw_nil. cbn. ring.
  - rewrite aw_cons, IH, splits_cons, sumf_cons, sumf_map. cbn [app].
    rewrite (sumf_ext (fun a0 => let '(m1, b, m2) := (v :: fst (fst a0), snd (fst a0), snd a0) in H (m1 ++ [b]) (b :: m2 ++ [a]))
       (fun '(m1, b, m2) => H (v :: m1 ++ [b]) (b :: m2 ++ [a]))) by (now intros [[m1 b] m2] _). ring.
Qed.
Lemma aw_coassoc (H : list EE -> list EE -> list EE -> Z) s :
  aw (fun f b => aw (fun f1 f2 => H f1 f2 b) f) s = aw (fun f1 c => aw (fun f2 b => H f1 f2 b) c) s.
Proof.
  revert H. induction s as [|v w IH]; intros H; [reflexivity|]. rewrite !aw_cons, !aw_nil.
  assert (E : aw (fun f b => aw (fun f1 f2 => H f1 f2 b) (v :: f)) w =
    aw (fun f b => H [v] (v :: f) b) w + aw (fun f b => aw (fun f1 f2 => H (v :: f1) f2 b) f) w).
  { rewrite <- aw_add. apply aw_ext. intros l1 a l2 _. apply aw_cons. }
  rewrite E, IH. ring.
Qed.

(** the iterated diagonal *)
Fixpoint S (t : nat) (G : list (list EE) -> Z) (s : list EE) : Z :=
  match t with
  | O => G [s]
  | Datatypes.S t' => aw (fun f b => S t' (fun u => G (f :: u)) b) s
  end.
Lemma S_sum t G s : S t G s = sumf G (front_back t s).
Proof.
  revert G s. induction t as [|t IH]; intros G s; cbn [S front_back].
  - unfold sumf. cbn. ring.
  - rewrite sumf_flat_map, cuts_splits. unfold aw. apply sumf_ext. intros [[l1 a] l2] _. rewrite sumf_map. now rewrite IH.
Qed.
Lemma S_ext t G G' s : (forall u, G u = G' u) -> S t G s = S t G' s.
Proof. intros E. rewrite !S_sum. now apply sumf_ext. Qed.
Lemma S_exch {B} t (G : B -> list (list EE) -> Z) (d : dict B) s : S t (fun u => ev (fun b => G b u) d) s = ev (fun b => S t (G b) s) d.
Proof. rewrite S_sum. rewrite (ev_ext_all (fun b => S t (G b) s) (fun b => sumf (G b) (front_back t s))) by (intros; apply S_sum).
  unfold ev. rewrite sumf_exch. apply sumf_ext. intros p _. now rewrite sumf_scal. Qed.
(** [t'] more cuts in piece number [j] *)
Definition at_pos (j : Z) (F : list (list EE) -> list EE -> list (list EE) -> Z) (u : list (list EE)) : Z :=
  sumf (fun '(u1, b, u2) => if zlen u1 =? j then F u1 b u2 else 0) (splits u).
Lemma at_pos_app j F u1 b u2 : zlen u1 = j -> at_pos j F (u1 ++ b :: u2) = F u1 b u2.
Proof.
  revert j F. unfold at_pos. induction u1 as [|a u1 IH]; intros j F E; cbn [app]; rewrite splits_cons, sumf_cons, sumf_map.
  - rewrite zlen_nil in E. subst j. rewrite zlen_nil. cbn [Z.eqb]. rewrite sumf_0; [ring|]. intros [[v1 c] v2] _. cbn [fst snd].
    rewrite zlen_cons. pose proof (zlen_nonneg v1). destruct (Z.eqb_spec (zlen v1 + 1) 0); [lia|reflexivity].
  - rewrite zlen_nil, zlen_cons in *. pose proof (zlen_nonneg u1). destruct (Z.eqb_spec 0 j); [lia|]. rewrite Z.add_0_l.
    rewrite <- (IH (j - 1) (fun v1 c v2 => F (a :: v1) c v2)) by lia. apply sumf_ext. intros [[v1 c] v2] _. cbn [fst snd].
    rewrite zlen_cons. destruct (Z.eqb_spec (zlen v1 + 1) j), (Z.eqb_spec (zlen v1) (j - 1)); (lia || reflexivity).
Qed.
Lemma at_pos_none j F u : zlen u <= j -> at_pos j F u = 0.
Proof.
  intros E. apply sumf_0. intros [[u1 b] u2] Hin. apply splits_in in Hin. subst u. rewrite zlen_app, zlen_cons in E. pose proof (zlen_nonneg u2).
  destruct (Z.eqb_spec (zlen u1) j); [lia|reflexivity].
Qed.
Lemma S_exch_aw t (H : list (list EE) -> list EE -> list EE -> Z) f b : S t (fun u => aw (H u) f) b = aw (fun f1 f2 => S t (fun u => H u f1 f2) b) f.
Proof. rewrite S_sum. rewrite <- aw_sumf. apply aw_ext. intros. now rewrite S_sum. Qed.
Lemma S_coassoc1 t t' G s : aw (fun f b => S t (fun u2 => S t' (fun w => G (w ++ u2)) f) b) s = S (Datatypes.S t + t') G s.
Proof.
  revert G s. induction t' as [|t' IH]; intros G s.
  - rewrite Nat.add_0_r. reflexivity.
  - rewrite Nat.add_succ_r. cbn [S].
    rewrite (aw_ext _ (fun f b => aw (fun f1 f2 => S t (fun u2 => S t' (fun w => G (f1 :: w ++ u2)) f2) b) f)) by (intros; apply S_exch_aw).
    rewrite aw_coassoc. apply aw_ext. intros l1 a l2 _. apply (IH (fun u => G ((l1 ++ [a]) :: u))).
Qed.
Lemma S_coassoc t t' G j s : 0 <= j <= Z.of_nat t ->
  S t (at_pos j (fun u1 b u2 => S t' (fun w => G (u1 ++ w ++ u2)) b)) s = S (t + t') G s.
Proof.
  revert G j s. induction t as [|t IH]; intros G j s Hj.
  - assert (j = 0) as -> by lia. cbn [S Nat.add]. rewrite (at_pos_app 0 _ [] s []) by reflexivity. apply S_ext. intros u. cbn [app]. now rewrite app_nil_r.
  - destruct (Z.eq_dec j 0) as [->|N].
    + rewrite <- S_coassoc1. cbn [S]. apply aw_ext. intros l1 a l2 _. apply S_ext. intros u.
      exact (at_pos_app 0 (fun u1 b u2 => S t' (fun w => G (u1 ++ w ++ u2)) b) [] (l1 ++ [a]) u eq_refl).
    + cbn [S Nat.add]. apply aw_ext. intros l1 a l2 _. rewrite <- (IH _ (j - 1)) by lia. apply S_ext. intros u.
      unfold at_pos. rewrite splits_cons, sumf_cons, sumf_map, zlen_nil. destruct (Z.eqb_spec 0 j); [lia|]. rewrite Z.add_0_l. apply sumf_ext.
      intros [[v1 c] v2] _. cbn [fst snd]. rewrite zlen_cons. destruct (Z.eqb_spec (zlen v1 + 1) j), (Z.eqb_spec (zlen v1) (j - 1)); (lia || reflexivity).
Qed.

End AW.
