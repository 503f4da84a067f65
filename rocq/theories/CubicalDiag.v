(** * The Serre diagonal.  Proof library. *)
From Coq Require Import Setoid Morphisms.
From Verif Require Import PyBase Dict FreeModule Symmetric Simplicial Cubical Eqm Spec SpecChain SpecCube FreeModuleFacts FreeModuleLaws ListFacts ClassFacts LinearFacts SymmetricFacts
  CycleFacts SymmetricLaws RingFacts Tensor TensorAct KoszulFacts LoopFacts SimplicialFacts AW SimplicialDiag CubicalFacts.

(** the sum over the terms of the diagonal of a cube *)
Fixpoint se (H : list Z -> list Z -> Z) (c : list Z) : Z :=
  match c with
  | [] => H [] []
  | a :: w => if a =? 2 then se (fun f b => H (2 :: f) (1 :: b)) w + se (fun f b => sgn (cube_dim f) * H (0 :: f) (2 :: b)) w
              else se (fun f b => H (a :: f) (a :: b)) w
  end.
Lemma se_2 H w : se H (2 :: w) = se (fun f b => H (2 :: f) (1 :: b)) w + se (fun f b => sgn (cube_dim f) * H (0 :: f) (2 :: b)) w.
Proof. reflexivity. Qed.
Lemma se_n H a w : a <> 2 -> se H (a :: w) = se (fun f b => H (a :: f) (a :: b)) w.
Proof. intros N. cbn [se]. destruct (Z.eqb_spec a 2); [contradiction|reflexivity]. Qed.
Lemma se_sum H c : se H c = sumf (fun '(f, b, e) => e * H f b) (serre_pairs c).
Proof.
  revert H. induction c as [|a w IH]; intros H; cbn [serre_pairs].
  - rewrite sumf_cons, sumf_nil. change (se H []) with (H [] []). ring.
  - rewrite sumf_flat_map. destruct (Z.eqb_spec a 2) as [->|N].
    + rewrite se_2, !IH, <- sumf_add. apply sumf_ext. intros [[f b] e] _. rewrite !sumf_cons, sumf_nil, cube_dim_dim. ring.
    + rewrite se_n, IH by assumption. apply sumf_ext. intros [[f b] e] _. rewrite !sumf_cons, sumf_nil. ring.
Qed.
Lemma serre_pairs_dim c f b e : In (f, b, e) (serre_pairs c) -> cube_dim f + cube_dim b = cube_dim c /\ zlen f = zlen c /\ zlen b = zlen c.
Proof.
  revert f b e. induction c as [|a w IH]; intros f b e; cbn [serre_pairs].
  - intros [[= <- <- <-]|[]]. split; [|split]; reflexivity.
  - rewrite in_flat_map. intros ([[f' b'] e'] & Hin & Hi). apply IH in Hin. destruct Hin as (H1 & H2 & H3). destruct (Z.eqb_spec a 2) as [->|N].
    + destruct Hi as [[= <- <- <-]|[[= <- <- <-]|[]]]; rewrite !cube_dim_cons, !zlen_cons; change (2 =? 2) with true; change (1 =? 2) with false; change (0 =? 2) with false; cbn iota; lia.
    + destruct Hi as [[= <- <- <-]|[]]; rewrite !cube_dim_cons, !zlen_cons. destruct (Z.eqb_spec a 2); [contradiction|]; lia.
Qed.
Lemma se_ext H H' c : (forall f b, cube_dim f + cube_dim b = cube_dim c -> H f b = H' f b) -> se H c = se H' c.
Proof. intros E. rewrite !se_sum. apply sumf_ext. intros [[f b] e] Hin. apply serre_pairs_dim in Hin. now rewrite E. Qed.
Lemma se_add H H' s : se (fun f b => H f b + H' f b) s = se H s + se H' s.
Proof. rewrite !se_sum, <- sumf_add. apply sumf_ext. intros [[l1 a] l2] _. ring. Qed.
Lemma se_sub H H' s : se (fun f b => H f b - H' f b) s = se H s - se H' s.
Proof. rewrite !se_sum, <- sumf_sub. apply sumf_ext. intros [[l1 a] l2] _. ring. Qed.
Lemma se_scal n H s : se (fun f b => n * H f b) s = n * se H s.
Proof. rewrite !se_sum, <- sumf_scal. apply sumf_ext. intros [[l1 a] l2] _. ring. Qed.
Lemma se_sumf {B} (H : B -> list Z -> list Z -> Z) l s : se (fun f b => sumf (fun e => H e f b) l) s = sumf (fun e => se (H e) s) l.
Proof.
  rewrite se_sum. rewrite (sumf_ext (fun e => se (H e) s) (fun e => sumf (fun '(f, b, e') => e' * H e f b) (serre_pairs s))) by (intros; apply se_sum).
  rewrite sumf_exch. apply sumf_ext. intros [[f b] e] _. now rewrite <- sumf_scal.
Qed.
(** boundary of a function of two cubes *)
Definition d2C (H : list Z -> list Z -> Z) (f b : list Z) : Z := fdC (fun f' => H f' b) f + sgn (cube_dim f) * fdC (fun b' => H f b') b.
Lemma fdC_sgn g c : fdC (fun u => sgn (cube_dim u) * g u) c = - (sgn (cube_dim c) * fdC g c).
Proof. apply (fd_sgn fbC cube_dim dim_fbC). Qed.
Lemma se_chain H c : se (d2C H) c = fdC (se H) c.
Proof.
  revert H. induction c as [|a w IH]; intros H; [reflexivity|]. destruct (Z.eq_dec a 2) as [->|N].
  - rewrite se_2, fdC_2, !(se_n _ 1), !(se_n _ 0) by lia.
    rewrite (fdC_ext (fun u => se H (2 :: u)) (fun u => se (fun f b => H (2 :: f) (1 :: b)) u + se (fun f b => sgn (cube_dim f) * H (0 :: f) (2 :: b)) u)) by (intros; apply se_2).
    rewrite fdC_add. set (H21 := fun f b => H (2 :: f) (1 :: b)). set (K := fun f b => sgn (cube_dim f) * H (0 :: f) (2 :: b)).
    change (fun u => se H21 u) with (se H21). change (fun u => se K u) with (se K). rewrite <- !IH.
    rewrite (se_ext (fun f b => d2C H (2 :: f) (1 :: b)) (fun f b => (H (1 :: f) (1 :: b) - H (0 :: f) (1 :: b)) - d2C H21 f b)).
    2:{ intros f b _. unfold d2C, H21. rewrite fdC_2, (fdC_n _ 1) by lia. rewrite cube_dim_cons. change (2 =? 2) with true. cbn iota. rewrite sgn_S'. ring. }
    rewrite (se_ext (fun f b => sgn (cube_dim f) * d2C H (0 :: f) (2 :: b)) (fun f b => (H (0 :: f) (1 :: b) - H (0 :: f) (0 :: b)) - d2C K f b)).
    2:{ intros f b _. unfold d2C, K. rewrite fdC_2, (fdC_n _ 0) by lia. rewrite cube_dim_cons. change (0 =? 2) with false. cbn iota. rewrite Z.add_0_l.
        rewrite (fdC_sgn (fun f' => H (0 :: f') (2 :: b))). rewrite fdC_scal. pose proof (sgn_sq (cube_dim f)) as Q.
        set (s := sgn (cube_dim f)) in *. replace (s * (s * fdC (fun u => H (0 :: f) (2 :: u)) b)) with (s * s * fdC (fun u => H (0 :: f) (2 :: u)) b) by ring. rewrite Q.
        set (X := fdC (fun u => H (0 :: f) (2 :: u)) b). 
        transitivity (s * fdC (fun f' => H (0 :: f') (2 :: b)) f + s * s * (H (0 :: f) (1 :: b) - H (0 :: f) (0 :: b) - X)); [ring|]. rewrite Q. ring. }
    rewrite !se_sub. ring.
  - rewrite se_n, fdC_n by assumption. rewrite (fdC_ext _ (se (fun f b => H (a :: f) (a :: b)))) by (intros; now apply se_n).
    rewrite <- IH. apply se_ext. intros f b _. unfold d2C. rewrite !fdC_n by assumption. rewrite cube_dim_cons. destruct (Z.eqb_spec a 2); [contradiction|]. reflexivity.
Qed.
Lemma se_coassoc (H : list Z -> list Z -> list Z -> Z) s :
  se (fun f b => se (fun f1 f2 => H f1 f2 b) f) s = se (fun f1 c => se (fun f2 b => H f1 f2 b) c) s.
Proof.
  revert H. induction s as [|a w IH]; intros H; [reflexivity|]. destruct (Z.eq_dec a 2) as [->|N].
  - rewrite !se_2.
    rewrite (se_ext (fun f b => se (fun f1 f2 => H f1 f2 (1 :: b)) (2 :: f)) (fun f b => se (fun f1 f2 => H (2 :: f1) (1 :: f2) (1 :: b)) f + se (fun f1 f2 => sgn (cube_dim f1) * H (0 :: f1) (2 :: f2) (1 :: b)) f)) by (intros; apply se_2).
    rewrite (se_ext (fun f b => sgn (cube_dim f) * se (fun f1 f2 => H f1 f2 (2 :: b)) (0 :: f)) (fun f b => se (fun f1 f2 => sgn (cube_dim f1) * (sgn (cube_dim f2) * H (0 :: f1) (0 :: f2) (2 :: b))) f)).
    2:{ intros f b _. rewrite se_n by lia. rewrite <- se_scal. apply se_ext. intros f1 f2 E. rewrite <- E, sgn_add. ring. }
    rewrite (se_ext (fun f1 c => se (fun f2 b => H (2 :: f1) f2 b) (1 :: c)) (fun f1 c => se (fun f2 b => H (2 :: f1) (1 :: f2) (1 :: b)) c)) by (intros; apply se_n; lia).
    rewrite (se_ext (fun f1 c => sgn (cube_dim f1) * se (fun f2 b => H (0 :: f1) f2 b) (2 :: c))
      (fun f1 c => se (fun f2 b => sgn (cube_dim f1) * H (0 :: f1) (2 :: f2) (1 :: b)) c + se (fun f2 b => sgn (cube_dim f1) * (sgn (cube_dim f2) * H (0 :: f1) (0 :: f2) (2 :: b))) c)).
    2:{ intros f1 c _. rewrite se_2, !se_scal. ring. }
    rewrite !se_add.
    rewrite (IH (fun f1 f2 b => H (2 :: f1) (1 :: f2) (1 :: b))), (IH (fun f1 f2 b => sgn (cube_dim f1) * H (0 :: f1) (2 :: f2) (1 :: b))),
      (IH (fun f1 f2 b => sgn (cube_dim f1) * (sgn (cube_dim f2) * H (0 :: f1) (0 :: f2) (2 :: b)))). ring.
  - rewrite !se_n by assumption. rewrite (se_ext _ (fun f b => se (fun f1 f2 => H (a :: f1) (a :: f2) (a :: b)) f)) by (intros; now apply se_n).
    rewrite (se_ext (fun f b => se (fun f2 b0 => H (a :: f) f2 b0) (a :: b)) (fun f c => se (fun f2 b => H (a :: f) (a :: f2) (a :: b)) c)) by (intros; now apply se_n).
    apply (IH (fun f1 f2 b => H (a :: f1) (a :: f2) (a :: b))).
Qed.

(** the iterated diagonal *)
Fixpoint SC (t : nat) (G : list (list Z) -> Z) (s : list Z) : Z :=
  match t with
  | O => G [s]
  | Datatypes.S t' => se (fun f b => SC t' (fun u => G (f :: u)) b) s
  end.
Lemma SC_sum t G s : SC t G s = ev G (serre t s).
Proof.
  revert G s. induction t as [|t IH]; intros G s; cbn [SC serre].
  - rewrite ev_cons, ev_nil. ring.
  - unfold ev. rewrite sumf_flat_map, se_sum. apply sumf_ext. intros [[f b] e] _. rewrite IH. unfold ev. rewrite sumf_map, <- sumf_scal.
    apply sumf_ext. intros [u e'] _. cbn [fst snd]. ring.
Qed.
Lemma serre_deg t s u e : In (u, e) (serre t s) -> tdeg cube_dim u = cube_dim s /\ zlen u = Z.of_nat t + 1.
Proof.
  revert s u e. induction t as [|t IH]; intros s u e Hu; cbn [serre] in Hu.
  - destruct Hu as [[= <- <-]|[]]. split; [|reflexivity]. rewrite tdeg_cons. change (tdeg cube_dim []) with 0. ring.
  - apply in_flat_map in Hu. destruct Hu as ([[f b] e'] & Hf & Hu). apply in_map_iff in Hu. destruct Hu as ([u' e''] & [= <- <-] & Hu).
    apply IH in Hu. apply serre_pairs_dim in Hf. rewrite tdeg_cons, zlen_cons. lia.
Qed.
Lemma SC_ext t G G' s : (forall u, tdeg cube_dim u = cube_dim s -> zlen u = Z.of_nat t + 1 -> G u = G' u) -> SC t G s = SC t G' s.
Proof. intros E. rewrite !SC_sum. apply ev_ext. intros u e Hin. apply serre_deg in Hin. now apply E. Qed.
Lemma SC_add t G G' s : SC t (fun u => G u + G' u) s = SC t G s + SC t G' s.
Proof. rewrite !SC_sum. apply ev_lin2. Qed.
Lemma SC_scal t n G s : SC t (fun u => n * G u) s = n * SC t G s.
Proof. rewrite !SC_sum. apply ev_scal. Qed.
Lemma SC_exch {B} t (G : B -> list (list Z) -> Z) (d : dict B) s : SC t (fun u => ev (fun b => G b u) d) s = ev (fun b => SC t (G b) s) d.
Proof.
  rewrite SC_sum. rewrite (ev_ext_all (fun b => SC t (G b) s) (fun b => ev (G b) (serre t s))) by (intros; apply SC_sum). apply (ev_exch (fun u b => G b u)).
Qed.
Lemma SC_sumf {B} t (G : B -> list (list Z) -> Z) (l : list B) s : SC t (fun u => sumf (fun b => G b u) l) s = sumf (fun b => SC t (G b) s) l.
Proof.
  rewrite SC_sum. rewrite (sumf_ext (fun b => SC t (G b) s) (fun b => ev (G b) (serre t s))) by (intros; apply SC_sum). unfold ev. rewrite sumf_exch. apply sumf_ext.
  intros [u e] _. cbn [fst snd]. now rewrite sumf_scal.
Qed.
Lemma SC_chain t G s : SC t (tDC G) s = fdC (SC t G) s.
Proof.
  revert G s. induction t as [|t IH]; intros G s; cbn [SC].
  - rewrite tD_cons, tD_nil. rewrite Z.mul_0_r, Z.add_0_r. reflexivity.
  - rewrite <- (se_chain (fun f b => SC t (fun u => G (f :: u)) b)). apply se_ext. intros f b _. unfold d2C.
    rewrite (SC_ext t _ (fun u => fdC (fun f' => G (f' :: u)) f + sgn (cube_dim f) * tDC (fun u' => G (f :: u')) u)) by (intros; apply tD_cons).
    rewrite SC_add, SC_scal, IH. f_equal. unfold fd. exact (SC_exch t (fun f' u => G (f' :: u)) (fbC f) b).
Qed.
Lemma SC_exch_se t (H : list (list Z) -> list Z -> list Z -> Z) f b : SC t (fun u => se (H u) f) b = se (fun f1 f2 => SC t (fun u => H u f1 f2) b) f.
Proof.
  rewrite SC_sum. unfold ev. rewrite se_sum. rewrite (sumf_ext _ (fun p => sumf (fun '(f0, b0, e) => snd p * (e * H (fst p) f0 b0)) (serre_pairs f))).
  2:{ intros p _. rewrite se_sum, <- sumf_scal. apply sumf_ext. now intros [[? ?] ?] _. }
  rewrite sumf_exch. apply sumf_ext. intros [[f0 b0] e] _. rewrite SC_sum. unfold ev. rewrite <- sumf_scal. apply sumf_ext. intros p _. ring.
Qed.
Lemma SC_coassoc1 t t' G s : se (fun f b => SC t (fun u2 => SC t' (fun w => G (w ++ u2)) f) b) s = SC (Datatypes.S t + t') G s.
Proof.
  revert G s. induction t' as [|t' IH]; intros G s.
  - rewrite Nat.add_0_r. reflexivity.
  - rewrite Nat.add_succ_r. cbn [SC].
    rewrite (se_ext _ (fun f b => se (fun f1 f2 => SC t (fun u2 => SC t' (fun w => G (f1 :: w ++ u2)) f2) b) f)) by (intros; apply SC_exch_se).
    rewrite (se_coassoc (fun f1 f2 b => SC t (fun u2 => SC t' (fun w => G (f1 :: w ++ u2)) f2) b)). apply se_ext. intros f b _. apply (IH (fun u => G (f :: u))).
Qed.
Lemma SC_coassoc t t' G j s : 0 <= j <= Z.of_nat t ->
  SC t (at_pos j (fun u1 b u2 => SC t' (fun w => G (u1 ++ w ++ u2)) b)) s = SC (t + t') G s.
Proof.
  revert G j s. induction t as [|t IH]; intros G j s Hj.
  - assert (j = 0) as -> by lia. cbn [SC Nat.add]. rewrite (at_pos_app 0 _ [] s []) by reflexivity. apply SC_ext. intros u _ _. cbn [app]. now rewrite app_nil_r.
  - destruct (Z.eq_dec j 0) as [->|N].
    + rewrite <- SC_coassoc1. cbn [SC]. apply se_ext. intros f b0 _. apply SC_ext. intros u _ _.
      exact (at_pos_app 0 (fun u1 b u2 => SC t' (fun w => G (u1 ++ w ++ u2)) b) [] f u eq_refl).
    + cbn [SC Nat.add]. apply se_ext. intros f b0 _. rewrite <- (IH _ (j - 1)) by lia. apply SC_ext. intros u _ _.
      unfold at_pos. rewrite splits_cons, sumf_cons, sumf_map, zlen_nil. destruct (Z.eqb_spec 0 j); [lia|]. rewrite Z.add_0_l. apply sumf_ext.
      intros [[v1 c] v2] _. cbn [fst snd]. rewrite zlen_cons. destruct (Z.eqb_spec (zlen v1 + 1) j), (Z.eqb_spec (zlen v1) (j - 1)); (lia || reflexivity).
Qed.

(** ** the enumeration in the code *)
(** the column with entry 2 in row [f], 0 above and 1 below, put in front of the rows [u] *)
Definition col (f : Z) (u : list (list Z)) : list (list Z) := map (fun '(i, c) => elementary_summand f i :: c) (enumerate u).
Definition above (f : Z) (u : list (list Z)) : Z := sumf (fun '(i, c) => if i <? f then cube_dim c else 0) (enumerate u).
Lemma col_cons f a u : col f (a :: u) = (elementary_summand f 0 :: a) :: col (f - 1) u.
Proof.
  unfold col. rewrite enumerate_cons. cbn [map]. f_equal. rewrite map_map. apply map_ext. intros [i c]. cbn [fst snd]. unfold elementary_summand.
  destruct (Z.ltb_spec (i + 1) f), (Z.ltb_spec i (f - 1)); try lia; [reflexivity|]. destruct (Z.eqb_spec (i + 1) f), (Z.eqb_spec i (f - 1)); (lia || reflexivity).
Qed.
Lemma above_cons f a u : above f (a :: u) = (if 0 <? f then cube_dim a else 0) + above (f - 1) u.
Proof.
  unfold above. rewrite enumerate_cons, sumf_cons, sumf_map. f_equal. apply sumf_ext. intros [i c] _. cbn [fst snd].
  destruct (Z.ltb_spec (i + 1) f), (Z.ltb_spec i (f - 1)); (lia || reflexivity).
Qed.
Lemma col_neg f u : f < 0 -> col f u = map (cons 1) u /\ above f u = 0.
Proof.
  revert f. induction u as [|a u IH]; intros f Hf; [split; reflexivity|]. rewrite col_cons, above_cons. destruct (IH (f - 1)) as [-> ->]; [lia|].
  unfold elementary_summand. destruct (Z.ltb_spec 0 f); [lia|]. destruct (Z.eqb_spec 0 f); [lia|]. split; [reflexivity|ring].
Qed.
Lemma SC_n t G a w : a <> 2 -> SC t G (a :: w) = SC t (fun u => G (map (cons a) u)) w.
Proof.
  intros N. revert G w. induction t as [|t IH]; intros G w; [reflexivity|]. cbn [SC]. rewrite se_n by assumption. apply se_ext. intros f b _. now rewrite IH.
Qed.
Lemma SC_2 t G w : SC t G (2 :: w) = sumf (fun f => SC t (fun u => sgn (above f u) * G (col f u)) w) (zrange 0 (Z.of_nat t + 1)).
Proof.
  revert G w. induction t as [|t IH]; intros G w.
  - cbn [SC]. rewrite sumf_zrange_S by lia. rewrite (zrange_nil 0) by lia. rewrite sumf_nil, above_cons, col_cons. change (col (0 - 1) []) with (@nil (list Z)). change (above (0 - 1) []) with 0.
    change (0 <? 0) with false. cbn iota. change (sgn (0 + 0)) with 1. change (elementary_summand 0 0) with 2. rewrite Z.mul_1_l, Z.add_0_r. reflexivity.
  - cbn [SC]. rewrite se_2. rewrite sumf_zrange_S by lia. f_equal.
    + apply se_ext. intros f b _. rewrite SC_n by lia. apply SC_ext. intros u _ _. rewrite above_cons, col_cons. destruct (col_neg (0 - 1) u) as [-> ->]; [lia|].
      change (0 <? 0) with false. cbn iota. change (sgn (0 + 0)) with 1. change (elementary_summand 0 0) with 2. ring.
    + rewrite (sumf_ext _ (fun i => se (fun f b => SC t (fun u => sgn (cube_dim f) * (sgn (above i u) * G ((0 :: f) :: col i u))) b) w)).
      2:{ intros i Hi. apply in_zrange in Hi. apply se_ext. intros f b _. apply SC_ext. intros u _ _. rewrite above_cons, col_cons. replace (i + 1 - 1) with i by ring.
          destruct (Z.ltb_spec 0 (i + 1)); [|lia]. rewrite sgn_add. unfold elementary_summand. destruct (Z.ltb_spec 0 (i + 1)); [|lia]. ring. }
      rewrite Nat2Z.inj_succ. replace (Z.succ (Z.of_nat t)) with (Z.of_nat t + 1) by lia.
      rewrite <- (se_sumf (fun i f b => SC t (fun u => sgn (cube_dim f) * (sgn (above i u) * G ((0 :: f) :: col i u))) b)). apply se_ext. intros f b _.
      rewrite (IH (fun u => G ((0 :: f) :: u))), <- sumf_scal. apply sumf_ext. intros i _. now rewrite SC_scal.
Qed.

(** rows of the summand [p] *)
Fixpoint rows (t : Z) (c : list Z) (p : list Z) : list (list Z) :=
  match c with
  | [] => map (fun _ => []) (zrange 0 (t + 1))
  | a :: w => if a =? 2 then match p with [] => [] | f :: p' => col f (rows t w p') end else map (cons a) (rows t w p)
  end.
Lemma inv_sign_cons f p : inv_sign (f :: p) = sgn (zlen (filter (fun b => b <? f) p)) * inv_sign p.
Proof.
  unfold inv_sign. rewrite !sgn_mod2, <- sgn_add. f_equal. 
  assert (C1 : forall q : list Z, combinations 1 q = map (fun a => [a]) q).
  { induction q as [|a q IH]; [reflexivity|]. change (combinations 1 (a :: q)) with ([a] :: combinations 1 q). now rewrite IH. }
  change (combinations 2 (f :: p)) with (map (cons f) (combinations 1 p) ++ combinations 2 p). rewrite C1, map_map, filter_app, zlen_app. f_equal.
  induction p as [|b p IH]; [reflexivity|]. cbn [map filter]. destruct (b <? f); rewrite ?zlen_cons; now rewrite IH.
Qed.
Lemma zlen_enumerate {B} (l : list B) : zlen (enumerate l) = zlen l.
Proof. rewrite <- (zlen_map snd), enumerate_snd. reflexivity. Qed.
Lemma zlen_col f u : zlen (col f u) = zlen u. Proof. unfold col. rewrite zlen_map. apply zlen_enumerate. Qed.
Lemma above_map a f u : a <> 2 -> above f (map (cons a) u) = above f u.
Proof.
  intros N. revert f. induction u as [|c u IH]; intros f; [reflexivity|]. cbn [map]. rewrite !above_cons, IH, cube_dim_cons. destruct (Z.eqb_spec a 2); [contradiction|]. reflexivity.
Qed.
Lemma above_col g f u : 0 <= f < zlen u -> above g (col f u) = (if f <? g then 1 else 0) + above g u.
Proof.
  revert f g. induction u as [|c u IH]; intros f g Hf; [unfold zlen in Hf; cbn [length] in Hf; lia|]. assert (Hf' : 0 <= f < zlen u + 1) by (rewrite <- (zlen_cons c u); exact Hf). clear Hf. rewrite col_cons, !above_cons, cube_dim_cons. unfold elementary_summand.
  destruct (Z.ltb_spec 0 f).
  - rewrite IH by lia. destruct (Z.ltb_spec f g), (Z.ltb_spec (f - 1) (g - 1)), (Z.ltb_spec 0 g); try lia; change (0 =? 2) with false; cbn iota; ring.
  - assert (f = 0) as -> by lia. destruct (col_neg (0 - 1) u) as [-> _]; [lia|]. rewrite above_map by lia. change (0 =? 0) with true. cbn iota. change (2 =? 2) with true. cbn iota.
    destruct (Z.ltb_spec 0 g); ring.
Qed.
Lemma above_nils g t : above g (map (fun _ => []) (zrange 0 t)) = 0.
Proof.
  unfold above. apply sumf_0. intros [i c] Hin. apply in_enumerate in Hin. destruct Hin as (l1 & l2 & E & ->).
  assert (Hc : In c (map (fun _ : Z => @nil Z) (zrange 0 t))) by (rewrite E; apply in_elt). apply in_map_iff in Hc. destruct Hc as (? & <- & _). destruct (_ <? _); reflexivity.
Qed.
Lemma rows_spec t c p : 0 <= t -> zlen p = cube_dim c -> (forall f, In f p -> 0 <= f < t + 1) ->
  zlen (rows t c p) = t + 1 /\ forall g, above g (rows t c p) = zlen (filter (fun b => b <? g) p).
Proof.
  intros Ht. revert p. induction c as [|a w IH]; intros p Lp Hp.
  - cbn [rows]. rewrite zlen_map, zlen_zrange. split; [lia|]. apply zlen_0 in Lp. subst p. intros g. apply above_nils.
  - rewrite cube_dim_cons in Lp. cbn [rows]. destruct (Z.eqb_spec a 2) as [->|N].
    + destruct p as [|f p]; [rewrite zlen_nil in Lp; pose proof (cube_dim_nonneg w); lia|]. rewrite zlen_cons in Lp.
      destruct (IH p) as [E1 E2]; [lia|intros; apply Hp; now right|]. rewrite zlen_col. split; [exact E1|]. intros g. specialize (Hp f (or_introl eq_refl)). rewrite above_col by lia. rewrite E2.
      cbn [filter]. destruct (f <? g); rewrite ?zlen_cons; ring.
    + destruct (IH p) as [E1 E2]; [lia|exact Hp|]. rewrite zlen_map. split; [exact E1|]. intros g. now rewrite above_map.
Qed.
Lemma in_product_rep {B} (l : list B) n p : In p (product_rep l n) <-> length p = n /\ forall a, In a p -> In a l.
Proof.
  revert p. induction n as [|n IH]; intros p; cbn [product_rep].
  - split; [intros [<-|[]]; split; [reflexivity|intros a []]|]. intros [L _]. destruct p; [now left|discriminate].
  - rewrite in_flat_map. split.
    + intros (a & Ha & Hp). apply in_map_iff in Hp. destruct Hp as (p' & <- & Hp'). apply IH in Hp'. destruct Hp' as [L H]. split; [cbn; lia|]. intros b [<-|Hb]; auto.
    + intros [L H]. destruct p as [|a p]; [discriminate|]. exists a. split; [apply H; now left|]. apply in_map. apply IH. split; [cbn in L; lia|]. intros b Hb. apply H. now right.
Qed.
Lemma code_rows t c G : 0 <= t -> sumf (fun p => inv_sign p * G (rows t c p)) (product_rep (zrange 0 (t + 1)) (Z.to_nat (cube_dim c))) = SC (Z.to_nat t) G c.
Proof.
  intros Ht. revert G. induction c as [|a w IH]; intros G.
  - change (Z.to_nat (cube_dim [])) with O. cbn [product_rep rows]. rewrite sumf_cons, sumf_nil. change (inv_sign []) with 1. rewrite Z.mul_1_l, Z.add_0_r.
    rewrite <- (Z2Nat.id t) at 1 by lia. generalize (Z.to_nat t). intros n. clear t Ht. revert G. induction n as [|n IHn]; intros G; [reflexivity|].
    cbn [SC]. change (se (fun f b => SC n (fun u => G (f :: u)) b) []) with (SC n (fun u => G ([] :: u)) []). rewrite <- IHn. f_equal.
    replace (Z.of_nat (Datatypes.S n) + 1) with (Z.of_nat n + 1 + 1) by lia. rewrite (zrange_cons 0) by lia. cbn [map]. f_equal.
    rewrite (zrange_shift 0 (Z.of_nat n + 1) 1), map_map. reflexivity.
  - rewrite cube_dim_cons. destruct (Z.eqb_spec a 2) as [->|N].
    + pose proof (cube_dim_nonneg w). replace (Z.to_nat (1 + cube_dim w)) with (Datatypes.S (Z.to_nat (cube_dim w))) by lia. cbn [product_rep]. rewrite sumf_flat_map, SC_2.
      rewrite Z2Nat.id by lia. apply sumf_ext. intros f Hf. apply in_zrange in Hf. rewrite sumf_map, <- IH. apply sumf_ext. intros p Hp. apply in_product_rep in Hp. destruct Hp as [Lp Hp].
      cbn [rows]. change (2 =? 2) with true. cbn iota. rewrite inv_sign_cons. destruct (rows_spec t w p) as [_ E]; [lia|unfold zlen; lia| |rewrite E; ring].
      intros g Hg. specialize (Hp g Hg). now apply in_zrange in Hp.
    + rewrite Z.add_0_l, SC_n by assumption. rewrite <- IH. apply sumf_ext. intros p _. cbn [rows]. destruct (Z.eqb_spec a 2); [contradiction|]. reflexivity.
Qed.

(** the loop of the code *)
Definition istep (mb : list (list Z)) (at_ f : Z) : list (list Z) := map (fun '(i, nb) => py_insert nb at_ (elementary_summand f i)) (enumerate mb).
Definition zipc (h : list Z) (u : list (list Z)) : list (list Z) := map (fun '(a, c) => a :: c) (combine h u).
Lemma py_insert_S {B} (x : B) l i a : 0 <= i -> py_insert (x :: l) (i + 1) a = x :: py_insert l i a.
Proof. intros Hi. unfold py_insert. rewrite slice_to_S, slice_from_S by assumption. reflexivity. Qed.
Lemma istep_from (h : list Z) (mb : list (list Z)) (at_ f : Z) : 0 <= at_ -> length h = length mb ->
  istep (zipc h mb) (at_ + 1) f = zipc h (istep mb at_ f).
Proof.
  intros Ha. revert h f. induction mb as [|c mb IH]; intros h f L; destruct h as [|x h]; try discriminate; [reflexivity|].
  unfold istep, zipc in *. cbn [combine map]. rewrite !enumerate_cons. cbn [map combine]. rewrite py_insert_S by assumption. f_equal. rewrite !map_map.
  assert (E : forall i, elementary_summand f (i + 1) = elementary_summand (f - 1) i).
  { intros i. unfold elementary_summand. destruct (Z.ltb_spec (i + 1) f), (Z.ltb_spec i (f - 1)); try lia. destruct (Z.eqb_spec (i + 1) f), (Z.eqb_spec i (f - 1)); (lia || reflexivity). }
  rewrite (map_ext _ (fun '(i, nb) => py_insert nb (at_ + 1) (elementary_summand (f - 1) i))) by (intros [i nb]; cbn [fst snd]; now rewrite E).
  rewrite (map_ext (fun x0 => let '(i, nb) := (fst x0 + 1, snd x0) in py_insert nb at_ (elementary_summand f i)) (fun '(i, nb) => py_insert nb at_ (elementary_summand (f - 1) i))) by (intros [i nb]; cbn [fst snd]; now rewrite E).
  apply IH. now injection L.
Qed.
Fixpoint iloop (ivs p : list Z) (mb : list (list Z)) : list (list Z) :=
  match ivs, p with
  | i :: ivs', f :: p' => iloop ivs' p' (istep mb i f)
  | _, _ => mb
  end.
Lemma len_enumerate {B} (l : list B) : length (enumerate l) = length l.
Proof. pose proof (zlen_enumerate l) as E. unfold zlen in E. lia. Qed.
Lemma iloop_shift ivs p h mb : (forall i, In i ivs -> 0 <= i) -> length h = length mb -> iloop (map (fun i => i + 1) ivs) p (zipc h mb) = zipc h (iloop ivs p mb).
Proof.
  revert p mb. induction ivs as [|i ivs IH]; intros [|f p] mb Hi L; try reflexivity. cbn [map iloop]. rewrite istep_from by (auto; apply Hi; now left).
  apply IH; [intros; apply Hi; now right|]. unfold istep. now rewrite map_length, len_enumerate.
Qed.
Lemma len_iloop ivs p mb : length (iloop ivs p mb) = length mb.
Proof. revert p mb. induction ivs as [|i ivs IH]; intros [|f p] mb; try reflexivity. cbn [iloop]. rewrite IH. unfold istep. now rewrite map_length, len_enumerate. Qed.
Definition basec (c : list Z) : list Z := filter (fun a => negb (a =? 2)) c.
Lemma base_ok c : map snd (filter (fun q => negb (mem (fst q) (cube_intervals c))) (enumerate c)) = basec c.
Proof.
  induction c as [|a w IH]; [reflexivity|]. rewrite enumerate_cons. unfold basec in *. cbn [filter fst].
  assert (E : map snd (filter (fun q => negb (mem (fst q) (cube_intervals (a :: w)))) (map (fun p : Z * Z => (fst p + 1, snd p)) (enumerate w))) = filter (fun b => negb (b =? 2)) w).
  { rewrite <- IH. rewrite intervals_cons. set (h := if a =? 2 then [0] else []).
    assert (Hh : forall z, In z h -> z = 0) by (unfold h; intros z; destruct (a =? 2); [intros [<-|[]]; reflexivity|intros []]).
    assert (Hn : forall q, In q (enumerate w) -> 0 <= fst q) by (intros [i b] Hq; apply in_enumerate in Hq; destruct Hq as (l1 & l2 & _ & ->); apply zlen_nonneg).
    clear IH. induction (enumerate w) as [|[i b] l IHl]; [reflexivity|]. cbn [map filter fst snd].
    assert (Em : mem (i + 1) (h ++ map (fun j => j + 1) (cube_intervals w)) = mem i (cube_intervals w)).
    { rewrite mem_app. pose proof (Hn (i, b) (or_introl eq_refl)) as Hi. cbn [fst] in Hi. replace (mem (i + 1) h) with false.
      2:{ symmetry. apply mem_notin. intros Hin. apply Hh in Hin. lia. } cbn [orb].
      apply eq_true_iff_eq. rewrite !mem_in. rewrite in_map_iff. split; [intros (j & Ej & Hj); assert (j = i) as -> by lia; exact Hj|]. intros Hj. now exists i. }
    rewrite Em. destruct (mem i (cube_intervals w)); cbn [negb map snd]; rewrite IHl; auto; intros q Hq; apply Hn; now right. }
  assert (Em : mem 0 (cube_intervals (a :: w)) = (a =? 2)).
  { rewrite intervals_cons, mem_app. replace (mem 0 (map (fun i => i + 1) (cube_intervals w))) with false.
    - rewrite orb_false_r. destruct (a =? 2); reflexivity.
    - symmetry. apply mem_notin. intros Hin. apply in_map_iff in Hin. destruct Hin as (j & Ej & Hj). apply intervals_nonneg in Hj. lia. }
  rewrite Em. destruct (a =? 2); cbn [negb map snd]; [exact E|]. f_equal. exact E.
Qed.
Lemma map_zipc a u : map (cons a) u = zipc (map (fun _ => a) u) u.
Proof. unfold zipc. induction u as [|c u IH]; [reflexivity|]. cbn. f_equal. exact IH. Qed.
Lemma col_zipc f u : col f u = zipc (map (fun i => elementary_summand f i) (zrange 0 (zlen u))) u.
Proof.
  unfold zipc, col, enumerate. generalize (zrange 0 (zlen u)). intros l. revert u. induction l as [|i l IH]; intros [|c u]; try reflexivity. cbn [combine map]. f_equal. apply IH.
Qed.
Lemma iloop_rows t c p : 0 <= t -> zlen p = cube_dim c -> iloop (cube_intervals c) p (map (fun _ => basec c) (zrange 0 (t + 1))) = rows t c p.
Proof.
  intros Ht. revert p. induction c as [|a w IH]; intros p Lp.
  - reflexivity.
  - rewrite cube_dim_cons in Lp. rewrite intervals_cons. cbn [rows]. unfold basec. cbn [filter]. fold (basec w). destruct (Z.eqb_spec a 2) as [->|N]; cbn [negb app].
    + destruct p as [|f p]; [rewrite zlen_nil in Lp; pose proof (cube_dim_nonneg w); lia|]. rewrite zlen_cons in Lp. cbn [iloop].
      assert (E : istep (map (fun _ => basec w) (zrange 0 (t + 1))) 0 f = col f (map (fun _ => basec w) (zrange 0 (t + 1)))).
      { unfold istep, col. apply map_ext. intros [i nb]. unfold py_insert. rewrite slice_to_firstn, slice_from_skipn by lia. reflexivity. }
      rewrite E, col_zipc, iloop_shift, IH by (try (intros; now apply intervals_nonneg with w); try lia; rewrite !map_length, !zrange_length, zlen_map, zlen_zrange; lia).
      rewrite col_zipc. do 3 f_equal. rewrite <- (IH p) by lia. unfold zlen. now rewrite len_iloop.
    + rewrite <- (map_map (fun _ => basec w) (cons a)), map_zipc, iloop_shift, IH, map_zipc by (try (intros; now apply intervals_nonneg with w); try lia; now rewrite !map_length).
      f_equal. rewrite <- (IH p) by lia. generalize (len_iloop (cube_intervals w) p (map (fun _ => basec w) (zrange 0 (t + 1)))). intros L.
      clear -L. revert L. generalize (iloop (cube_intervals w) p (map (fun _ => basec w) (zrange 0 (t + 1)))). generalize (map (fun _ => basec w) (zrange 0 (t + 1))).
      intros l l'. revert l. induction l' as [|? l' IH]; intros [|? l] L; try discriminate; [reflexivity|]. cbn. f_equal. apply IH. now injection L.
Qed.
Lemma diag_cubes_ok c t p : 0 <= t -> zlen p = cube_dim c -> diag_cubes c t p = Ok (rows t c p).
Proof.
  intros Ht Lp. unfold diag_cubes. rewrite base_ok, <- iloop_rows by assumption. rewrite <- zlen_intervals in Lp.
  generalize (map (fun _ => basec c) (zrange 0 (t + 1))). intros mb.
  assert (G : forall pre ivs p mb, zlen p = zlen ivs ->
    for_ (map (fun q : Z * Z => (fst q + zlen pre, snd q)) (enumerate p)) mb (fun multibase '(idx, fixed) => let! at_ := py_get (pre ++ ivs) idx in
      Ok (map (fun '(i, new_base) => py_insert new_base at_ (elementary_summand fixed i)) (enumerate multibase))) = Ok (iloop ivs p mb)).
  { clear. intros pre ivs p. revert pre ivs. induction p as [|f p IH]; intros pre ivs mb L.
    - symmetry in L. apply zlen_0 in L. subst. reflexivity.
    - destruct ivs as [|i ivs]; [rewrite zlen_nil, zlen_cons in L; pose proof (zlen_nonneg p); lia|]. rewrite !zlen_cons in L. rewrite enumerate_cons. cbn [map for_ fst snd].
      rewrite Z.add_0_l, py_get_app. cbn [bind iloop]. rewrite map_map. replace (pre ++ i :: ivs) with ((pre ++ [i]) ++ ivs) by (now rewrite <- app_assoc).
      rewrite <- (IH (pre ++ [i])) by lia. f_equal. apply map_ext. intros [j b]. cbn [fst snd]. f_equal. rewrite zlen_app, zlen_cons, zlen_nil. ring. }
  rewrite <- (G [] (cube_intervals c) p mb Lp). cbn [app]. f_equal. rewrite <- (map_id (enumerate p)) at 1. apply map_ext. intros [j b]. cbn [fst snd]. rewrite zlen_nil. f_equal. ring.
Qed.

(** ** the operation *)
Definition SdC (t : nat) (coord : Z) (g : list (list Z) -> Z) (k : list (list Z)) : Z :=
  at_pos (coord - 1) (fun l1 s l2 => SC t (fun u => g (l1 ++ u ++ l2)) s) k.
Lemma SdC_serre t coord g k : SdC t coord g k = ev g (serre_at t coord k).
Proof.
  unfold SdC, at_pos, serre_at, ev. rewrite sumf_flat_map, cuts_splits. apply sumf_ext. intros [[l1 s] l2] _.
  destruct (zlen l1 =? coord - 1); [|reflexivity]. rewrite SC_sum, sumf_map. apply sumf_ext. intros [u e] _. cbn [fst snd]. ring.
Qed.
Notation kdegC := (kdeg cube_dim).
Lemma cub_degree_ok n d (x : cubc) : keys_in (kdegC n d) x -> data x <> [] -> cub_degree x = Some d.
Proof.
  intros Kx N. unfold cub_degree. rewrite (zset_const _ d); [reflexivity| |].
  - unfold dkeys. rewrite map_map. now destruct (data x).
  - intros m Hm. apply in_map_iff in Hm. destruct Hm as (k & <- & Hk). apply in_map_iff in Hk. destruct Hk as ([k' v] & <- & Hin). exact (proj2 (Kx _ _ Hin)).
Qed.
Lemma diagC_den dt t n d times coord (x : cubc) : 0 <= t -> dt_ok dt t -> wf cls_cubical x -> torsion x = t -> keys_in (kdegC n d) x -> data x <> [] ->
  1 <= coord <= n -> 0 <= times ->
  returns (cub_iterated_diagonal dt x times coord) (den cls_cubical t tt (fun g => ev (SdC (Z.to_nat times) coord g) (data x))).
Proof.
  intros Ht Hdt Wx Tx Kx Nx Hc Htm. unfold cub_iterated_diagonal. rewrite (cub_degree_ok n d) by assumption.
  unfold cub_arity. rewrite (tensor_arity_ok n) by (assumption || (intros k v Hin; exact (proj1 (Kx _ _ Hin)))).
  destruct (Z.ltb_spec n coord); [lia|].
  eapply returns_bind; [apply (zero_den cls_cubical ok_cubical dt t); auto|]. intros y0 Hy0. rewrite cub_attr in Hy0.
  eapply returns_mono.
  - apply (loop_den cls_cubical ok_cubical t tt (data x) _ (fun k g => SdC (Z.to_nat times) coord g k)); [|exact Hy0].
    intros k v F y Hin Hy. destruct (Kx _ _ Hin) as [Lk Dk]. destruct (split_at k (coord - 1)) as (l1 & s & l2 & -> & E1); [lia|].
    rewrite <- E1, slice_to_app, py_get_app. cbn [bind]. replace coord with (zlen l1 + 1) by lia. rewrite slice_from_app_S. fold (cube_dim s). eapply returns_mono.
    + apply (for_den cls_cubical t _ _ (fun p g => v * (inv_sign p * g (l1 ++ rows times s p ++ l2))) tt); [|exact Hy].
      intros p F1 y1 Hp Hy1. apply in_product_rep in Hp. destruct Hp as [Lp _]. rewrite diag_cubes_ok by (auto; unfold zlen; pose proof (cube_dim_nonneg s); lia). cbn [bind].
      eapply returns_mono; [eapply (add_term_den cls_cubical ok_cubical dt t); eauto; [exact (proj1 Hy1)|eexists; reflexivity]|].
      intros z Hz. eapply den_ext; [|exact Hz]. intros g _. cbn beta. apply eqm_eq. ring.
    + intros z Hz. eapply den_ext; [|exact Hz]. intros g _. cbn beta. apply eqm_eq. f_equal. rewrite sumf_scal. f_equal. unfold SdC. rewrite at_pos_app by lia.
      apply (code_rows times s (fun u => g (l1 ++ u ++ l2))). exact Htm.
  - intros z Hz. eapply den_ext; [|exact Hz]. intros g Hg. cbn beta. apply eqm_eq. now rewrite Z.add_0_l.
Qed.
Definition ext_diagC dt times coord := extended1 dt cls_cubical (fun x => cub_iterated_diagonal dt x times coord).
Lemma serre_at_deg n d times coord k k' v : 1 <= coord <= n -> kdegC n d k -> In (k', v) (serre_at times coord k) -> kdegC (n + Z.of_nat times) d k'.
Proof.
  intros Hc [Lk Dk] Hin. unfold serre_at in Hin. apply in_flat_map in Hin. destruct Hin as ([[l1 s] l2] & Hs & Hin). rewrite cuts_splits in Hs. apply splits_in in Hs.
  destruct (zlen l1 =? coord - 1); [|destruct Hin]. apply in_map_iff in Hin. destruct Hin as ([u e] & [= <- <-] & Hu). apply serre_deg in Hu. destruct Hu as [E1 E2].
  subst k. unfold kdeg. rewrite !tdeg_app, tdeg_cons, !zlen_app, zlen_cons in *. lia.
Qed.
Lemma rep_SdC n d times coord : 1 <= coord <= n -> rep (kdegC n d) (kdegC (n + Z.of_nat times) d) (SdC times coord).
Proof. intros Hc k Hk. exists (serre_at times coord k). split; [intros k' v; now apply serre_at_deg|]. intros g. apply SdC_serre. Qed.
(** no cubical key is degenerate *)
Lemma cub_admop {K} `{PyKey K} (c' : pycls K) P Q (D : (K -> Z) -> list (list Z) -> Z) : admop cls_cubical c' P Q D.
Proof. intros g _. apply admP_keyeq. intros k _ [=]. Qed.
Lemma kpred_kdegC n d : kpred (kdegC n d). Proof. apply kpred_kdeg. Qed.
Lemma linop_diagC dt t n d times coord : 0 <= t -> dt_ok dt t -> 1 <= coord <= n -> 0 <= times ->
  linop cls_cubical cls_cubical t tt tt (kdegC n d) (kdegC (n + times) d) (SdC (Z.to_nat times) coord) (ext_diagC dt times coord).
Proof.
  intros Ht Hdt Hc Htm. assert (R := rep_SdC n d (Z.to_nat times) coord Hc). rewrite Z2Nat.id in R by lia.
  apply (linop_intro cls_cubical cls_cubical ok_cubical); auto using kpred_kdegC.
  - now apply rep_local.
  - apply (rep_zero _ _ _ R).
  - intros x Wx Tx Ax Kx. unfold ext_diagC, extended1. destruct (data x) eqn:E; cbn [dempty].
    + eapply returns_mono; [apply (zero_den cls_cubical ok_cubical dt t); auto|]. intros z Hz. rewrite Ax in Hz. exact Hz.
    + rewrite <- E. apply (diagC_den dt t n d); auto. rewrite E. discriminate.
Qed.
Lemma SdC_app times coord g l1 s l2 : zlen l1 = coord - 1 -> SdC times coord g (l1 ++ s :: l2) = SC times (fun u => g (l1 ++ u ++ l2)) s.
Proof. intros E. unfold SdC. now rewrite at_pos_app. Qed.
Lemma SC_exch_tD t (H : list (list Z) -> list (list Z) -> Z) k s : SC t (fun u => tDC (H u) k) s = tDC (fun k' => SC t (fun u => H u k') s) k.
Proof. unfold tD. apply (SC_exch t (fun k' u => H u k')). Qed.
Lemma SdC_chain times coord g l1 s l2 : zlen l1 = coord - 1 ->
  SdC times coord (tDC g) (l1 ++ s :: l2) = tDC (SdC times coord g) (l1 ++ s :: l2).
Proof.
  intros E. rewrite SdC_app by assumption.
  rewrite tD_app, tD_cons.
  rewrite (tD_ext _ _ _ (fun v => SC times (fun u => g (v ++ u ++ l2)) s)).
  2:{ intros k' v Hin. apply SdC_app. apply (tdeg_tb fbC cube_dim dim_fbC) in Hin. unfold zlen in *. lia. }
  rewrite (fdC_ext _ (fun s' => SC times (fun u => g (l1 ++ u ++ l2)) s')) by (intros; now apply SdC_app).
  rewrite (tD_ext_all _ _ (fun k' => SdC times coord g (l1 ++ s :: k')) (fun k' => SC times (fun u => g (l1 ++ u ++ k')) s)) by (intros; now apply SdC_app).
  rewrite <- (SC_chain times (fun u => g (l1 ++ u ++ l2))).
  rewrite <- !(SC_exch_tD times). rewrite <- !SC_scal, <- SC_add, <- SC_scal, <- SC_add. apply SC_ext. intros u Eu _.
  rewrite !tD_app, Eu. reflexivity.
Qed.
Lemma SdC_coassoc t t' i j g l1 s l2 : zlen l1 = i - 1 -> i <= j <= i + Z.of_nat t -> SdC t i (SdC t' j g) (l1 ++ s :: l2) = SdC (t + t') i g (l1 ++ s :: l2).
Proof.
  intros E Hj. rewrite !SdC_app by assumption. rewrite <- (SC_coassoc t t' (fun u => g (l1 ++ u ++ l2)) (j - i) s) by lia.
  apply SC_ext. intros u _ Lu. destruct (split_at u (j - i)) as (u1 & b & u2 & -> & E1); [lia|]. rewrite at_pos_app by assumption.
  replace (l1 ++ (u1 ++ b :: u2) ++ l2) with ((l1 ++ u1) ++ b :: (u2 ++ l2)) by (rewrite <- !app_assoc; reflexivity).
  rewrite SdC_app by (rewrite zlen_app; lia). apply SC_ext. intros w _ _. f_equal. now rewrite <- !app_assoc.
Qed.
