(** * Property theorems.  Generated by tools/mkprop.py from the tagged lemmas of
    CupILaws.v: every theorem is closed by [exact]. *)
From Coq Require Import Znumtheory Sorting.Sorted.
From Verif Require Import PyBase Dict FreeModule Symmetric Simplicial Utils Surjection BarrattEccles Spec SpecChain SpecOperad SpecSurj SpecAction SpecCochain SpecCup CupILaws.

(** The word (1, 2, ..., r) acts as the iterated diagonal:
    [w(y, coord) == y.iterated_diagonal(r - 1, coord)]. *)
Theorem C75_diagonal : forall (dt r n e coord : Z) (dc : conv) (w : surj) (y : simp),
  1 <= r -> 1 <= coord <= n -> wf cls_simplicial y -> data y <> [] -> dt_ok dt (torsion y) ->
  keys_in (fun k => zlen k = n /\ total_degree k = e) y ->
  surj_new dt dc [(zrange 1 (r + 1), 1)] (Some (torsion y)) (Some MS) = Ok w ->
  same (surj_call_simplicial dt w y coord) (simp_iterated_diagonal dt y (r - 1) coord).
Proof. exact @C75_diagonal_l. Qed.
Print Assumptions C75_diagonal.

(** [may_steenrod_structure(2, d)] is, up to a sign, the alternating
    word (1, 2, 1, 2, ...) of length d + 2; the sign is 1 in the
    Berger-Fresse convention. *)
Theorem C75_two : forall (dt d u : Z) (dc cv : conv) (ot : option Z) (ov : option conv),
  u = match ot with Some t => if t =? 0 then dt else t | None => dt end -> cv = match ov with Some c => c | None => dc end -> cv = BF \/ cv = MS ->
  0 <= d -> 0 <= u -> u <> 1 -> dt_ok dt u ->
  gives cls_surj (surj_may_steenrod dt dc 2 d ot ov) u cv [(altw 1 (Z.to_nat d + 2), match cv with MS => sgn ((d + 1) / 4) | _ => 1 end)].
Proof. exact @C75_two_l. Qed.
Print Assumptions C75_two.

(** The alternating word of degree [d] sends a simplex [s] of dimension
    [d] to plus or minus [s] times [s], and every simplex of smaller dimension
    to zero. *)
Theorem C75_word : forall (dt d e : Z) (dc : conv) (w : surj) (y : simp),
  0 <= e <= d -> wf cls_simplicial y -> dt_ok dt (torsion y) -> keys_in (fun k => exists s, k = [s] /\ zlen s - 1 = e) y ->
  surj_new dt dc [(altw 1 (Z.to_nat d + 2), 1)] (Some (torsion y)) (Some MS) = Ok w ->
  gives cls_simplicial (surj_call_simplicial dt w y 1) (torsion y) tt (if e =? d then extend (fun k => [(k ++ k, alt_sign d)]) y else []).
Proof. exact @C75_word_l. Qed.
Print Assumptions C75_word.

(** [may_steenrod_structure(2, d)] in the McClure-Smith convention
    sends [s] of dimension [d] to (-1)^(d(d-1)/2) [s] times [s], and every
    simplex of smaller dimension to zero. *)
Theorem C75_square : forall (dt d e : Z) (dc : conv) (ot : option Z) (S : surj) (y : simp),
  0 <= e <= d -> wf cls_simplicial y -> dt_ok dt (torsion y) -> torsion y <> 1 -> keys_in (fun k => exists s, k = [s] /\ zlen s - 1 = e) y ->
  torsion y = match ot with Some t => if t =? 0 then dt else t | None => dt end ->
  surj_may_steenrod dt dc 2 d ot (Some MS) = Ok S ->
  gives cls_simplicial (surj_call_simplicial dt S y 1) (torsion y) tt (if e =? d then extend (fun k => [(k ++ k, sgn (d * (d - 1) / 2))]) y else []).
Proof. exact @C75_square_l. Qed.
Print Assumptions C75_square.

(** Sq^0 is the identity: for a cochain [alpha] of degree [m] with
    values modulo 2, [steenrod_operation(2, 0, -m)] does not change the
    value of [alpha] on any chain. *)
Theorem C75_sq0 : forall (dt m : Z) (dc : conv) (S : surj) (c : simp) (alpha : list Z -> Z),
  0 <= m -> dt_ok dt 2 -> cochain m alpha -> wf cls_simplicial c -> torsion c = 2 -> keys_in (fun k => exists s, k = [s] /\ zlen s - 1 = m) c ->
  surj_steenrod_operation dt dc 2 0 (- m) false (Some MS) = Ok S ->
  exists z, surj_call_simplicial dt S c 1 = Ok z /\ evaluate alpha z mod 2 = evaluate alpha c mod 2.
Proof. exact @C75_sq0_l. Qed.
Print Assumptions C75_sq0.

(** Operations that lower the degree are zero: the operation
    [steenrod_operation(2, s, q)] sends every chain of dimension less than
    [s - q] to zero. *)
Theorem C75_negative : forall (dt s q e : Z) (dc : conv) (S : surj) (c : simp),
  0 <= e < s - q -> dt_ok dt 2 -> wf cls_simplicial c -> torsion c = 2 -> keys_in (fun k => exists s, k = [s] /\ zlen s - 1 = e) c ->
  surj_steenrod_operation dt dc 2 s q false (Some MS) = Ok S ->
  gives cls_simplicial (surj_call_simplicial dt S c 1) 2 tt [].
Proof. exact @C75_negative_l. Qed.
Print Assumptions C75_negative.

(** The top operation is the p-th power: when s = q (p = 2) or 2s = q (odd p),
    [steenrod_operation(p, s, q)] acts as the iterated diagonal with p
    factors, so on cochains it is the cup product of [p] equal factors. *)
Theorem C75_top : forall (dt p s q e : Z) (dc : conv) (S : surj) (c : simp),
  p = 2 \/ (3 <= p /\ Z.even p = false) -> dt_ok dt p -> (if p =? 2 then s else 2 * s) = q ->
  wf cls_simplicial c -> torsion c = p -> data c <> [] -> keys_in (fun k => exists s, k = [s] /\ zlen s - 1 = e) c ->
  surj_steenrod_operation dt dc p s q false (Some MS) = Ok S ->
  same (surj_call_simplicial dt S c 1) (simp_iterated_diagonal dt c (p - 1) 1).
Proof. exact @C75_top_l. Qed.
Print Assumptions C75_top.

(** Sq^0 in degree 2, a square with the sign -1, and a vanishing operation. *)
Example C75_example : (exists S, surj_steenrod_operation 0 BF 2 0 (-2) false (Some MS) = Ok S /\ surj_call_simplicial 0 S (mkElt [([[0; 1; 2]], 1)] 2 tt) 1 = Ok (mkElt [([[0; 1; 2]; [0; 1; 2]], 1)] 2 tt)) /\
  (exists S, surj_may_steenrod 0 BF 2 2 None (Some MS) = Ok S /\ surj_call_simplicial 0 S (mkElt [([[0; 1; 2]], 3)] 0 tt) 1 = Ok (mkElt [([[0; 1; 2]; [0; 1; 2]], -3)] 0 tt)) /\
  (exists S, surj_steenrod_operation 0 BF 2 1 (-1) false (Some MS) = Ok S /\ surj_call_simplicial 0 S (mkElt [([[0; 1]], 1)] 2 tt) 1 = Ok (mkElt [] 2 tt)) /\
  wf cls_simplicial (mkElt [([[0; 1; 2]], 1)] 2 tt).
Proof. exact @C75_example_l. Qed.
