(** * Property theorems.  Generated by tools/mkprop.py from the tagged lemmas of
    SimpCupLaws.v: every theorem is closed by [exact]. *)
From Coq Require Import Znumtheory Sorting.Sorted.
From Verif Require Import PyBase Dict FreeModule Symmetric Simplicial Utils Surjection Spec SpecChain SpecOperad SpecSurj SpecAction SpecCochain SpecSimpCup SimpCupLaws.

(** Steenrod's coboundary formula with signs, over every coefficient
    ring.  Let S_d = may_steenrod_structure(2, d, convention='McClure-Smith') and write
    (a u_d b)(c) for the value of a (x) b on S_d(c).  For normalised cochains a, b of
    degrees m, n, every chain c of simplices and d >= 1:
    (da u_d b)(c) + (-1)^m (a u_d db)(c) =
    (-1)^d (a u_d b)(boundary c) + (-1)^d (a u_(d-1) b)(c) + (-1)^(mn) (b u_(d-1) a)(c). *)
Theorem C80_formula : forall (dt d e m n : Z) (dc : conv) (ot : option Z) (S S' : surj) (c : simp) (a b : list Z -> Z),
  torsion c = match ot with Some t => if t =? 0 then dt else t | None => dt end ->
  1 <= d -> 0 <= e -> 0 <= m -> 0 <= n -> wf cls_simplicial c -> torsion c <> 1 -> dt_ok dt (torsion c) ->
  keys_in (fun k => exists s, k = [s] /\ zlen s - 1 = e) c -> cochain m a -> cochain n b ->
  surj_may_steenrod dt dc 2 d ot (Some MS) = Ok S -> surj_may_steenrod dt dc 2 (d - 1) ot (Some MS) = Ok S' ->
  exists bc z y y', simp_boundary dt c = Ok bc /\ surj_call_simplicial dt S bc 1 = Ok z /\ surj_call_simplicial dt S c 1 = Ok y /\ surj_call_simplicial dt S' c 1 = Ok y' /\
    congruent (torsion c)
      (simp_value (simp_pair (simp_coboundary a) b) y + sgn m * simp_value (simp_pair a (simp_coboundary b)) y)
      (sgn d * simp_value (simp_pair a b) z + sgn d * simp_value (simp_pair a b) y' + sgn (m * n) * simp_value (simp_pair b a) y').
Proof. exact @C80_formula_l. Qed.
Print Assumptions C80_formula.

(** The coboundary of a normalised cochain of degree m is a
    normalised cochain of degree m + 1, and the coboundary of a coboundary is 0. *)
Theorem C80_coboundary : forall (m : Z) (a : list Z -> Z),
  0 <= m -> cochain m a ->
  cochain (m + 1) (simp_coboundary a) /\ forall s, simp_coboundary (simp_coboundary a) s = 0.
Proof. exact @C80_coboundary_l. Qed.
Print Assumptions C80_coboundary.

(** The cup product, defined by the diagonal, satisfies the graded
    Leibniz rule: (a u b)(boundary c) = (da u b)(c) + (-1)^m (a u db)(c). *)
Theorem C80_leibniz : forall (dt e m n : Z) (c : simp) (a b : list Z -> Z),
  let diagonal := extended1 dt cls_simplicial (fun y => simp_iterated_diagonal dt y 1 1) in
  0 <= e -> 0 <= m -> 0 <= n -> wf cls_simplicial c -> dt_ok dt (torsion c) ->
  keys_in (fun k => exists s, k = [s] /\ zlen s - 1 = e) c -> cochain m a -> cochain n b ->
  exists bc z y, simp_boundary dt c = Ok bc /\ diagonal bc = Ok z /\ diagonal c = Ok y /\
  congruent (torsion c) (simp_value (simp_pair a b) z) (simp_value (simp_pair (simp_coboundary a) b) y + sgn m * simp_value (simp_pair a (simp_coboundary b)) y).
Proof. exact @C80_leibniz_l. Qed.
Print Assumptions C80_leibniz.

(** The cup product of cocycles is graded commutative on cycles,
    for coefficients in every Z/t and in Z: (a u b)(c) = (-1)^(mn) (b u a)(c). *)
Theorem C80_commutative : forall (dt e m n : Z) (X : list Z -> Prop) (c bc z : simp) (a b : list Z -> Z),
  0 <= e -> 0 <= m -> 0 <= n -> simplicial_set X -> wf cls_simplicial c -> dt_ok dt (torsion c) ->
  keys_in (fun k => exists s, k = [s] /\ X s /\ zlen s - 1 = e) c -> simp_boundary dt c = Ok bc -> data bc = [] -> cochain m a -> cochain n b ->
  (forall s, X s -> congruent (torsion c) (simp_coboundary a s) 0) -> (forall s, X s -> congruent (torsion c) (simp_coboundary b s) 0) ->
  extended1 dt cls_simplicial (fun y => simp_iterated_diagonal dt y 1 1) c = Ok z ->
  congruent (torsion c) (simp_value (simp_pair a b) z) (sgn (m * n) * simp_value (simp_pair b a) z).
Proof. exact @C80_commutative_l. Qed.
Print Assumptions C80_commutative.

(** The value of the cup product of cocycles on a cycle depends only on
    their classes: adding a coboundary to either factor does not change it. *)
Theorem C80_class : forall (dt e m n q : Z) (X : list Z -> Prop) (c bc z : simp) (a b f : list Z -> Z),
  0 <= e -> 0 <= m -> 0 <= n -> 0 <= q -> simplicial_set X -> wf cls_simplicial c -> dt_ok dt (torsion c) ->
  keys_in (fun k => exists s, k = [s] /\ X s /\ zlen s - 1 = e) c -> simp_boundary dt c = Ok bc -> data bc = [] -> cochain m a -> cochain n b -> cochain q f ->
  (forall s, X s -> congruent (torsion c) (simp_coboundary a s) 0) -> (forall s, X s -> congruent (torsion c) (simp_coboundary b s) 0) ->
  extended1 dt cls_simplicial (fun y => simp_iterated_diagonal dt y 1 1) c = Ok z ->
  congruent (torsion c) (simp_value (simp_pair (fun s => a s + simp_coboundary f s) b) z) (simp_value (simp_pair a b) z) /\
  congruent (torsion c) (simp_value (simp_pair a (fun s => b s + simp_coboundary f s)) z) (simp_value (simp_pair a b) z).
Proof. exact @C80_class_l. Qed.
Print Assumptions C80_class.

(** On cycles the cup-d product of cocycles is symmetric up to sign:
    (-1)^d (a u_d b)(c) = (-1)^(mn) (b u_d a)(c). *)
Theorem C80_symmetry : forall (dt d e m n : Z) (dc : conv) (ot : option Z) (X : list Z -> Prop) (S : surj) (c bc : simp) (a b : list Z -> Z),
  torsion c = match ot with Some t => if t =? 0 then dt else t | None => dt end -> 0 <= d ->
  0 <= e -> 0 <= m -> 0 <= n -> simplicial_set X -> wf cls_simplicial c -> torsion c <> 1 -> dt_ok dt (torsion c) ->
  keys_in (fun k => exists s, k = [s] /\ X s /\ zlen s - 1 = e) c -> simp_boundary dt c = Ok bc -> data bc = [] -> cochain m a -> cochain n b ->
  (forall s, X s -> congruent (torsion c) (simp_coboundary a s) 0) -> (forall s, X s -> congruent (torsion c) (simp_coboundary b s) 0) ->
  surj_may_steenrod dt dc 2 d ot (Some MS) = Ok S ->
  exists y, surj_call_simplicial dt S c 1 = Ok y /\ congruent (torsion c) (sgn d * simp_value (simp_pair a b) y) (sgn (m * n) * simp_value (simp_pair b a) y).
Proof. exact @C80_symmetry_l. Qed.
Print Assumptions C80_symmetry.

(** The hypotheses hold for the boundary of a triangle, a circle, with
    integral coefficients: X is the set of its simplices, b the cocycle dual to an edge,
    a the constant 0-cocycle; both products have the value 1. *)
Example C80_example : let X := fun s => s <> [] /\ (forall v, In v s -> v = 0 \/ v = 1 \/ v = 2) /\ ~ (In 0 s /\ In 1 s /\ In 2 s) in
  let a := fun s => match s with [_] => 1 | _ => 0 end in
  let b := fun s => match s with [0; 1] => 1 | [1; 0] => -1 | _ => 0 end in
  exists c bc z, simp_new 0 [([[0; 1]], 1); ([[1; 2]], 1); ([[0; 2]], -1)] None = Ok c /\ wf cls_simplicial c /\ simplicial_set X /\
    keys_in (fun k => exists s, k = [s] /\ X s /\ zlen s - 1 = 1) c /\ simp_boundary 0 c = Ok bc /\ data bc = [] /\ cochain 0 a /\ cochain 1 b /\
    (forall s, X s -> congruent 0 (simp_coboundary a s) 0) /\ (forall s, X s -> congruent 0 (simp_coboundary b s) 0) /\
    extended1 0 cls_simplicial (fun y => simp_iterated_diagonal 0 y 1 1) c = Ok z /\ simp_value (simp_pair a b) z = 1 /\ simp_value (simp_pair b a) z = 1.
Proof. exact @C80_example_l. Qed.

(** The formula for d = 1 on the triangle with integral coefficients and
    non-zero terms: -10 - 1 = -5 - 4 - 2. *)
Example C80_example2 : let a := fun s => match s with [x; y] => if x =? y then 0 else 1 + x | _ => 0 end in
  let b := fun s => match s with [x; y] => if x =? y then 0 else y * y | _ => 0 end in
  cochain 1 a /\ cochain 1 b /\
  exists c bc S S' z y y', simp_new 0 [([[0; 1; 2]], 1)] None = Ok c /\ wf cls_simplicial c /\ simp_boundary 0 c = Ok bc /\
    surj_may_steenrod 0 MS 2 1 None (Some MS) = Ok S /\ surj_may_steenrod 0 MS 2 0 None (Some MS) = Ok S' /\
    surj_call_simplicial 0 S bc 1 = Ok z /\ surj_call_simplicial 0 S c 1 = Ok y /\ surj_call_simplicial 0 S' c 1 = Ok y' /\
    simp_value (simp_pair (simp_coboundary a) b) y = -10 /\ simp_value (simp_pair a (simp_coboundary b)) y = 1 /\
    simp_value (simp_pair a b) z = 5 /\ simp_value (simp_pair a b) y' = 4 /\ simp_value (simp_pair b a) y' = 2.
Proof. exact @C80_example2_l. Qed.
