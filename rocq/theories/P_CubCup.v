(** * Property theorems.  Generated by tools/mkprop.py from the tagged lemmas of
    CubCupLaws.v: every theorem is closed by [exact]. *)
From Coq Require Import Znumtheory Sorting.Sorted.
From Verif Require Import PyBase Dict FreeModule Symmetric Simplicial Cubical Utils Surjection Spec SpecChain SpecOperad SpecSurj SpecAction SpecCube SpecCubAction SpecCup SpecCubCup CubCupLaws.

(** The word (1, 2, ..., r) acts on cubical chains as the iterated
    Serre diagonal, in every convention and with every torsion:
    [w(y, coord) == y.iterated_diagonal(r - 1, coord)]. *)
Theorem C77_diagonal : forall (dt r n e coord : Z) (dc cv : conv) (w : surj) (y : cubc),
  1 <= r -> 1 <= coord <= n -> wf cls_cubical y -> data y <> [] -> dt_ok dt (torsion y) ->
  keys_in (fun k => zlen k = n /\ cube_degree k = e) y ->
  surj_new dt dc [(zrange 1 (r + 1), 1)] (Some (torsion y)) (Some cv) = Ok w ->
  same (surj_call_cubical dt w y coord) (cub_iterated_diagonal dt y (r - 1) coord).
Proof. exact @C77_diagonal_l. Qed.
Print Assumptions C77_diagonal.

(** The action never leaves a subcomplex: if the factors of y lie in
    a set X of cubes that is closed under faces, so do all factors of x(y, coord). *)
Theorem C77_faces : forall (dt r d n e coord : Z) (X : list Z -> Prop) (x : surj) (y : cubc),
  cubical_set X -> 1 <= r -> 1 <= coord <= n -> wf cls_surj x -> wf cls_cubical y -> torsion y = torsion x -> dt_ok dt (torsion x) ->
  keys_in (surj_cell r d) x -> keys_in (fun k => zlen k = n /\ cube_degree k = e /\ forall c, In c k -> X c /\ is_cube c) y ->
  exists z, surj_call_cubical dt x y coord = Ok z /\ keys_in (fun k => zlen k = n + r - 1 /\ cube_degree k = e + d /\ forall c, In c k -> X c /\ is_cube c) z.
Proof. exact @C77_faces_l. Qed.
Print Assumptions C77_faces.

(** (a * s)(x) == a * s(x) with coefficients mod 2, in the
    Berger-Fresse and in the McClure-Smith convention. *)
Theorem C77_equivariant : forall (dt r d e : Z) (a : ring) (s : surj) (x : cubc),
  1 <= r -> wf cls_ring a -> wf cls_surj s -> wf cls_cubical x -> torsion a = 2 -> torsion s = 2 -> torsion x = 2 -> dt_ok dt 2 -> attr s = BF \/ attr s = MS ->
  keys_in (fun k => perm r (kval k)) a -> keys_in (surj_cell r d) s -> keys_in (fun k => zlen k = 1 /\ cube_degree k = e) x ->
  same (let! u := extended dt cls_surj (surj_act dt) a s in surj_call_cubical dt u x 1)
       (let! v := surj_call_cubical dt s x 1 in extended dt cls_cubical (cub_act dt) a v).
Proof. exact @C77_equivariant_l. Qed.
Print Assumptions C77_equivariant.

(** [may_steenrod_structure(2, d)] sends cubes of dimension less
    than d to zero, for every torsion and in both conventions. *)
Theorem C77_unstable : forall (dt d e : Z) (dc cv : conv) (ot : option Z) (ov : option conv) (X : list Z -> Prop) (S : surj) (c : cubc),
  torsion c = match ot with Some t => if t =? 0 then dt else t | None => dt end -> cv = match ov with Some c => c | None => dc end -> cv = BF \/ cv = MS ->
  e < d -> wf cls_cubical c -> torsion c <> 1 -> dt_ok dt (torsion c) -> keys_in (cub_cell X e) c ->
  0 <= d -> surj_may_steenrod dt dc 2 d ot ov = Ok S -> gives cls_cubical (surj_call_cubical dt S c 1) (torsion c) tt [].
Proof. exact @C77_unstable_l. Qed.
Print Assumptions C77_unstable.

(** Mod 2 it sends every cube s of dimension d to s times s. *)
Theorem C77_square : forall (dt d : Z) (dc cv : conv) (ov : option conv) (X : list Z -> Prop) (S : surj) (c : cubc),
  cv = match ov with Some c => c | None => dc end -> cv = BF \/ cv = MS -> wf cls_cubical c -> torsion c = 2 -> dt_ok dt 2 -> keys_in (cub_cell X d) c ->
  0 <= d -> surj_may_steenrod dt dc 2 d (Some 2) ov = Ok S ->
  gives cls_cubical (surj_call_cubical dt S c 1) 2 tt (extend (fun k => [(k ++ k, 1)]) c).
Proof. exact @C77_square_l. Qed.
Print Assumptions C77_square.

(** Steenrod's coboundary formula.  Write (a u_d b)(c) for the
    value of a times b on S_d(c), where S_d = may_steenrod_structure(2, d).
    Mod 2, for all cochains a, b and every chain c of cubes, and d >= 1:
    (a u_d b)(dc) = (da u_d b)(c) + (a u_d db)(c) + (a u_(d-1) b)(c) + (b u_(d-1) a)(c). *)
Theorem C77_coboundary : forall (dt d e : Z) (dc cv cv' : conv) (ov ov' : option conv) (X : list Z -> Prop) (S S' : surj) (c : cubc) (a b : list Z -> Z),
  cv = match ov with Some c => c | None => dc end -> cv = BF \/ cv = MS -> cv' = match ov' with Some c => c | None => dc end -> cv' = BF \/ cv' = MS ->
  1 <= d -> dt_ok dt 2 -> wf cls_cubical c -> torsion c = 2 -> keys_in (cub_cell X e) c ->
  surj_may_steenrod dt dc 2 d (Some 2) ov = Ok S -> surj_may_steenrod dt dc 2 (d - 1) (Some 2) ov' = Ok S' ->
  exists bc z y y', cub_boundary dt c = Ok bc /\ surj_call_cubical dt S bc 1 = Ok z /\ surj_call_cubical dt S c 1 = Ok y /\ surj_call_cubical dt S' c 1 = Ok y' /\
    cub_value (on_pair a b) z mod 2 =
    (cub_value (on_pair (cub_coboundary a) b) y + cub_value (on_pair a (cub_coboundary b)) y + cub_value (on_pair a b) y' + cub_value (on_pair b a) y') mod 2.
Proof. exact @C77_coboundary_l. Qed.
Print Assumptions C77_coboundary.

(** For d = 0 the last two terms are absent: the cup product
    satisfies the Leibniz rule. *)
Theorem C77_leibniz : forall (dt e : Z) (dc cv : conv) (ov : option conv) (X : list Z -> Prop) (S : surj) (c : cubc) (a b : list Z -> Z),
  cv = match ov with Some c => c | None => dc end -> cv = BF \/ cv = MS ->
  dt_ok dt 2 -> wf cls_cubical c -> torsion c = 2 -> keys_in (cub_cell X e) c -> surj_may_steenrod dt dc 2 0 (Some 2) ov = Ok S ->
  exists bc z y, cub_boundary dt c = Ok bc /\ surj_call_cubical dt S bc 1 = Ok z /\ surj_call_cubical dt S c 1 = Ok y /\
    cub_value (on_pair a b) z mod 2 = (cub_value (on_pair (cub_coboundary a) b) y + cub_value (on_pair a (cub_coboundary b)) y) mod 2.
Proof. exact @C77_leibniz_l. Qed.
Print Assumptions C77_leibniz.

(** The action on cubical chains is not an operad action, not
    even mod 2: for x = (1,2,1), w = (1,2) and the square, (x o_1 w)(y) differs from
    w acting on the first factor of x(y). *)
Theorem C77_operad_refuted : exists x w y xw u xy v, surj_new 0 MS [([1; 2; 1], 1)] (Some 2) (Some MS) = Ok x /\ surj_new 0 MS [([1; 2], 1)] (Some 2) (Some MS) = Ok w /\ cub_new 0 [([[2; 2]], 1)] (Some 2) = Ok y /\
    surj_compose 0 x w 1 = Ok xw /\ surj_call_cubical 0 xw y 1 = Ok u /\ surj_call_cubical 0 x y 1 = Ok xy /\ surj_call_cubical 0 w xy 1 = Ok v /\
    exists k, dget (data u) k <> dget (data v) k.
Proof. exact @C77_operad_refuted_l. Qed.
Print Assumptions C77_operad_refuted.

(** A chain of two squares in the 3-cube meets the hypotheses, with a non-zero cup-1 product. *)
Example C77_example : exists (S1 S0 : surj) (x y : cubc), surj_may_steenrod 0 MS 2 1 (Some 2) None = Ok S1 /\ surj_may_steenrod 0 MS 2 0 (Some 2) None = Ok S0 /\
  cub_new 0 [([[2; 0; 2]], 1); ([[2; 2; 1]], 1)] (Some 2) = Ok x /\ wf cls_cubical x /\ torsion x = 2 /\ keys_in (cub_cell (fun c => zlen c = 3) 2) x /\ cubical_set (fun c => zlen c = 3) /\
  surj_call_cubical 0 S1 x 1 = Ok y /\ cub_value (on_pair (fun _ => 1) (fun c => match c with [u; _; w] => u * (w + 1) | _ => 0 end)) y mod 2 = 1.
Proof. exact @C77_example_l. Qed.

(** Squares of cocycles are cocycles.  For a cochain a with values
    mod 2 that is a cocycle on the cubical complex X, and S = steenrod_operation(2, s, q):
    the value of a times a on S(bc) is 0 when bc is the boundary of a chain c in X. *)
Theorem C78_cocycle : forall (dt s q e : Z) (dc : conv) (X : list Z -> Prop) (S : surj) (c : cubc) (a : list Z -> Z),
  0 <= s - q -> dt_ok dt 2 -> cubical_set X -> cub_cocycle X a -> wf cls_cubical c -> torsion c = 2 -> keys_in (cub_cell X e) c ->
  surj_steenrod_operation dt dc 2 s q false (Some MS) = Ok S ->
  exists bc z, cub_boundary dt c = Ok bc /\ surj_call_cubical dt S bc 1 = Ok z /\ cub_value (on_pair a a) z mod 2 = 0.
Proof. exact @C78_cocycle_l. Qed.
Print Assumptions C78_cocycle.

(** On cycles the operation is additive: Sq(a + b) = Sq(a) + Sq(b). *)
Theorem C78_additive : forall (dt s q e : Z) (dc : conv) (X : list Z -> Prop) (S : surj) (c bc : cubc) (a b : list Z -> Z),
  0 <= s - q -> dt_ok dt 2 -> cubical_set X -> cub_cocycle X a -> cub_cocycle X b -> wf cls_cubical c -> torsion c = 2 -> keys_in (cub_cell X e) c ->
  cub_boundary dt c = Ok bc -> data bc = [] -> surj_steenrod_operation dt dc 2 s q false (Some MS) = Ok S ->
  exists z, surj_call_cubical dt S c 1 = Ok z /\
    cub_value (on_pair (fun u => a u + b u) (fun u => a u + b u)) z mod 2 = (cub_value (on_pair a a) z + cub_value (on_pair b b) z) mod 2.
Proof. exact @C78_additive_l. Qed.
Print Assumptions C78_additive.

(** The value of the operation on a cycle depends only on the class of
    the cocycle: replacing a by a' = a + coboundary of f (mod 2, on X) does not change it. *)
Theorem C78_class : forall (dt s q e : Z) (dc : conv) (X : list Z -> Prop) (S : surj) (c bc : cubc) (a a' f : list Z -> Z),
  0 <= s - q -> dt_ok dt 2 -> cubical_set X -> cub_cocycle X a -> (forall x, X x -> a' x mod 2 = (a x + cub_coboundary f x) mod 2) ->
  wf cls_cubical c -> torsion c = 2 -> keys_in (cub_cell X e) c ->
  cub_boundary dt c = Ok bc -> data bc = [] -> surj_steenrod_operation dt dc 2 s q false (Some MS) = Ok S ->
  exists z, surj_call_cubical dt S c 1 = Ok z /\ cub_value (on_pair a' a') z mod 2 = cub_value (on_pair a a) z mod 2.
Proof. exact @C78_class_l. Qed.
Print Assumptions C78_class.

(** Sq^0 is the identity: on chains of cubes of dimension m the operation
    steenrod_operation(2, 0, -m) does not change the value of any cochain mod 2. *)
Theorem C78_sq0 : forall (dt m : Z) (dc : conv) (X : list Z -> Prop) (S : surj) (c : cubc) (a : list Z -> Z),
  0 <= m -> dt_ok dt 2 -> wf cls_cubical c -> torsion c = 2 -> keys_in (cub_cell X m) c ->
  surj_steenrod_operation dt dc 2 0 (- m) false (Some MS) = Ok S ->
  exists z, surj_call_cubical dt S c 1 = Ok z /\ cub_value (on_pair a a) z mod 2 = cub_value (on_single a) c mod 2.
Proof. exact @C78_sq0_l. Qed.
Print Assumptions C78_sq0.

(** Operations with s - q larger than the dimension vanish. *)
Theorem C78_unstable : forall (dt s q e : Z) (dc : conv) (X : list Z -> Prop) (S : surj) (c : cubc),
  0 <= s - q -> e < s - q -> dt_ok dt 2 -> wf cls_cubical c -> torsion c = 2 -> keys_in (cub_cell X e) c ->
  surj_steenrod_operation dt dc 2 s q false (Some MS) = Ok S -> gives cls_cubical (surj_call_cubical dt S c 1) 2 tt [].
Proof. exact @C78_unstable_l. Qed.
Print Assumptions C78_unstable.

(** The operation with s = q is the cup square, the value of a times a on the diagonal. *)
Theorem C78_top : forall (dt q e : Z) (dc : conv) (X : list Z -> Prop) (S : surj) (c z : cubc) (a : list Z -> Z),
  dt_ok dt 2 -> wf cls_cubical c -> torsion c = 2 -> data c <> [] -> keys_in (cub_cell X e) c ->
  surj_steenrod_operation dt dc 2 q q false (Some MS) = Ok S -> cub_iterated_diagonal dt c 1 1 = Ok z ->
  exists y, surj_call_cubical dt S c 1 = Ok y /\ cub_value (on_pair a a) y mod 2 = cub_value (on_pair a a) z mod 2.
Proof. exact @C78_top_l. Qed.
Print Assumptions C78_top.

(** Cup products (values on the diagonal) of cocycles mod 2 on a cycle: the
    value depends only on the classes and does not depend on the order of the factors. *)
Theorem C78_cup : forall (dt e : Z) (X : list Z -> Prop) (c bc z : cubc) (a b f h : list Z -> Z),
  dt_ok dt 2 -> cubical_set X -> cub_cocycle X a -> cub_cocycle X b -> wf cls_cubical c -> torsion c = 2 -> data c <> [] -> keys_in (cub_cell X e) c ->
  cub_boundary dt c = Ok bc -> data bc = [] -> cub_iterated_diagonal dt c 1 1 = Ok z ->
  cub_value (on_pair (fun u => a u + cub_coboundary f u) (fun u => b u + cub_coboundary h u)) z mod 2 = cub_value (on_pair a b) z mod 2 /\
  cub_value (on_pair b a) z mod 2 = cub_value (on_pair a b) z mod 2.
Proof. exact @C78_cup_l. Qed.
Print Assumptions C78_cup.

(** A non-trivial case: on the boundary of the 3-cube, a sphere, the
    cochain dual to one square is a cocycle, the sum of the six squares is a cycle, and
    the value of the operation Sq^0 is 1. *)
Example C78_example : let X := fun c => zlen c = 3 /\ is_cube c /\ c <> [2; 2; 2] in let a := fun u => match u with [2; 2; 0] => 1 | _ => 0 end in
  exists (S : surj) (c bc z : cubc), surj_steenrod_operation 0 MS 2 0 (-2) false (Some MS) = Ok S /\
  cub_new 0 [([[1; 2; 2]], 1); ([[0; 2; 2]], 1); ([[2; 1; 2]], 1); ([[2; 0; 2]], 1); ([[2; 2; 1]], 1); ([[2; 2; 0]], 1)] (Some 2) = Ok c /\
  cubical_set X /\ cub_cocycle X a /\ wf cls_cubical c /\ torsion c = 2 /\ keys_in (cub_cell X 2) c /\ cub_boundary 0 c = Ok bc /\ data bc = [] /\
  surj_call_cubical 0 S c 1 = Ok z /\ cub_value (on_pair a a) z mod 2 = 1.
Proof. exact @C78_example_l. Qed.
