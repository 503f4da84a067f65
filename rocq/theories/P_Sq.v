(** * Property theorems.  Generated by tools/mkprop.py from the tagged lemmas of
    SqLaws.v: every theorem is closed by [exact]. *)
From Coq Require Import Znumtheory Sorting.Sorted.
From Verif Require Import PyBase Dict FreeModule Symmetric Simplicial Utils Surjection Spec SpecChain SpecOperad SpecSurj SpecAction SpecCochain SpecSimpCup SpecSquares SqLaws.

(** Sq^k(a) and a u b are defined for all cochains of the given degrees
    and determined modulo 2 by the values that the code computes. *)
Theorem C83_squares_exist : forall (dt k m n : Z) (dc : conv) (a b : list Z -> Z),
  0 <= m -> 0 <= n -> dt_ok dt 2 -> cochain m a -> cochain n b ->
  (exists f, is_square dt dc k m a f /\ cochain (m + k) f) /\ (forall f f', is_square dt dc k m a f -> is_square dt dc k m a f' -> forall s, s <> [] -> congruent 2 (f s) (f' s)) /\
  (exists f, is_cup dt a b f /\ cochain (m + n) f) /\ (forall f f', is_cup dt a b f -> is_cup dt a b f' -> forall s, s <> [] -> congruent 2 (f s) (f' s)).
Proof. exact @C83_squares_exist_l. Qed.
Print Assumptions C83_squares_exist.

(** The Cartan formula: Sq^k(a u b) = sum over 0 <= i <= k of Sq^i(a) u Sq^(k-i)(b)
    in the cohomology of every simplicial set X with coefficients modulo 2.  Here a, b are
    cocycles modulo 2 of degrees m, n on X, the cochain ab is their cup product, A i = Sq^i(a)
    and B j = Sq^j(b), all computed by the code, and the two sides are compared on an
    arbitrary cycle c of X. *)
Theorem C83_cartan : forall (dt e m n k : Z) (dc : conv) (X : list Z -> Prop) (c bc : simp) (a b ab : list Z -> Z) (A B : Z -> list Z -> Z),
  0 <= e -> 0 <= m -> 0 <= n -> dt_ok dt 2 -> simplicial_set X -> wf cls_simplicial c -> torsion c = 2 ->
  keys_in (fun key => exists s, key = [s] /\ X s /\ zlen s - 1 = e) c -> simp_boundary dt c = Ok bc -> data bc = [] ->
  cochain m a -> cochain n b -> (forall s, X s -> congruent 2 (simp_coboundary a s) 0) -> (forall s, X s -> congruent 2 (simp_coboundary b s) 0) ->
  is_cup dt a b ab -> (forall i, 0 <= i <= k -> is_square dt dc i m a (A i)) -> (forall j, 0 <= j <= k -> is_square dt dc j n b (B j)) ->
  exists S y z, surj_steenrod_operation dt dc 2 (- k) (- (m + n)) false (Some MS) = Ok S /\ surj_call_simplicial dt S c 1 = Ok y /\
    extended1 dt cls_simplicial (fun w => simp_iterated_diagonal dt w 1 1) c = Ok z /\
    congruent 2 (simp_value (simp_pair ab ab) y) (zsum (map (fun i => simp_value (simp_pair (A i) (B (k - i))) z) (zrange 0 (k + 1)))).
Proof. exact @C83_cartan_l. Qed.
Print Assumptions C83_cartan.

(** The hypotheses hold on the real projective plane with six vertices, a of
    degree 1 not a coboundary, b the unit of degree 0, k = 1; the value is 1. *)
Example C83_example : let T := [[0; 1; 2]; [0; 2; 3]; [0; 3; 4]; [0; 4; 5]; [0; 1; 5]; [1; 2; 4]; [2; 3; 5]; [1; 3; 4]; [2; 4; 5]; [1; 3; 5]] in
  let X := fun s : list Z => s <> [] /\ existsb (fun t => forallb (fun v => existsb (Z.eqb v) t) s) T = true in
  let a := fun s => match s with [x; y] => if existsb (fun p => (fst p =? x) && (snd p =? y) || (fst p =? y) && (snd p =? x)) [(1, 3); (1, 4); (2, 4); (2, 5); (3, 5)] then 1 else 0 | _ => 0 end in
  let b := fun s : list Z => match s with [_] => 1 | _ => 0 end in
  exists c bc ab A B S y z, simp_new 2 (map (fun t => ([t], 1)) T) None = Ok c /\ dt_ok 2 2 /\ simplicial_set X /\ wf cls_simplicial c /\ torsion c = 2 /\
    keys_in (fun key => exists s, key = [s] /\ X s /\ zlen s - 1 = 2) c /\ simp_boundary 2 c = Ok bc /\ data bc = [] /\ cochain 1 a /\ cochain 0 b /\
    (forall s, X s -> congruent 2 (simp_coboundary a s) 0) /\ (forall s, X s -> congruent 2 (simp_coboundary b s) 0) /\
    is_cup 2 a b ab /\ (forall i, is_square 2 BF i 1 a (A i)) /\ (forall j, is_square 2 BF j 0 b (B j)) /\
    surj_steenrod_operation 2 BF 2 (-1) (-1) false (Some MS) = Ok S /\ surj_call_simplicial 2 S c 1 = Ok y /\
    extended1 2 cls_simplicial (fun w => simp_iterated_diagonal 2 w 1 1) c = Ok z /\
    simp_value (simp_pair ab ab) y = 1 /\ map (fun i => simp_value (simp_pair (A i) (B (1 - i))) z) [0; 1] = [0; 1].
Proof. exact @C83_example_l. Qed.
