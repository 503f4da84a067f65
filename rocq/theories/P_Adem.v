(** * Property theorems.  Generated by tools/mkprop.py from the tagged lemmas of
    AdemLaws.v: every theorem is closed by [exact]. *)
From Coq Require Import Znumtheory Sorting.Sorted.
From Verif Require Import PyBase Dict FreeModule Symmetric Simplicial Utils Surjection Spec SpecChain SpecOperad SpecSurj SpecAction SpecCochain SpecSimpCup SpecSquares SpecAdem AdemLaws.

(** The value of a square of a square on a chain is always defined, and
    modulo 2 it does not depend on the cochain chosen to represent the inner square. *)
Theorem C91_iterated_exists : forall (dt e k n i m : Z) (dc : conv) (X : list Z -> Prop) (c : simp) (a f f' : list Z -> Z),
  0 <= m -> cochain m a -> dt_ok dt 2 -> wf cls_simplicial c -> torsion c = 2 -> keys_in (fun key => exists s, key = [s] /\ X s /\ zlen s - 1 = e) c ->
  is_square dt dc i m a f -> is_square dt dc i m a f' ->
  (exists v, square_on dt dc k n f c v) /\ forall v v', square_on dt dc k n f c v -> square_on dt dc k n f' c v' -> congruent 2 v v'.
Proof. exact @C91_iterated_exists_l. Qed.
Print Assumptions C91_iterated_exists.

(** The Adem relations: for 0 <= r < 2 s and a cocycle modulo 2 of degree m, on
    every cycle, Sq^r(Sq^s(a)) is the sum over 0 <= i <= r/2 of C(s - i - 1, r - 2 i) times
    Sq^(r + s - i)(Sq^i(a)). *)
Theorem C91_adem : forall (dt e m r s v : Z) (dc : conv) (X : list Z -> Prop) (c bc : simp) (a : list Z -> Z) (A : Z -> list Z -> Z) (w : Z -> Z),
  0 <= e -> 0 <= m -> dt_ok dt 2 -> simplicial_set X -> wf cls_simplicial c -> torsion c = 2 ->
  keys_in (fun key => exists s, key = [s] /\ X s /\ zlen s - 1 = e) c -> simp_boundary dt c = Ok bc -> data bc = [] ->
  cochain m a -> (forall s, X s -> congruent 2 (simp_coboundary a s) 0) ->
  0 <= r < 2 * s -> (forall i, 0 <= i <= s -> is_square dt dc i m a (A i)) ->
  square_on dt dc r (m + s) (A s) c v -> (forall i, 0 <= i <= r / 2 -> square_on dt dc (r + s - i) (m + i) (A i) c (w i)) ->
  congruent 2 v (zsum (map (fun i => choose (Z.to_nat (s - i - 1)) (Z.to_nat (r - 2 * i)) * w i) (zrange 0 (r / 2 + 1)))).
Proof. exact @C91_adem_l. Qed.
Print Assumptions C91_adem.

(** Sq^(2 s - 1)(Sq^s(a)) = 0 on every cycle. *)
Theorem C91_vanishing : forall (dt e m s v : Z) (dc : conv) (X : list Z -> Prop) (c bc : simp) (a f : list Z -> Z),
  0 <= e -> 0 <= m -> dt_ok dt 2 -> simplicial_set X -> wf cls_simplicial c -> torsion c = 2 ->
  keys_in (fun key => exists s, key = [s] /\ X s /\ zlen s - 1 = e) c -> simp_boundary dt c = Ok bc -> data bc = [] ->
  cochain m a -> (forall s, X s -> congruent 2 (simp_coboundary a s) 0) ->
  1 <= s -> is_square dt dc s m a f -> square_on dt dc (2 * s - 1) (m + s) f c v -> congruent 2 v 0.
Proof. exact @C91_vanishing_l. Qed.
Print Assumptions C91_vanishing.

(** The hypotheses hold on the real projective plane with six vertices, for the
    cocycle of degree 1 which is not a coboundary, r = 0 and s = 1; both sides are 1. *)
Example C91_example : let T := [[0; 1; 2]; [0; 2; 3]; [0; 3; 4]; [0; 4; 5]; [0; 1; 5]; [1; 2; 4]; [2; 3; 5]; [1; 3; 4]; [2; 4; 5]; [1; 3; 5]] in
  let X := fun s : list Z => s <> [] /\ existsb (fun t => forallb (fun v => existsb (Z.eqb v) t) s) T = true in
  let a := fun s => match s with [x; y] => if existsb (fun p => (fst p =? x) && (snd p =? y) || (fst p =? y) && (snd p =? x)) [(1, 3); (1, 4); (2, 4); (2, 5); (3, 5)] then 1 else 0 | _ => 0 end in
  exists c bc A v w, simp_new 2 (map (fun t => ([t], 1)) T) None = Ok c /\ dt_ok 2 2 /\ simplicial_set X /\ wf cls_simplicial c /\ torsion c = 2 /\
    keys_in (fun key => exists s, key = [s] /\ X s /\ zlen s - 1 = 2) c /\ simp_boundary 2 c = Ok bc /\ data bc = [] /\ cochain 1 a /\
    (forall s, X s -> congruent 2 (simp_coboundary a s) 0) /\ (forall i, is_square 2 BF i 1 a (A i)) /\
    square_on 2 BF 0 (1 + 1) (A 1) c v /\ (forall i, 0 <= i <= 0 / 2 -> square_on 2 BF (0 + 1 - i) (1 + i) (A i) c (w i)) /\ v = 1 /\ choose 0 0 * w 0 = 1.
Proof. exact @C91_example_l. Qed.
