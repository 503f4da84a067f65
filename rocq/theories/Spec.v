(** * Specification vocabulary.

    Small definitions, independent of the proofs, in which the property
    theorems are stated.  No proofs here. *)
From Verif Require Import PyBase Dict FreeModule.

(** Python equality of keys is an equivalence relation. *)
Class KeyOk (K : Type) `{PyKey K} := {
  keqb_refl : forall k : K, keqb k k = true;
  keqb_sym : forall k k' : K, keqb k k' = true -> keqb k' k = true;
  keqb_trans : forall k k' k'' : K, keqb k k' = true -> keqb k' k'' = true -> keqb k k'' = true }.

(** Python equality of keys is identity of values. *)
Class KeyEq (K : Type) `{PyKey K} := { keqb_eq : forall k k' : K, keqb k k' = true <-> k = k' }.

Section Spec.
Context {K A : Type} `{PyKey K}.

(** A class whose degeneracy test and key conversion respect [==] of keys.
    Shown for every class of the library. *)
Definition cls_ok (c : pycls K) : Prop :=
  (forall k k', keqb k k' = true -> bad c k = bad c k') /\ (forall k, keqb (ckey c k) k = true).

(** Pairwise different keys (for Python equality). *)
Fixpoint kdistinct (l : list K) : Prop :=
  match l with
  | [] => True
  | k :: l' => (forall k', In k' l' -> keqb k k' = false) /\ kdistinct l'
  end.

(** Canonical coefficient: non-zero, and in {1..t-1} when the torsion is [t > 0]. *)
Definition canon_coef (t v : Z) : Prop := v <> 0 /\ (0 < t -> 0 < v < t).

(** Canonical dictionary: each key once, canonical coefficients, no degenerate key. *)
Definition canonical (c : pycls K) (t : Z) (d : dict K) : Prop :=
  kdistinct (dkeys d) /\
  forall k v, In (k, v) d -> canon_coef t v /\ bad c k = Ok false.

(** Well-formed element.  Every element that the library returns is
    well-formed (theorems C01). *)
Definition wf (c : pycls K) (x : elt K A) : Prop := 0 <= torsion x /\ canonical c (torsion x) (data x).

(** Both computations return normally, with equal ([==]) elements that have
    the same attributes. *)
Definition same (r r' : res (elt K A)) : Prop :=
  exists x y, r = Ok x /\ r' = Ok y /\
    elt_eqb x y = true /\ torsion x = torsion y /\ attr x = attr y.

End Spec.

(** A value of the class attribute [default_torsion] that does not disturb
    computations with elements of torsion [t]: the initial value 0, or a
    multiple of [t <> 0] (for example [t] itself).  See C09 for what
    happens otherwise. *)
Definition dt_ok (dt t : Z) : Prop := 0 <= dt /\ (dt = 0 \/ (t <> 0 /\ (t | dt))).

(** ** Permutations *)

(** [p] is a permutation of (1, ..., n), in one-line notation. *)
Definition perm (n : Z) (p : list Z) : Prop := Permutation p (zrange 1 (n + 1)).
(** The image of [i] under [p], for [1 <= i <= length p]. *)
Definition image (p : list Z) (i : Z) : Z := nth (Z.to_nat (i - 1)) p 0.
(** Number of pairs of positions with decreasing entries. *)
Fixpoint inversions (p : list Z) : Z :=
  match p with
  | [] => 0
  | a :: p' => zlen (filter (fun b => b <? a) p') + inversions p'
  end.
(** [cy] is a cycle of [p]: distinct entries, each sent to the next one and
    the last to the first. *)
Definition is_cycle (p cy : list Z) : Prop :=
  cy <> [] /\ NoDup cy /\ map (image p) cy = tl cy ++ [hd 0 cy].

(** All the basis elements of [x] satisfy [P]. *)
Definition keys_in {K A} (P : K -> Prop) (x : elt K A) : Prop := forall k v, In (k, v) (data x) -> P k.

(** The word obtained from the letter [x] when every letter equal to [i] is
    replaced by the word [b] (shifted to start at [i]) and the letters after
    [i] make room for it: the partial composition of permutations is the
    substitution of every letter. *)
Definition graft (b : list Z) (i x : Z) : list Z :=
  if x =? i then map (fun y => y + i - 1) b
  else if i <? x then [x + zlen b - 1] else [x].

(** ** Formal sums *)

(** The coefficient of the basis element [k] in a formal sum. *)
Definition coef {K} `{PyKey K} (l : list (K * Z)) (k : K) : Z :=
  zsum (map (fun p => if keqb (fst p) k then snd p else 0) l).
(** The element [z] is the formal sum [l], in the module of the class [c]:
    same coefficients modulo the torsion, for every non-degenerate basis
    element (degenerate ones are zero). *)
Definition represents {K A} `{PyKey K} (c : pycls K) (z : elt K A) (l : list (K * Z)) : Prop :=
  forall k, bad c k = Ok false -> (torsion z | dget (data z) k - coef l k).
(** The computation returns a well-formed element with the torsion and the
    attributes of [x] that is the formal sum [l]. *)
Definition gives {K A} `{PyKey K} (c : pycls K) (r : res (elt K A)) (t : Z) (a : A) (l : list (K * Z)) : Prop :=
  exists z, r = Ok z /\ wf c z /\ torsion z = t /\ attr z = a /\ represents c z l.
(** Linear extension of a function from basis elements to formal sums. *)
Definition extend {K K' A} (f : K -> list (K' * Z)) (x : elt K A) : list (K' * Z) :=
  flat_map (fun kv => map (fun p => (fst p, snd kv * snd p)) (f (fst kv))) (data x).
(** Bilinear extension. *)
Definition extend2 {K1 K2 K' A1 A2} (f : K1 -> K2 -> list (K' * Z)) (x : elt K1 A1) (y : elt K2 A2) : list (K' * Z) :=
  flat_map (fun kv => flat_map (fun kv' => map (fun p => (fst p, snd kv * snd kv' * snd p)) (f (fst kv) (fst kv'))) (data y)) (data x).

(** All the ways to write a list as [l1 ++ a :: l2]. *)
Fixpoint cuts {B} (l : list B) : list (list B * B * list B) :=
  match l with
  | [] => []
  | a :: l' => ([], a, l') :: map (fun '(l1, b, l2) => (a :: l1, b, l2)) (cuts l')
  end.
(** An element is zero when it has no terms. *)
Definition is_zero {K A} (x : elt K A) : Prop := data x = [].

(** A binary operation [op a x], whose result is of the class of [x], extended
    by zero: the code of the actions raises [TypeError] when exactly one
    operand is the zero element (see C58). *)
Definition extended {K1 A1 K A} `{PyKey K} (dt : Z) (c : pycls K) (op : elt K1 A1 -> elt K A -> res (elt K A))
  (a : elt K1 A1) (x : elt K A) : res (elt K A) :=
  if dempty (data a) || dempty (data x) then zero dt c x else op a x.
(** The same for an operation with one element: [iterated_diagonal] raises
    [TypeError] on the zero element (see C58). *)
Definition extended1 {K A} `{PyKey K} (dt : Z) (c : pycls K) (op : elt K A -> res (elt K A)) (x : elt K A) : res (elt K A) :=
  if dempty (data x) then zero dt c x else op x.

(** ** Simplices *)

(** Faces of a simplex: delete one vertex, with alternating signs. *)
Definition faces (s : list Z) : list (list Z * Z) := map (fun '(l1, _, l2) => (l1 ++ l2, sgn (zlen l1))) (cuts s).
(** Degree of a tensor product of simplices: the sum of the dimensions. *)
Definition total_degree (k : list (list Z)) : Z := zsum (map (fun s => zlen s - 1) k).
(** Boundary of a tensor product of simplices: boundary of one factor, with
    the sign of the degree of the factors before it. *)
Definition simp_faces (k : list (list Z)) : list (list (list Z) * Z) :=
  flat_map (fun '(l1, s, l2) => map (fun '(s', e) => (l1 ++ s' :: l2, sgn (total_degree l1) * e)) (faces s)) (cuts k).
(** All the ways to cut a simplex (v0, ..., vn) in [times + 1] pieces
    (v0, ..., vi), (vi, ..., vj), ..., (vk, ..., vn) with 0 <= i <= j <= ... <= k <= n. *)
Fixpoint front_back {B} (times : nat) (s : list B) : list (list (list B)) :=
  match times with
  | O => [[s]]
  | S t => flat_map (fun '(l1, a, l2) => map (cons (l1 ++ [a])) (front_back t (a :: l2))) (cuts s)
  end.
(** The same in the factor number [coord] of a tensor product. *)
Definition simp_splittings (times : nat) (coord : Z) (k : list (list Z)) : list (list (list Z) * Z) :=
  flat_map (fun '(l1, s, l2) => if zlen l1 =? coord - 1 then map (fun u => (l1 ++ u ++ l2, 1)) (front_back times s) else []) (cuts k).
