(** * Fragments of the Python runtime used by comch.

    Model file: definitions only.  Exceptions are values of type [res];
    a [for] loop is [for_]; ints are [Z]; tuples and lists are [list]. *)
From Coq Require Export ZArith List Bool Lia Permutation.
Export ListNotations.
Open Scope Z_scope.

(** Python exceptions that the modelled code can raise.  [Diverges] is not a
    Python exception: it is the value returned when the fuel of a [while]
    loop is exhausted. *)
Inductive exn :=
| TypeError | ValueError | IndexError | AttributeError
| NotImplementedError | OverflowError | AssertionError | UnboundLocalError
| RecursionError | Diverges.

Inductive res (A : Type) :=
| Ok (a : A)
| Err (e : exn).
Arguments Ok {A} a.
Arguments Err {A} e.

Definition bind {A B} (r : res A) (f : A -> res B) : res B :=
  match r with Ok a => f a | Err e => Err e end.

Notation "'let!' x := r 'in' k" := (bind r (fun x => k))
  (at level 200, x pattern, r at level 100, k at level 200, right associativity).

(** [for a in l: body], threading the mutable locals [s]. *)
Fixpoint for_ {A S} (l : list A) (s : S) (body : S -> A -> res S) : res S :=
  match l with
  | [] => Ok s
  | a :: l' => let! s' := body s a in for_ l' s' body
  end.

(** [tuple(f(a) for a in l)] / list comprehensions whose body may raise. *)
Fixpoint mapM {A B} (f : A -> res B) (l : list A) : res (list B) :=
  match l with
  | [] => Ok []
  | a :: l' => let! b := f a in let! bs := mapM f l' in Ok (b :: bs)
  end.

(** [len(l)] *)
Definition zlen {A} (l : list A) : Z := Z.of_nat (length l).

(** [range(a, b)] *)
Definition zrange (a b : Z) : list Z :=
  map (fun n => a + Z.of_nat n) (seq 0 (Z.to_nat (b - a))).

(** [l[i]], with Python's negative indices. *)
Definition py_get {A} (l : list A) (i : Z) : res A :=
  let j := if i <? 0 then i + zlen l else i in
  if j <? 0 then Err IndexError
  else match nth_error l (Z.to_nat j) with
       | Some a => Ok a
       | None => Err IndexError
       end.

(** [l[i] = a] on a Python list. *)
Fixpoint nth_set {A} (l : list A) (n : nat) (a : A) : option (list A) :=
  match l, n with
  | [], _ => None
  | _ :: l', O => Some (a :: l')
  | b :: l', S n' => match nth_set l' n' a with Some r => Some (b :: r) | None => None end
  end.

Definition py_set {A} (l : list A) (i : Z) (a : A) : res (list A) :=
  let j := if i <? 0 then i + zlen l else i in
  if j <? 0 then Err IndexError
  else match nth_set l (Z.to_nat j) a with
       | Some r => Ok r
       | None => Err IndexError
       end.

(** Slice bounds: negative bounds count from the end, then clamp to [0, n]. *)
Definition clamp (n i : Z) : Z :=
  if i <? 0 then Z.max 0 (i + n) else Z.min i n.

(** [l[i:j]] *)
Definition slice {A} (l : list A) (i j : Z) : list A :=
  let n := zlen l in
  let i' := clamp n i in
  let j' := clamp n j in
  firstn (Z.to_nat (j' - i')) (skipn (Z.to_nat i') l).

(** [l[:j]] and [l[i:]] *)
Definition slice_to {A} (l : list A) (j : Z) : list A :=
  firstn (Z.to_nat (clamp (zlen l) j)) l.
Definition slice_from {A} (l : list A) (i : Z) : list A :=
  skipn (Z.to_nat (clamp (zlen l) i)) l.

(** [list.insert(i, a)]: clamps like a slice. *)
Definition py_insert {A} (l : list A) (i : Z) (a : A) : list A :=
  slice_to l i ++ a :: slice_from l i.

(** [enumerate(l)] *)
Definition enumerate {A} (l : list A) : list (Z * A) :=
  combine (zrange 0 (zlen l)) l.

(** comch/utils/utils.py:151-155, [pairwise] *)
Definition pairwise {A} (l : list A) : list (A * A) := combine l (tl l).

(** [a in l] *)
Definition mem (a : Z) (l : list Z) : bool := existsb (Z.eqb a) l.

(** [l.index(a)] *)
Fixpoint index_from (l : list Z) (a : Z) (i : Z) : res Z :=
  match l with
  | [] => Err ValueError
  | b :: l' => if b =? a then Ok i else index_from l' a (i + 1)
  end.
Definition py_index (l : list Z) (a : Z) : res Z := index_from l a 0.

(** [l.count(a)] *)
Definition py_count (l : list Z) (a : Z) : Z :=
  zlen (filter (fun b => b =? a) l).

(** [max(l)]; [ValueError] on an empty sequence. *)
Definition py_max (l : list Z) : res Z :=
  match l with
  | [] => Err ValueError
  | a :: l' => Ok (fold_left Z.max l' a)
  end.
(** [min(l)] *)
Definition py_min (l : list Z) : res Z :=
  match l with
  | [] => Err ValueError
  | a :: l' => Ok (fold_left Z.min l' a)
  end.

(** [sum(l)] *)
Definition zsum (l : list Z) : Z := fold_right Z.add 0 l.

(** [set(l)] for ints: membership is what matters; we keep last occurrences. *)
Definition zset (l : list Z) : list Z := nodup Z.eq_dec l.

(** [set(a) == set(b)] *)
Definition set_eqb (a b : list Z) : bool :=
  forallb (fun x => mem x b) a && forallb (fun x => mem x a) b.

(** [(-1) ** (e % 2)] and, for [e >= 0], [(-1) ** e]. *)
Definition sgn (e : Z) : Z := if Z.even e then 1 else -1.

(** Equality of tuples of ints, and of tuples of tuples of ints. *)
Fixpoint list_eqb {A} (eqb : A -> A -> bool) (a b : list A) : bool :=
  match a, b with
  | [], [] => true
  | x :: a', y :: b' => eqb x y && list_eqb eqb a' b'
  | _, _ => false
  end.
Definition tup_eqb : list Z -> list Z -> bool := list_eqb Z.eqb.
Definition tup2_eqb : list (list Z) -> list (list Z) -> bool := list_eqb tup_eqb.

(** ** itertools *)

(** [itertools.combinations(l, r)] for [r >= 0]. *)
Fixpoint combinations {A} (r : nat) (l : list A) : list (list A) :=
  match r with
  | O => [[]]
  | S r' =>
      (fix go (l : list A) : list (list A) :=
         match l with
         | [] => []
         | a :: l' => map (cons a) (combinations r' l') ++ go l'
         end) l
  end.

(** [itertools.combinations_with_replacement(l, r)] for [r >= 0]. *)
Fixpoint cwr {A} (r : nat) (l : list A) : list (list A) :=
  match r with
  | O => [[]]
  | S r' =>
      (fix go (l : list A) : list (list A) :=
         match l with
         | [] => []
         | a :: l' => map (cons a) (cwr r' (a :: l')) ++ go l'
         end) l
  end.
(** with the [ValueError] of itertools when [r] is negative *)
Definition py_cwr {A} (l : list A) (r : Z) : res (list (list A)) :=
  if r <? 0 then Err ValueError else Ok (cwr (Z.to_nat r) l).
Definition py_combinations {A} (l : list A) (r : Z) : res (list (list A)) :=
  if r <? 0 then Err ValueError else Ok (combinations (Z.to_nat r) l).

(** [itertools.product(l, repeat=n)] for [n >= 0]. *)
Fixpoint product_rep {A} (l : list A) (n : nat) : list (list A) :=
  match n with
  | O => [[]]
  | S n' => flat_map (fun a => map (cons a) (product_rep l n')) l
  end.

(** [itertools.product( *ls )]. *)
Fixpoint product_all {A} (ls : list (list A)) : list (list A) :=
  match ls with
  | [] => [[]]
  | l :: ls' => flat_map (fun a => map (cons a) (product_all ls')) l
  end.

(** [itertools.permutations(l)]: positional lexicographic order. *)
Fixpoint selects {A} (l : list A) : list (A * list A) :=
  match l with
  | [] => []
  | a :: l' => (a, l') :: map (fun p => (fst p, a :: snd p)) (selects l')
  end.
Fixpoint perms_fuel {A} (n : nat) (l : list A) : list (list A) :=
  match n with
  | O => [[]]
  | S n' => flat_map (fun p => map (cons (fst p)) (perms_fuel n' (snd p))) (selects l)
  end.
Definition permutations {A} (l : list A) : list (list A) := perms_fuel (length l) l.
