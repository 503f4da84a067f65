(** * Specification vocabulary for utils.py.  No proofs here. *)
From Coq Require Import Sorting.Sorted.
From Verif Require Import PyBase.

(** Tuples of [k] integers in [a..b] with sum [n]. *)
Definition summands (n k a b : Z) (p : list Z) : Prop := zlen p = k /\ zsum p = n /\ forall i, In i p -> a <= i <= b.
(** Non-decreasing. *)
Definition nondecreasing (p : list Z) : Prop := StronglySorted Z.le p.
(** The pieces x[:i1+1], x[i1:i2+1], ..., x[ik:] of [x] for the indices [is] = i1, ..., ik. *)
Definition overlapping {B} (x : list B) (is : list Z) : list (list B) :=
  map (fun ab => slice x (fst ab) (snd ab + 1)) (combine (0 :: is) (is ++ [zlen x - 1])).
(** The order of Python tuples. *)
Fixpoint tuple_lt (p q : list Z) : Prop :=
  match p, q with
  | [], _ :: _ => True
  | a :: p', b :: q' => a < b \/ (a = b /\ tuple_lt p' q')
  | _, _ => False
  end.
(** [q] is an [r]-permutation of the items of [l]. *)
Definition arrangement (l : list Z) (r : Z) (q : list Z) : Prop := zlen q = r /\ exists rest, Permutation (q ++ rest) l.
