(** * Python dictionaries / [collections.Counter] with integer values.

    Model file.  A dict is the association list of its items in insertion
    order.  [keqb] is the Python equality of keys: two keys may be equal
    without being the same object (e.g. a [tuple] and an equal instance of a
    subclass of [tuple]); as in CPython, assigning to an existing key keeps
    the key object already stored. *)
From Verif Require Import PyBase.

Class PyKey (K : Type) := { keqb : K -> K -> bool }.

#[global] Instance PyKey_Z : PyKey Z := {| keqb := Z.eqb |}.
#[global] Instance PyKey_tup : PyKey (list Z) := {| keqb := tup_eqb |}.
#[global] Instance PyKey_tup2 : PyKey (list (list Z)) := {| keqb := tup2_eqb |}.
#[global] Instance PyKey_tup3 : PyKey (list (list (list Z))) := {| keqb := list_eqb tup2_eqb |}.

Definition dict (K : Type) := list (K * Z).

Section Dict.
Context {K : Type} `{PyKey K}.

(** [Counter.__missing__]: absent keys count 0. *)
Fixpoint dget (d : dict K) (k : K) : Z :=
  match d with
  | [] => 0
  | (k', v) :: d' => if keqb k' k then v else dget d' k
  end.

(** [d[k] = v] *)
Fixpoint dset (d : dict K) (k : K) (v : Z) : dict K :=
  match d with
  | [] => [(k, v)]
  | (k', v') :: d' => if keqb k' k then (k', v) :: d' else (k', v') :: dset d' k v
  end.

Definition dkeys (d : dict K) : list K := map fst d.

(** A dict literal / dict comprehension from its (key, value) pairs: a
    repeated key keeps the first key object and the last value. *)
Definition dict_of (l : list (K * Z)) : dict K :=
  fold_left (fun d p => dset d (fst p) (snd p)) l [].

(** [Counter.update(self, other)] with [other] a mapping (CPython
    Lib/collections/__init__.py): [self[elem] = count + self.get(elem, 0)].
    On an empty [self] CPython calls [dict.update], which gives the same
    result. *)
Definition dupdate (d e : dict K) : dict K :=
  fold_left (fun d p => dset d (fst p) (snd p + dget d (fst p))) e d.

(** [Counter.subtract(self, other)] with [other] a mapping. *)
Definition dsubtract (d e : dict K) : dict K :=
  fold_left (fun d p => dset d (fst p) (dget d (fst p) - snd p)) e d.

(** [Counter.__eq__] (Python >= 3.10):
    [all(self[e] == other[e] for c in (self, other) for e in c)]. *)
Definition dict_eqb (d e : dict K) : bool :=
  forallb (fun k => dget d k =? dget e k) (dkeys d ++ dkeys e).

(** [if not self] *)
Definition dempty (d : dict K) : bool := match d with [] => true | _ => false end.

End Dict.
