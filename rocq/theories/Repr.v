(** * [repr] of the elements

    Model file: definitions only.  No class of comch overrides [__repr__]
    (free_module.py:4: [class FreeModuleElement(Counter)]), so [repr(x)] and
    the display of an element in an interactive session run
    [Counter.__repr__] of CPython's Lib/collections/__init__.py (3.10 - 3.13). *)
From Coq Require Import Ascii String.
From Verif Require Import PyBase Dict FreeModule Symmetric Simplicial Cubical Surjection BarrattEccles Printing.
Import ListNotations.

Section Repr.
Context {K : Type} `{PyKey K}.

(** [Counter.most_common()]: [sorted(self.items(), key=itemgetter(1), reverse=True)].
    Python's sort is stable, also with [reverse=True]; it is modelled by an
    insertion sort. *)
Fixpoint insert_item (p : K * Z) (l : list (K * Z)) : list (K * Z) :=
  match l with
  | [] => [p]
  | q :: l' => if snd p <? snd q then q :: insert_item p l' else p :: l
  end.
Definition most_common (d : dict K) : list (K * Z) := fold_right insert_item [] d.

(** [dict.__repr__]; [rkey] is [repr] of a key *)
Definition repr_dict (rkey : K -> pystr) (d : dict K) : pystr :=
  lit "{" ++ join (lit ", ") (map (fun p => rkey (fst p) ++ lit ": " ++ str_int (snd p)) d) ++ lit "}".

(** [Counter.__repr__]: [if not self: return f'{name}()'], then
    [d = dict(self.most_common())] and [f'{name}({d!r})'] *)
Definition counter_repr (name : string) (rkey : K -> pystr) (d : dict K) : pystr :=
  if dempty d then lit name ++ lit "()"
  else lit name ++ lit "(" ++ repr_dict rkey (dict_of (most_common d)) ++ lit ")".
End Repr.

(** The keys are tuples, or tuples of tuples, or instances of subclasses of
    [tuple] without [__repr__] (symmetric.py:6, simplicial.py:7, cubical.py:8). *)
Definition repr_simplicial (x : simp) : pystr := counter_repr "SimplicialElement" repr_tuples (data x).
Definition repr_cubical (x : cubc) : pystr := counter_repr "CubicalElement" repr_tuples (data x).
Definition repr_be (x : bee) : pystr := counter_repr "BarrattEcclesElement" repr_tuples (data x).
Definition repr_surj (x : surj) : pystr := counter_repr "SurjectionElement" repr_ints (data x).
Definition repr_ring (x : ring) : pystr := counter_repr "SymmetricRingElement" (fun k => repr_ints (kval k)) (data x).
