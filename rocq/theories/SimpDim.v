(** * The attribute [dimension] of simplicial elements.

    Model file.  Constructor [SimplicialElement.__init__], simplicial.py:215-258:
    the value of the attribute [dimension] as a function of the arguments [data]
    and [dimension] ([None] for a missing argument).  An element of the object
    model (Heap.v) built by [SimplicialElement(data, dimension, torsion)] carries
    it as its attribute besides [torsion]. *)
From Verif Require Import PyBase Dict FreeModule Simplicial Heap.

(** simplicial.py:241-255.  [if data], [if not dimension] test for a missing or
    empty argument and a missing or zero argument; [max] of an empty sequence
    raises the [ValueError] that is caught. *)
Definition simp_init_dimension (data : option (list (skey2 * Z))) (dimension : option Z) : option Z :=
  let given := match dimension with None => false | Some n => negb (n =? 0) end in
  match data with
  | None | Some [] => dimension
  | Some data =>
      if given then dimension else
      match py_max (concat (concat (map fst data))) with
      | Ok m => Some m
      | Err _ => Some (-1)
      end
  end.

(** simplicial.py:215-258, as a step of the object model *)
Definition simp_object (dt : Z) (data : option (list (skey2 * Z))) (dimension torsion : option Z) : M nat :=
  h_new dt cls_simplicial (match data with None => [] | Some d => dict_of d end) torsion (simp_init_dimension data dimension).
