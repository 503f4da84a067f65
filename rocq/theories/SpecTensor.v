(** * Specification vocabulary: tensor products of elements.  No proofs here.

    The library has no function for the tensor product of two elements; a user
    builds it with the constructor and a dictionary comprehension. *)
From Verif Require Import PyBase Dict FreeModule Simplicial Cubical.

(** [{k + l: a * b for k, a in x.items() for l, b in y.items()}] *)
Definition tensor_terms {A B} (x : elt (list (list Z)) A) (y : elt (list (list Z)) B) : list (list (list Z) * Z) :=
  flat_map (fun '(k, a) => map (fun '(l, b) => (k ++ l, a * b)) (data y)) (data x).
(** [SimplicialElement({...}, torsion=x.torsion)] and [CubicalElement({...}, torsion=x.torsion)] *)
Definition simp_tensor (dt : Z) (x y : simp) : res simp := simp_new dt (tensor_terms x y) (Some (torsion x)).
Definition cub_tensor (dt : Z) (x y : cubc) : res cubc := cub_new dt (tensor_terms x y) (Some (torsion x)).
