(** * A permutation times an element of another class *)
From Verif Require Import PyBase Dict FreeModule Symmetric Simplicial Cubical Surjection BarrattEccles.
Section Model.
Variable dt : Z. (** the class attribute [default_torsion] (free_module.py:26) *)

(** symmetric.py:137-140 with [other] a [SimplicialElement]:
    [other.__rmul__(as_ring)] is simplicial.py's [__rmul__] *)
Definition group_mul_simp (g : list Z) (y : simp) : res simp :=
  let! as_ring := new dt cls_ring [(SGE g, 1)] (Some (torsion y)) tt in
  simp_act dt as_ring y.

(** symmetric.py:137-140 with [other] a [CubicalElement] *)
Definition group_mul_cub (g : list Z) (y : cubc) : res cubc :=
  let! as_ring := new dt cls_ring [(SGE g, 1)] (Some (torsion y)) tt in
  cub_act dt as_ring y.

(** symmetric.py:137-140 with [other] a [BarrattEcclesElement]; for
    [other] a [SurjectionElement] see [Surjection.group_mul_surj], for a
    [SymmetricRingElement] see [Symmetric.group_mul_ring] *)
Definition group_mul_be (g : list Z) (y : bee) : res bee :=
  let! as_ring := new dt cls_ring [(SGE g, 1)] (Some (torsion y)) tt in
  be_act dt as_ring y.
End Model.
