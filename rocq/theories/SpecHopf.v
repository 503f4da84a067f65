(** * Specification of the Hopf structure of the Barratt-Eccles operad.
    Only definitions; written without reference to the model. *)
From Verif Require Import PyBase Spec SpecOperad.

(** Degree of a tensor product of simplices of permutations. *)
Definition be_degrees (m : list (list (list Z))) : Z := zsum (map (fun k => zlen k - 1) m).
(** The boundary of the tensor product: the faces of one factor, with the sign
    of the factors it passes. *)
Definition be_tensor_faces (m : list (list (list Z))) : list (list (list (list Z)) * Z) :=
  flat_map (fun '(l1, k, l2) => map (fun '(k', e) => (l1 ++ k' :: l2, sgn (be_degrees l1) * e)) (be_faces k)) (cuts m).
(** A tensor product of non-degenerate simplices. *)
Definition be_nondegenerate (m : list (list (list Z))) : Prop := forall k, In k m -> k <> [] /\ ~ repeats k.
(** The composition in place [i] of two tensor products of two simplices,
    (a1 (x) a2) o_i (b1 (x) b2) = (-1)^(|a2| |b1|) (a1 o_i b1) (x) (a2 o_i b2). *)
Definition tensor_compose (i : Z) (m m' : list (list (list Z))) : list (list (list (list Z)) * Z) :=
  match m, m' with
  | [a1; a2], [b1; b2] =>
      flat_map (fun '(w1, s1) => map (fun '(w2, s2) => ([w1; w2], sgn ((zlen a2 - 1) * (zlen b1 - 1)) * (s1 * s2)))
        (grid_paths (insert_at i) a2 b2)) (grid_paths (insert_at i) a1 b1)
  | _, _ => []
  end.
(** The augmentation sends the simplices of dimension 0 to 1 and the others to 0;
    it is applied to the first or to the second factor. *)
Definition augment_first (m : list (list (list Z))) : list (list (list Z) * Z) :=
  match m with [[_]; k] => [(k, 1)] | _ => [] end.
Definition augment_second (m : list (list (list Z))) : list (list (list Z) * Z) :=
  match m with [k; [_]] => [(k, 1)] | _ => [] end.
