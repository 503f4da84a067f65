(** * Specification vocabulary for the chain-complex classes.

    Small definitions, independent of the proofs.  No proofs here. *)
From Verif Require Import PyBase Dict FreeModule Spec.

(** The tensor factors [k] rearranged by the permutation [p]: factor number
    [i] goes to place [p(i)]. *)
Definition placed (p : list Z) (k : list (list Z)) : list (list Z) :=
  map (fun j => match find (fun q => fst q =? j) (combine p k) with Some q => snd q | None => [] end) (zrange 1 (zlen p + 1)).
(** Sum, over the pairs of entries with decreasing first components, of the
    products of the second components. *)
Fixpoint crossings (l : list (Z * Z)) : Z :=
  match l with
  | [] => 0
  | (i, w) :: l' => zsum (map (fun '(j, w') => if j <? i then w * w' else 0) l') + crossings l'
  end.
(** The rearrangement with the Koszul sign, for factors of degree [dg]. *)
Definition koszul (dg : list Z -> Z) (p : list Z) (k : list (list Z)) : list (list (list Z) * Z) :=
  [(placed p k, sgn (crossings (combine p (map dg k))))].
