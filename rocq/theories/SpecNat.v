(** * Specification vocabulary for maps of simplices.  No proofs here. *)
From Verif Require Import PyBase Dict FreeModule Symmetric Simplicial Spec SpecChain.

(** Relabelling the vertices of a tensor of simplices by [f]. *)
Definition relabel (f : Z -> Z) (k : list (list Z)) : list (list Z) := map (map f) k.
(** The chain [y] is the image of the chain [x] under the map [f] of vertices: the same
    coefficients on the relabelled simplices, added up where simplices fall together and
    dropped where a simplex becomes degenerate. *)
Definition is_image (f : Z -> Z) (x y : simp) : Prop :=
  wf cls_simplicial y /\ torsion y = torsion x /\ represents cls_simplicial y (extend (fun k => [(relabel f k, 1)]) x).
(** The pull-back of a cochain. *)
Definition pull_back (f : Z -> Z) (a : list Z -> Z) (s : list Z) : Z := a (map f s).
