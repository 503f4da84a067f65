(** * Property theorems.  Generated by tools/mkprop.py from the tagged lemmas of
    CounitLaws.v: every theorem is closed by [exact]. *)
From Coq Require Import Znumtheory Sorting.Sorted.
From Verif Require Import PyBase Dict FreeModule Simplicial Cubical Spec SpecChain SpecCube SpecCone SpecArgs SpecCounit CounitLaws.

(** Augmenting any of the factors that the iterated diagonal makes of a factor gives the iterated diagonal with one
    cut less; with one cut, either of the two augmentations gives the element back. *)
Theorem C109_simplicial_counit : forall (dt n d times coord i : Z) (x y : simp),
  wf cls_simplicial x -> dt_ok dt (torsion x) -> keys_in (fun k => zlen k = n /\ total_degree k = d) x -> 1 <= coord <= n -> 1 <= times -> coord <= i <= coord + times ->
  let diagonal t := extended1 dt cls_simplicial (fun y => simp_iterated_diagonal dt y t coord) in
  diagonal times x = Ok y -> gives cls_simplicial (diagonal (times - 1) x) (torsion x) tt (extend (drop_vertex i) y).
Proof. exact @C109_simplicial_counit_l. Qed.
Print Assumptions C109_simplicial_counit.

(** The two counit laws of the Alexander-Whitney diagonal. *)
Theorem C109_simplicial_once : forall (dt n d coord i : Z) (x y : simp),
  wf cls_simplicial x -> dt_ok dt (torsion x) -> keys_in (fun k => zlen k = n /\ total_degree k = d) x -> 1 <= coord <= n -> i = coord \/ i = coord + 1 ->
  extended1 dt cls_simplicial (fun y => simp_iterated_diagonal dt y 1 coord) x = Ok y -> represents cls_simplicial x (extend (drop_vertex i) y).
Proof. exact @C109_simplicial_once_l. Qed.
Print Assumptions C109_simplicial_once.

(** The same for the Serre diagonal; the augmentation is the operation [iterated_diagonal(-1, i)] itself (C96). *)
Theorem C109_cubical_counit : forall (dt n d times coord i : Z) (x y : cubc),
  wf cls_cubical x -> dt_ok dt (torsion x) -> keys_in (fun k => zlen k = n /\ cube_degree k = d) x -> 1 <= coord <= n -> 1 <= times -> coord <= i <= coord + times ->
  let diagonal t c := extended1 dt cls_cubical (fun y => cub_iterated_diagonal dt y t c) in
  diagonal times coord x = Ok y ->
  gives cls_cubical (diagonal (times - 1) coord x) (torsion x) tt (extend (counit_at i) y) /\ same (diagonal (-1) i y) (diagonal (times - 1) coord x).
Proof. exact @C109_cubical_counit_l. Qed.
Print Assumptions C109_cubical_counit.

(** Over every simplicial complex: an element of a tensor power of the chains is a boundary exactly if its
    iterated diagonal is. *)
Theorem C109_simplicial_detects : forall (dt n d times coord : Z) (C : list Z -> Prop) (x : simp),
  subcomplex C -> wf cls_simplicial x -> dt_ok dt (torsion x) -> keys_in (simp_cell C n d) x -> 1 <= coord <= n -> 0 <= times ->
  let diagonal := extended1 dt cls_simplicial (fun y => simp_iterated_diagonal dt y times coord) in
  (exists u, wf cls_simplicial u /\ torsion u = torsion x /\ keys_in (simp_cell C n (d + 1)) u /\ same (simp_boundary dt u) (Ok x)) <->
  (exists w, wf cls_simplicial w /\ torsion w = torsion x /\ keys_in (simp_cell C (n + times) (d + 1)) w /\ same (simp_boundary dt w) (diagonal x)).
Proof. exact @C109_simplicial_detects_l. Qed.
Print Assumptions C109_simplicial_detects.

(** The same over every cubical complex. *)
Theorem C109_cubical_detects : forall (dt n d times coord : Z) (C : list Z -> Prop) (x : cubc),
  cubical_subcomplex C -> wf cls_cubical x -> dt_ok dt (torsion x) -> keys_in (cube_cell C n d) x -> 1 <= coord <= n -> 0 <= times ->
  let diagonal := extended1 dt cls_cubical (fun y => cub_iterated_diagonal dt y times coord) in
  (exists u, wf cls_cubical u /\ torsion u = torsion x /\ keys_in (cube_cell C n (d + 1)) u /\ same (cub_boundary dt u) (Ok x)) <->
  (exists w, wf cls_cubical w /\ torsion w = torsion x /\ keys_in (cube_cell C (n + times) (d + 1)) w /\ same (cub_boundary dt w) (diagonal x)).
Proof. exact @C109_cubical_detects_l. Qed.
Print Assumptions C109_cubical_detects.

(** The boundary of a triangle (a circle): the cycle of its three edges, which is not a boundary in the circle, and its diagonal. *)
Example C109_example : let C := fun s : list Z => s = [] \/ In s [[0]; [1]; [2]; [0; 1]; [1; 2]; [0; 2]] in
  let x : simp := mkElt [([[0; 1]], 1); ([[1; 2]], 1); ([[0; 2]], -1)] 0 tt in
  subcomplex C /\ wf cls_simplicial x /\ keys_in (simp_cell C 1 1) x /\ simp_boundary 0 x = Ok (mkElt [] 0 tt) /\
  simp_iterated_diagonal 0 x 1 1 = Ok (mkElt [([[0]; [0; 1]], 1); ([[0; 1]; [1]], 1); ([[1]; [1; 2]], 1); ([[1; 2]; [2]], 1); ([[0]; [0; 2]], -1); ([[0; 2]; [2]], -1)] 0 tt) /\
  extend (drop_vertex 1) (mkElt [([[0]; [0; 1]], 1); ([[0; 1]; [1]], 1)] 0 tt : simp) = [([[0; 1]], 1)].
Proof. exact @C109_example_l. Qed.
