(** * Property theorems.  Generated by tools/mkprop.py from the tagged lemmas of
    CubeLaws.v: every theorem is closed by [exact]. *)
From Coq Require Import Znumtheory Sorting.Sorted.
From Verif Require Import PyBase Dict FreeModule Cubical Spec SpecChain SpecCube CubeLaws.

(** [intervals] lists, in increasing order, the positions of the entries equal to 2; there are [dimension] of them. *)
Theorem C71_intervals : forall (c : list Z),
  (forall i, In i (cube_intervals c) <-> exists l1 l2, c = l1 ++ 2 :: l2 /\ zlen l1 = i) /\
  (forall l1 i j l2, cube_intervals c = l1 ++ i :: j :: l2 -> i < j) /\
  zlen (cube_intervals c) = dim c /\ cube_dim c = dim c.
Proof. exact @C71_intervals_l. Qed.
Print Assumptions C71_intervals.

(** The i-th face replaces the i-th interval by 1 for epsilon 0 and by 0 for epsilon 1 (the docstring has epsilon itself). *)
Theorem C71_face : forall (l1 l2 : list Z) (eps : Z),
  cube_face (l1 ++ 2 :: l2) (dim l1) eps = Ok (l1 ++ ((eps + 1) mod 2) :: l2) /\
  cube_face (l1 ++ 2 :: l2) (dim l1) 0 = Ok (l1 ++ 1 :: l2) /\ cube_face (l1 ++ 2 :: l2) (dim l1) 1 = Ok (l1 ++ 0 :: l2).
Proof. exact @C71_face_l. Qed.
Print Assumptions C71_face.

(** Indices: 0, ..., dimension - 1, or negative ones counted from the end; otherwise IndexError. *)
Theorem C71_face_range : forall (c : list Z) (i eps : Z),
  (0 <= i < dim c -> exists l1 l2, c = l1 ++ 2 :: l2 /\ dim l1 = i) /\
  (i < - dim c \/ dim c <= i -> cube_face c i eps = Err IndexError) /\
  (- dim c <= i < 0 -> cube_face c i eps = cube_face c (i + dim c) eps).
Proof. exact @C71_face_range_l. Qed.
Print Assumptions C71_face_range.

(** For i < j, the face i of the face j is the face j - 1 of the face i; a face has one dimension less. *)
Theorem C71_cubical_identities : forall (c : list Z) (i j e f : Z),
  0 <= i -> i < j -> j < dim c ->
  exists u v w, cube_face c j f = Ok u /\ cube_face c i e = Ok v /\ cube_face u i e = Ok w /\ cube_face v (j - 1) f = Ok w /\
    cube_dim u = cube_dim c - 1 /\ cube_dim w = cube_dim c - 2.
Proof. exact @C71_cubical_identities_l. Qed.
Print Assumptions C71_cubical_identities.

(** The vertices of the Cartan-Serre simplex of a cube: the positions of the intervals before the first 0, and the position of the first 0 (the number of entries if there is none). *)
Theorem C71_cartan_serre : forall (c l : list Z),
  ~ In 0 c ->
  cube_cartan_serre c = Ok (cube_intervals c ++ [zlen c]) /\ cube_cartan_serre (c ++ 0 :: l) = Ok (cube_intervals c ++ [zlen c]).
Proof. exact @C71_cartan_serre_l. Qed.
Print Assumptions C71_cartan_serre.

Example C71_example : cube_intervals [1; 2; 0; 2] = [1; 3] /\ cube_face [1; 2; 0; 2] 1 0 = Ok [1; 2; 0; 1] /\ cube_face [1; 2; 0; 2] (-1) 0 = Ok [1; 2; 0; 1] /\
  cube_face [1; 2; 0; 2] 2 0 = Err IndexError /\ cube_cartan_serre [2; 1; 2] = Ok [0; 2; 3] /\ cube_cartan_serre [2; 1; 0; 2] = Ok [0; 2].
Proof. exact @C71_example_l. Qed.
