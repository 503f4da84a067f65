(** * Property theorems.  Generated by tools/mkprop.py from the tagged lemmas of
    ArgsLaws.v: every theorem is closed by [exact]. *)
From Coq Require Import Znumtheory Sorting.Sorted.
From Verif Require Import PyBase Dict FreeModule Symmetric Simplicial Cubical Surjection Spec SpecChain SpecCube SpecSurj SpecArgs FreeModuleFacts ArgsLaws.

(** Coordinates from [1 - arity] to [-1] count from the end: [-1] is the factor before the last. *)
Theorem C96_simplicial_negative : forall (dt n times coord : Z) (x : simp),
  simp_arity x = Some n -> 1 - n <= coord < 0 ->
  simp_iterated_diagonal dt x times coord = simp_iterated_diagonal dt x times (coord + n).
Proof. exact @C96_simplicial_negative_l. Qed.
Print Assumptions C96_simplicial_negative.

(** The coordinate 0 is not rejected: the last factor is split and the whole original
    tensor is appended, so that an element of arity [n] and degree [d] gives one of arity [2 n + times] and degree [2 d]
    instead of [n + times] and [d]. *)
Theorem C96_simplicial_zero : forall (dt n d times : Z) (x : simp),
  wf cls_simplicial x -> dt_ok dt (torsion x) -> simp_arity x = Some n -> simp_degree x = Some d -> 1 <= n -> 0 <= times ->
  gives cls_simplicial (simp_iterated_diagonal dt x times 0) (torsion x) tt
    (extend (fun k => map (fun p => (fst p ++ k, snd p)) (simp_splittings (Z.to_nat times) n k)) x) /\
  exists z, simp_iterated_diagonal dt x times 0 = Ok z /\ keys_in (fun k => zlen k = 2 * n + times /\ total_degree k = 2 * d) z.
Proof. exact @C96_simplicial_zero_l. Qed.
Print Assumptions C96_simplicial_zero.

(** [iterated_diagonal(times, coord)] accepts exactly homogeneous elements (in degree and arity), coordinates
    from [1 - arity] to [arity] and [times >= 0]; the exception in every other case. *)
Theorem C96_simplicial : forall (dt times coord : Z) (x : simp),
  wf cls_simplicial x -> dt_ok dt (torsion x) ->
  (simp_degree x = None \/ simp_arity x = None -> simp_iterated_diagonal dt x times coord = Err TypeError) /\
  forall n d, simp_arity x = Some n -> simp_degree x = Some d ->
    (n < coord -> simp_iterated_diagonal dt x times coord = Err TypeError) /\
    (coord < 1 - n -> simp_iterated_diagonal dt x times coord = Err IndexError) /\
    (1 - n <= coord <= n -> times < 0 -> simp_iterated_diagonal dt x times coord = Err ValueError) /\
    (1 - n <= coord <= n -> 0 <= times -> exists z, simp_iterated_diagonal dt x times coord = Ok z /\ wf cls_simplicial z /\ torsion z = torsion x).
Proof. exact @C96_simplicial_l. Qed.
Print Assumptions C96_simplicial.

(** As for simplicial elements, negative coordinates count from the end. *)
Theorem C96_cubical_negative : forall (dt n times coord : Z) (x : cubc),
  cub_arity x = Some n -> 1 - n <= coord < 0 ->
  cub_iterated_diagonal dt x times coord = cub_iterated_diagonal dt x times (coord + n).
Proof. exact @C96_cubical_negative_l. Qed.
Print Assumptions C96_cubical_negative.

(** A negative [times] is not rejected: it applies the counit to the factor [coord], which drops a vertex
    and kills a cube of positive dimension. *)
Theorem C96_cubical_counit : forall (dt n d times coord : Z) (x : cubc),
  wf cls_cubical x -> dt_ok dt (torsion x) -> cub_arity x = Some n -> cub_degree x = Some d -> 1 <= coord <= n -> times < 0 ->
  gives cls_cubical (cub_iterated_diagonal dt x times coord) (torsion x) tt (extend (counit_at coord) x).
Proof. exact @C96_cubical_counit_l. Qed.
Print Assumptions C96_cubical_counit.

(** The coordinate 0 is not rejected: the last factor is replaced and the whole original tensor is appended. *)
Theorem C96_cubical_zero : forall (dt n d times : Z) (x : cubc),
  wf cls_cubical x -> dt_ok dt (torsion x) -> cub_arity x = Some n -> cub_degree x = Some d -> 1 <= n ->
  gives cls_cubical (cub_iterated_diagonal dt x times 0) (torsion x) tt
    (extend (fun k => map (fun p => (fst p ++ k, snd p)) (if times <? 0 then counit_at n k else serre_at (Z.to_nat times) n k)) x).
Proof. exact @C96_cubical_zero_l. Qed.
Print Assumptions C96_cubical_zero.

(** [iterated_diagonal(times, coord)] accepts exactly homogeneous elements (in degree and arity) and coordinates
    from [1 - arity] to [arity], and every [times]. *)
Theorem C96_cubical : forall (dt times coord : Z) (x : cubc),
  wf cls_cubical x -> dt_ok dt (torsion x) ->
  (cub_degree x = None \/ cub_arity x = None -> cub_iterated_diagonal dt x times coord = Err TypeError) /\
  forall n d, cub_arity x = Some n -> cub_degree x = Some d ->
    (n < coord -> cub_iterated_diagonal dt x times coord = Err TypeError) /\
    (coord < 1 - n -> cub_iterated_diagonal dt x times coord = Err IndexError) /\
    (1 - n <= coord <= n -> exists z, cub_iterated_diagonal dt x times coord = Ok z /\ wf cls_cubical z /\ torsion z = torsion x).
Proof. exact @C96_cubical_l. Qed.
Print Assumptions C96_cubical.

(** A surjection element of arity [r] and degree [d] applied to an element that is not homogeneous raises [TypeError]; a coordinate
    below [1 - arity] raises [IndexError].  (Above the arity: C50 and C51.) *)
Theorem C96_call : forall (dt r d n coord : Z) (x : surj) (y : simp) (z : cubc),
  1 <= r -> keys_in (surj_cell r d) x -> ~ is_zero x ->
  (wf cls_simplicial y -> ~ is_zero y -> torsion x = torsion y -> dt_ok dt (torsion y) -> attr x = MS ->
     (simp_arity y = None \/ simp_degree y = None -> surj_call_simplicial dt x y coord = Err TypeError) /\
     (forall e, simp_arity y = Some n -> simp_degree y = Some e -> coord < 1 - n -> surj_call_simplicial dt x y coord = Err IndexError)) /\
  (wf cls_cubical z -> ~ is_zero z -> torsion x = torsion z -> dt_ok dt (torsion z) ->
     (cub_arity z = None \/ cub_degree z = None -> surj_call_cubical dt x z coord = Err TypeError) /\
     (forall e, cub_arity z = Some n -> cub_degree z = Some e -> coord < 1 - n -> surj_call_cubical dt x z coord = Err IndexError)).
Proof. exact @C96_call_l. Qed.
Print Assumptions C96_call.

(** [x.compose(y, i)] of non-zero elements of the group ring or of the surjection operad, [x] of arity [n], raises [ValueError] when [i] is not one of
    [1, ..., n], whatever the conventions are; if [x] or [y] is zero the composition is zero for every integer [i].  (For Barratt-Eccles elements: C37.) *)
Theorem C96_position : forall (dt n m i : Z) (x y : surj) (a b : ring),
  (wf cls_surj x -> wf cls_surj y -> dt_ok dt (torsion x) -> 1 <= m -> keys_in (onto n) x -> keys_in (onto m) y -> ~ is_zero x -> ~ is_zero y ->
     ~ 1 <= i <= n -> surj_compose dt x y i = Err ValueError) /\
  (wf cls_ring a -> torsion a = torsion b -> dt_ok dt (torsion a) -> keys_in (fun k => is_sge k = true /\ perm n (kval k)) a -> ~ is_zero a -> ~ is_zero b ->
     ~ 1 <= i <= n -> ring_compose dt a b i = Err ValueError) /\
  (keys_in (fun k => k <> []) y -> is_zero x \/ is_zero y -> surj_compose dt x y i = zero dt cls_surj x) /\
  (torsion a = torsion b -> is_zero a \/ is_zero b -> ring_compose dt a b i = zero dt cls_ring a).
Proof. exact @C96_position_l. Qed.
Print Assumptions C96_position.

(** [face(i)]: [0 <= i <= dim] removes the vertex [i]; indices from [-dim - 1] to [-2] count from the end;
    other indices except [-1] return the simplex unchanged; [face(-1)] does not remove the last vertex: it
    returns the simplex without its last vertex followed by the whole simplex. *)
Theorem C96_face : forall (s : list Z) (i : Z),
  (forall l1 v l2, s = l1 ++ v :: l2 -> zlen l1 = i -> spx_face s i = l1 ++ l2) /\
  (- zlen s <= i < -1 -> spx_face s i = spx_face s (i + zlen s)) /\
  (i < - zlen s \/ zlen s <= i -> i <> -1 -> spx_face s i = s) /\
  (forall l v, s = l ++ [v] -> spx_face s (-1) = l ++ l ++ [v]).
Proof. exact @C96_face_l. Qed.
Print Assumptions C96_face.

(** [degeneracy(i)]: [0 <= i <= dim] repeats the vertex [i]; indices from [-dim - 1] to [-2] count from the
    end; other indices except [-1] return the simplex unchanged; [degeneracy(-1)] returns the last vertex alone. *)
Theorem C96_degeneracy : forall (s : list Z) (i : Z),
  (forall l1 v l2, s = l1 ++ v :: l2 -> zlen l1 = i -> spx_degeneracy s i = l1 ++ v :: v :: l2) /\
  (- zlen s <= i < -1 -> spx_degeneracy s i = spx_degeneracy s (i + zlen s)) /\
  (i < - zlen s \/ zlen s <= i -> i <> -1 -> spx_degeneracy s i = s) /\
  (forall l v, s = l ++ [v] -> spx_degeneracy s (-1) = [v]).
Proof. exact @C96_degeneracy_l. Qed.
Print Assumptions C96_degeneracy.

(** For [x = [0,1] (x) [0,1,2] (x) [0,1]]: the coordinate [-1] is the coordinate 2, the coordinate 0 gives an element
    of arity 7 and degree 8; for the square [2] (x) [0]: [times = -1] is the counit; [(1,2,1)] composed at the positions 0 and 3. *)
Example C96_example : let x := mkElt [([[0;1];[0;1;2];[0;1]], 1)] 0 tt in
  let y := mkElt [([[2];[0]], 1)] 0 tt in
  let w := mkElt [([1;2;1], 1)] 0 BF in
  wf cls_simplicial x /\ simp_arity x = Some 3 /\ simp_degree x = Some 4 /\ wf cls_cubical y /\ cub_arity y = Some 2 /\ cub_degree y = Some 1 /\
  simp_iterated_diagonal 0 x 1 (-1) = simp_iterated_diagonal 0 x 1 2 /\
  simp_iterated_diagonal 0 x 1 0 = Ok (mkElt [([[0;1];[0;1;2];[0];[0;1];[0;1];[0;1;2];[0;1]], 1); ([[0;1];[0;1;2];[0;1];[1];[0;1];[0;1;2];[0;1]], 1)] 0 tt) /\
  simp_iterated_diagonal 0 x (-1) 1 = Err ValueError /\ simp_iterated_diagonal 0 x 1 (-3) = Err IndexError /\ simp_iterated_diagonal 0 x 1 4 = Err TypeError /\
  cub_iterated_diagonal 0 y (-1) 2 = Ok (mkElt [([[2]], 1)] 0 tt) /\ cub_iterated_diagonal 0 y (-1) 1 = Ok (mkElt [] 0 tt) /\
  cub_iterated_diagonal 0 y 1 0 = Ok (mkElt [([[2];[0];[0];[2];[0]], 1)] 0 tt) /\
  surj_compose 0 w w 0 = Err ValueError /\ surj_compose 0 w w 3 = Err ValueError /\
  spx_face [4;5;6] (-1) = [4;5;4;5;6] /\ spx_face [4;5;6] (-2) = [4;6] /\ spx_face [4;5;6] 3 = [4;5;6].
Proof. exact @C96_example_l. Qed.
