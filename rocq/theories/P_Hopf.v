(** * Property theorems.  Generated by tools/mkprop.py from the tagged lemmas of
    HopfLaws.v: every theorem is closed by [exact]. *)
From Coq Require Import Znumtheory Sorting.Sorted.
From Verif Require Import PyBase Dict FreeModule Symmetric Simplicial Utils Surjection BarrattEccles GroupMul Spec SpecOperad SpecHopf HopfLaws.

(** The diagonal is a map of operads: the diagonal of a composite
    is the composite of the diagonals, factor by factor with the sign of the
    exchange of the two factors in the middle. *)
Theorem C93_compose : forall (dt n1 n2 p q i : Z) (x y z : bee) (dx dy : elt (list bkey) unit),
  1 <= n1 -> 1 <= n2 -> 1 <= i <= n1 -> wf cls_be x -> wf cls_be y -> torsion y = torsion x -> dt_ok dt (torsion x) ->
  keys_in (be_cell n1 p) x -> keys_in (be_cell n2 q) y -> ~ is_zero x -> ~ is_zero y ->
  be_compose dt x y i = Ok z -> be_diagonal dt x 1 = Ok dx -> be_diagonal dt y 1 = Ok dy ->
  gives (cls_free (list bkey)) (be_diagonal dt z 1) (torsion x) tt (extend2 (tensor_compose i) dx dy).
Proof. exact @C93_compose_l. Qed.
Print Assumptions C93_compose.

(** The diagonal commutes with the boundary, in the tensor power
    of the normalised chains (a product with a degenerate factor is zero). *)
Theorem C93_chain_map : forall (dt r : Z) (x bx : bee) (dx dbx : elt (list bkey) unit),
  wf cls_be x -> dt_ok dt (torsion x) -> be_boundary dt x = Ok bx -> be_diagonal dt x r = Ok dx -> be_diagonal dt bx r = Ok dbx ->
  forall m, be_nondegenerate m -> (torsion x | coef (extend be_tensor_faces dx) m - dget (data dbx) m).
Proof. exact @C93_chain_map_l. Qed.
Print Assumptions C93_chain_map.

(** The diagonal commutes with the action of the symmetric
    group: it acts on all the factors at once. *)
Theorem C93_equivariant : forall (dt n r : Z) (p : list Z) (x y : bee) (dx : elt (list bkey) unit),
  1 <= n -> perm n p -> wf cls_be x -> dt_ok dt (torsion x) -> keys_in (be_simplex n) x -> ~ is_zero x ->
  group_mul_be dt p x = Ok y -> be_diagonal dt x r = Ok dx ->
  gives (cls_free (list bkey)) (be_diagonal dt y r) (torsion x) tt (extend (fun m => [(map (be_move p) m, 1)]) dx).
Proof. exact @C93_equivariant_l. Qed.
Print Assumptions C93_equivariant.

(** The augmentation is a counit: it removes either factor. *)
Theorem C93_counit : forall (dt : Z) (x : bee) (dx : elt (list bkey) unit),
  wf cls_be x -> dt_ok dt (torsion x) -> be_diagonal dt x 1 = Ok dx ->
  represents cls_be x (extend augment_first dx) /\ represents cls_be x (extend augment_second dx).
Proof. exact @C93_counit_l. Qed.
Print Assumptions C93_counit.

(** The hypotheses hold for a composite of two elements of degree
    1 and the diagonal of the composite has 6 terms, 3 of them negative. *)
Example C93_example : let x := mkElt [([[1; 2]; [2; 1]], 1)] 0 tt : bee in
  wf cls_be x /\ keys_in (be_cell 2 1) x /\ dt_ok 0 (torsion x) /\
  (exists z dx, be_compose 0 x x 1 = Ok z /\ be_diagonal 0 x 1 = Ok dx /\
    exists dz, be_diagonal 0 z 1 = Ok dz /\ length (data dz) = 6%nat /\ length (filter (fun p => 0 <? snd p) (data dz)) = 3%nat) /\
  (exists bx, be_boundary 0 x = Ok bx /\ length (data bx) = 2%nat).
Proof. exact @C93_example_l. Qed.
