(** * Property theorems.  Generated by tools/mkprop.py from the tagged lemmas of
    ArityTwoBELaws.v: every theorem is closed by [exact]. *)
From Coq Require Import Znumtheory Sorting.Sorted.
From Verif Require Import PyBase Dict FreeModule Symmetric Surjection BarrattEccles Spec SpecChain SpecOperad SpecSurj SpecCup ArityTwoBELaws.

(** The basis elements of arity 2 and degree [d] are the two alternating simplices with d + 1 vertices. *)
Theorem C97_simplices : forall (d : Z) (k : list (list Z)),
  0 <= d ->
  (be_cell 2 d k /\ ~ repeats k) <-> (k = alt_simplex 1 (Z.to_nat (d + 1)) \/ k = alt_simplex 2 (Z.to_nat (d + 1))).
Proof. exact @C97_simplices_l. Qed.
Print Assumptions C97_simplices.

(** A nonzero element of arity 2 and degree [d] has complexity [d]. *)
Theorem C97_be_complexity : forall (d : Z) (x : bee),
  0 <= d -> wf cls_be x -> keys_in (be_cell 2 d) x -> ~ is_zero x -> be_complexity x = Ok d.
Proof. exact @C97_be_complexity_l. Qed.
Print Assumptions C97_be_complexity.

(** The cycles of arity 2 and degree d >= 1 are exactly the multiples of the boundary of
    may_steenrod_structure(2, d + 1). *)
Theorem C97_be_cycles : forall (dt d : Z) (x : bee),
  1 <= d -> wf cls_be x -> torsion x <> 1 -> dt_ok dt (torsion x) -> keys_in (be_cell 2 d) x ->
  (exists z, be_boundary dt x = Ok z /\ is_zero z) <->
  (exists c, same (Ok x) (let! e := be_may_steenrod dt 2 (d + 1) (Some (torsion x)) in let! b := be_boundary dt e in scale dt cls_be c b)).
Proof. exact @C97_be_cycles_l. Qed.
Print Assumptions C97_be_cycles.

(** The multiple [c] of that cycle is zero exactly when the torsion divides [c]. *)
Theorem C97_be_generator : forall (dt t d c : Z),
  0 <= d -> 0 <= t -> t <> 1 -> dt_ok dt t ->
  exists e b z, be_may_steenrod dt 2 (d + 1) (Some t) = Ok e /\ be_boundary dt e = Ok b /\ scale dt cls_be c b = Ok z /\ wf cls_be z /\ keys_in (be_cell 2 d) z /\
    (is_zero z <-> (t | c)).
Proof. exact @C97_be_generator_l. Qed.
Print Assumptions C97_be_generator.

(** The elements of arity 2 and complexity at most [m] have the homology of a sphere of
    dimension [m]: there is nothing in degrees > m; a cycle whose degree is between 1 and m - 1 is the boundary of an
    element of the stage; in degree 0 (m >= 1) an element is the boundary of an element of the stage exactly if the
    torsion divides the sum of its coefficients; in degree [m] only zero is the boundary of an element of
    the stage (the cycles there: C97_be_cycles, C97_be_generator). *)
Theorem C97_be_stages : forall (dt m d cx : Z) (x : bee),
  0 <= d -> wf cls_be x -> dt_ok dt (torsion x) -> keys_in (be_cell 2 d) x ->
  be_complexity x = Ok cx -> cx <= m ->
  let bounds := exists y cy, wf cls_be y /\ torsion y = torsion x /\ keys_in (be_cell 2 (d + 1)) y /\ be_complexity y = Ok cy /\ cy <= m /\ same (be_boundary dt y) (Ok x) in
  (m < d -> is_zero x) /\
  (1 <= d <= m - 1 -> (exists z, be_boundary dt x = Ok z /\ is_zero z) -> bounds) /\
  (d = 0 -> 1 <= m -> bounds <-> (torsion x | zsum (map snd (data x)))) /\
  (d = m -> bounds -> is_zero x).
Proof. exact @C97_be_stages_l. Qed.
Print Assumptions C97_be_stages.

Example C97_be_example : let x : bee := mkElt [([[1; 2]; [2; 1]; [1; 2]], 3); ([[2; 1]; [1; 2]; [2; 1]], -3)] 0 tt in
  wf cls_be x /\ keys_in (be_cell 2 2) x /\ be_complexity x = Ok 2 /\ be_boundary 0 x = Ok (mkElt [] 0 tt) /\
  be_may_steenrod 0 2 3 (Some 0) = Ok (mkElt [(alt_simplex 1 4, 1)] 0 tt) /\
  be_boundary 0 (mkElt [(alt_simplex 1 4, 1)] 0 tt) = Ok (mkElt [([[2; 1]; [1; 2]; [2; 1]], 1); ([[1; 2]; [2; 1]; [1; 2]], -1)] 0 tt).
Proof. exact @C97_be_example_l. Qed.
