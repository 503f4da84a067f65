(** * Property theorems.  Generated by tools/mkprop.py from the tagged lemmas of
    DimLaws.v: every theorem is closed by [exact]. *)
From Coq Require Import Znumtheory Sorting.Sorted.
From Verif Require Import PyBase Dict FreeModule Simplicial Heap SimpDim Spec DimLaws.

(** The attribute [dimension] set by the constructor: the argument when
    there are no data or when it is given and not 0; otherwise the largest vertex
    that occurs in the data, and -1 if none occurs. *)
Theorem C79_init : forall (data : list (skey2 * Z)) (dimension : option Z),
  let vertex v := exists k a s, In (k, a) data /\ In s k /\ In v s in
  simp_init_dimension None dimension = dimension /\
  (data = [] -> simp_init_dimension (Some data) dimension = dimension) /\
  (forall n, dimension = Some n -> n <> 0 -> simp_init_dimension (Some data) dimension = Some n) /\
  (data <> [] -> dimension = None \/ dimension = Some 0 ->
    exists m, simp_init_dimension (Some data) dimension = Some m /\
      ((vertex m /\ forall v, vertex v -> v <= m) \/ (m = -1 /\ forall v, ~ vertex v))).
Proof. exact @C79_init_l. Qed.
Print Assumptions C79_init.

(** The constructor makes an object with the data and torsion of the
    value-level constructor and with this attribute, or raises the same exception. *)
Theorem C79_object : forall (dt : Z) (h : heap) (data : list (skey2 * Z)) (dimension tor : option Z),
  match simp_new dt data tor with
  | Ok x => exists h' k, simp_object dt (Some data) dimension tor h = (h', Ok k) /\
              view h' k = Some (mkElt (FreeModule.data x) (torsion x) (simp_init_dimension (Some data) dimension))
  | Err e => exists h', simp_object dt (Some data) dimension tor h = (h', Err e)
  end.
Proof. exact @C79_object_l. Qed.
Print Assumptions C79_object.

(** No history of operations (constructors, +, -, *, /, in-place
    operations, set_torsion, failed calls) changes an attribute other than the
    torsion of an existing element; this holds for every class. *)
Theorem C79_stable : forall {K A} `{PyKey K} (dt : Z) (dA : A) (c : pycls K) (before after : list op) (k : nat) (e : elt K A),
  let h := hrun dt dA c before empty_heap in
  view h k = Some e -> exists e', view (hrun dt dA c after h) k = Some e' /\ attr e' = attr e.
Proof. exact @C79_stable_l. Qed.
Print Assumptions C79_stable.

(** Every element made from an existing element [x] (x.create, zero,
    x + y, x - y, n * x, -x, x / n, x += y, x -= y, x.set_torsion) carries the
    attributes of [x], whatever its data are. *)
Theorem C79_derived : forall {K A} `{PyKey K} (dt : Z) (dA : A) (c : pycls K) (h h' : heap) (i j k : nat) (d : dict K) (n : Z) (o : op) (x y z : elt K A),
  view h i = Some x -> view h j = Some y ->
  In o [OCreate i d; OZero i; OAdd i j; OSub i j; OScale n i; ONeg i; ODiv i n; OIadd i j; OIsub i j; OSetTorsion i n] ->
  hstep dt dA c o h = (h', Ok k) -> view h' k = Some z -> attr z = attr x.
Proof. exact @C79_derived_l. Qed.
Print Assumptions C79_derived.

(** The attribute is not updated: for x = (0,1,2) - (0,1) built by the
    constructor the value is 2, and the element x.create({((0,),): 1}) shows 2 as well,
    while the element built directly from the same data shows 0; without vertices it is -1. *)
Example C79_example : let x := [([[0; 1; 2]], 1); ([[0; 1]], -1)] in
  let h := hrun 0 None cls_simplicial [ONew (dict_of x) None (simp_init_dimension (Some x) None); OCreate 0 [([[0]], 1)]] empty_heap in
  view h 0 = Some (mkElt x 0 (Some 2)) /\ view h 1 = Some (mkElt [([[0]], 1)] 0 (Some 2)) /\
  simp_init_dimension (Some [([[0]], 1)]) None = Some 0 /\ simp_init_dimension (Some [([], 1)]) None = Some (-1) /\ simp_init_dimension None None = None.
Proof. exact @C79_example_l. Qed.
