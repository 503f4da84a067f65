(** * Property theorems.  Generated by tools/mkprop.py from the tagged lemmas of
    ReprLaws.v: every theorem is closed by [exact]. *)
From Coq Require Import Znumtheory Sorting.Sorted.
From Verif Require Import PyBase Dict FreeModule Symmetric Simplicial Cubical Surjection BarrattEccles Spec FreeModuleFacts Printing SpecPrint Inherited InhLaws Repr SpecRepr ReprLaws.

(** [repr(x)] of an element of any class is the class name with the items in braces, sorted from the
    highest to the lowest coefficient, items with the same coefficient in insertion order, and
    [Name()] for zero. *)
Theorem C90_shape : forall (x : simp) (y : cubc) (z : bee) (u : surj) (r : ring),
  wf cls_simplicial x -> wf cls_cubical y -> wf cls_be z -> wf cls_surj u -> wf cls_ring r ->
  exists lx ly lz lu lr,
    by_count (data x) lx /\ by_count (data y) ly /\ by_count (data z) lz /\ by_count (data u) lu /\ by_count (data r) lr /\
    repr_simplicial x = lit "SimplicialElement(" ++ (if dempty (data x) then [] else braces repr_tuples lx) ++ lit ")" /\
    repr_cubical y = lit "CubicalElement(" ++ (if dempty (data y) then [] else braces repr_tuples ly) ++ lit ")" /\
    repr_be z = lit "BarrattEcclesElement(" ++ (if dempty (data z) then [] else braces repr_tuples lz) ++ lit ")" /\
    repr_surj u = lit "SurjectionElement(" ++ (if dempty (data u) then [] else braces repr_ints lu) ++ lit ")" /\
    repr_ring r = lit "SymmetricRingElement(" ++ (if dempty (data r) then [] else braces (fun k => repr_ints (kval k)) lr) ++ lit ")".
Proof. exact @C90_shape_l. Qed.
Print Assumptions C90_shape.

(** The order is determined: there is exactly one list of the items sorted in this way. *)
Theorem C90_order_unique : forall {K} (d l l' : list (K * Z)),
  by_count d l -> by_count d l' -> l = l'.
Proof. exact @C90_order_unique_l. Qed.
Print Assumptions C90_order_unique.

(** Two elements of a class have the same [repr] exactly when for every integer the items with
    this coefficient are the same in the same order (for the symmetric ring: up to the class of the
    keys, which [==] ignores). *)
Theorem C90_faithful : (forall x y : simp, wf cls_simplicial x -> wf cls_simplicial y -> (repr_simplicial x = repr_simplicial y <-> forall v, with_count v (data x) = with_count v (data y))) /\
  (forall x y : cubc, wf cls_cubical x -> wf cls_cubical y -> (repr_cubical x = repr_cubical y <-> forall v, with_count v (data x) = with_count v (data y))) /\
  (forall x y : bee, wf cls_be x -> wf cls_be y -> (repr_be x = repr_be y <-> forall v, with_count v (data x) = with_count v (data y))) /\
  (forall x y : surj, wf cls_surj x -> wf cls_surj y -> (repr_surj x = repr_surj y <-> forall v, with_count v (data x) = with_count v (data y))) /\
  (forall x y : ring, wf cls_ring x -> wf cls_ring y -> (repr_ring x = repr_ring y <-> forall v, with_count v (map (fun kv => (kval (fst kv), snd kv)) (data x)) = with_count v (map (fun kv => (kval (fst kv), snd kv)) (data y)))).
Proof. exact @C90_faithful_l. Qed.
Print Assumptions C90_faithful.

(** Elements with the same [repr] are equal ([==]). *)
Theorem C90_eq : (forall x y : simp, wf cls_simplicial x -> wf cls_simplicial y -> repr_simplicial x = repr_simplicial y -> elt_eqb x y = true) /\
  (forall x y : cubc, wf cls_cubical x -> wf cls_cubical y -> repr_cubical x = repr_cubical y -> elt_eqb x y = true) /\
  (forall x y : bee, wf cls_be x -> wf cls_be y -> repr_be x = repr_be y -> elt_eqb x y = true) /\
  (forall x y : surj, wf cls_surj x -> wf cls_surj y -> repr_surj x = repr_surj y -> elt_eqb x y = true) /\
  (forall x y : ring, wf cls_ring x -> wf cls_ring y -> repr_ring x = repr_ring y -> elt_eqb x y = true).
Proof. exact @C90_eq_l. Qed.
Print Assumptions C90_eq.

(** Evaluating the [repr] calls the constructor on the printed dict, whose items are those of [x]
    sorted by coefficient: the result is equal to the copy of [x] (C89), in particular equal
    to [x] when the class default of the torsion is 0 or the torsion of [x], for every class. *)
Theorem C90_roundtrip : forall {K A} `{KeyOk K} (dt : Z) (c : pycls K) (a0 : A) (x : elt K A) (l : list (K * Z)),
  cls_ok c -> wf c x -> 0 <= dt -> by_count (data x) l ->
  same (new dt c l None a0) (copied dt c a0 x) /\
  (dt = 0 \/ torsion x = dt -> exists y, new dt c l None a0 = Ok y /\ wf c y /\ elt_eqb x y = true).
Proof. exact @C90_roundtrip_l. Qed.
Print Assumptions C90_roundtrip.

(** The coefficients -1, 2, 10 are printed as 10, 2, -1; two elements that are equal ([==]) may have
    different representations; the torsion is not shown. *)
Example C90_example : let x := mkElt [([1; 2; 1], -1); ([2; 1; 3], 2); ([1], 10); ([1; 2], 2)] 0 BF : surj in
  wf cls_surj x /\ repr_surj x = lit "SurjectionElement({(1,): 10, (2, 1, 3): 2, (1, 2): 2, (1, 2, 1): -1})" /\
  by_count (data x) [([1], 10); ([2; 1; 3], 2); ([1; 2], 2); ([1; 2; 1], -1)] /\
  repr_surj (mkElt [] 0 BF) = lit "SurjectionElement()" /\
  (let y := mkElt [([1; 2], 1); ([2; 1], 1)] 0 BF : surj in let z := mkElt [([2; 1], 1); ([1; 2], 1)] 0 BF : surj in elt_eqb y z = true /\ repr_surj y <> repr_surj z) /\
  (forall t d (r : ring), repr_ring r = repr_ring (mkElt (data r) t d)) /\
  repr_be (mkElt [([[1; 2]; [2; 1]], 2)] 3 tt) = lit "BarrattEcclesElement({((1, 2), (2, 1)): 2})".
Proof. exact @C90_example_l. Qed.
