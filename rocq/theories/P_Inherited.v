(** * Property theorems.  Generated by tools/mkprop.py from the tagged lemmas of
    InhLaws.v: every theorem is closed by [exact]. *)
From Coq Require Import Znumtheory Sorting.Sorted.
From Verif Require Import PyBase Dict FreeModule Symmetric Simplicial Cubical Surjection BarrattEccles Inherited Eqm Spec FreeModuleFacts FreeModuleLaws InhLaws.

(** [x.copy()], [copy.copy(x)], [copy.deepcopy(x)] and [pickle.loads(pickle.dumps(x))] all
    return the element with the same coefficients in the ring of the *class default*: the coefficients
    are reduced modulo [default_torsion] when it is not 0, and the other attributes (the
    convention of surjections) are reset to their defaults. *)
Theorem C89_copy : forall {K A} `{KeyOk K} (dt : Z) (c : pycls K) (a0 : A) (x : elt K A),
  cls_ok c -> wf c x -> 0 <= dt ->
  exists y, copied dt c a0 x = Ok y /\ wf c y /\ torsion y = dt /\ attr y = a0 /\
    forall k, dget (data y) k = if dt =? 0 then dget (data x) k else dget (data x) k mod dt.
Proof. exact @C89_copy_l. Qed.
Print Assumptions C89_copy.

(** With the default torsion of the library (0), or when the torsion of the element is the
    class default, a copy is equal ([==]) to the original; nevertheless [x + y] of the original and its
    copy raises [TypeError] exactly when the torsion of [x] is not the class default, because [==]
    ignores the torsion. *)
Theorem C89_copy_eq : forall {K A} `{KeyOk K} (dt : Z) (c : pycls K) (a0 : A) (x : elt K A),
  cls_ok c -> wf c x -> 0 <= dt ->
  exists y, copied dt c a0 x = Ok y /\
    (dt = 0 \/ torsion x = dt -> elt_eqb x y = true) /\
    (add dt c x y = Err TypeError <-> torsion x <> dt) /\ (torsion x = dt <-> exists s, add dt c x y = Ok s).
Proof. exact @C89_copy_eq_l. Qed.
Print Assumptions C89_copy_eq.

(** [x.update(y)] and [x.subtract(y)] change the counts by exact integer addition and
    subtraction, whatever the torsions are: nothing is reduced and no zero count is removed. *)
Theorem C89_update : forall {K A} `{KeyOk K} (c : pycls K) (x y : elt K A),
  wf c x -> wf c y ->
  (forall k, dget (data (updated x y)) k = dget (data x) k + dget (data y) k) /\
  (forall k, dget (data (subtracted x y)) k = dget (data x) k - dget (data y) k) /\
  torsion (updated x y) = torsion x /\ torsion (subtracted x y) = torsion x /\
  attr (updated x y) = attr x /\ attr (subtracted x y) = attr x.
Proof. exact @C89_update_l. Qed.
Print Assumptions C89_update.

(** Normalising after [x.update(y)] or [x.subtract(y)] ([preferred_rep], or [set_torsion] with the same
    torsion) gives exactly what [x += y] and [x -= y] give, for elements over the same ring. *)
Theorem C89_update_add : forall {K A} `{KeyOk K} (c : pycls K) (x y : elt K A),
  torsion y = torsion x ->
  set_torsion c (updated x y) (torsion x) = iadd c x y /\ set_torsion c (subtracted x y) (torsion x) = isub c x y.
Proof. exact @C89_update_add_l. Qed.
Print Assumptions C89_update_add.

(** [+x], [x | y] and [x & y] are the multiset operations of [Counter]: the counts are the
    positive part, the maximum and the minimum of the counts (cut at 0) as plain integers;
    none of them is an operation of the module. *)
Theorem C89_multiset : forall {K A} `{KeyOk K} (c : pycls K) (x y : elt K A),
  wf c x -> wf c y ->
  (forall k, dget (counter_pos (data x)) k = Z.max 0 (dget (data x) k)) /\
  (forall k, dget (counter_or (data x) (data y)) k = Z.max 0 (Z.max (dget (data x) k) (dget (data y) k))) /\
  (forall k, dget (counter_and (data x) (data y)) k = Z.max 0 (Z.min (dget (data x) k) (dget (data y) k))).
Proof. exact @C89_multiset_l. Qed.
Print Assumptions C89_multiset.

(** Over [Z/n] all the coefficients are positive, so [+x] has the items of [x] in the same order. *)
Theorem C89_pos_torsion : forall {K A} `{KeyOk K} (c : pycls K) (x : elt K A),
  wf c x -> torsion x <> 0 -> counter_pos (data x) = data x.
Proof. exact @C89_pos_torsion_l. Qed.
Print Assumptions C89_pos_torsion.

(** For [x = 2*(1,2,1) + (2,1,2)] modulo 3 in the McClure-Smith convention: the copy is
    equal to [x] but lives over the integers with the Berger-Fresse convention, so that adding them
    raises [TypeError]; [x.update(x)] has the count 4 at [(1,2,1)], which is not a normal form: it is
    not equal to [x + x], which is [(1,2,1) + 2*(2,1,2)]; the operations [|] and [&] return [x]. *)
Example C89_example : let x := mkElt [([1;2;1], 2); ([2;1;2], 1)] 3 MS in
  wf cls_surj x /\
  surj_copied 0 BF x = Ok (mkElt [([1;2;1], 2); ([2;1;2], 1)] 0 BF) /\
  elt_eqb x (mkElt [([1;2;1], 2); ([2;1;2], 1)] 0 BF) = true /\
  add 0 cls_surj x (mkElt [([1;2;1], 2); ([2;1;2], 1)] 0 BF) = Err TypeError /\
  surj_copied 2 BF x = Ok (mkElt [([2;1;2], 1)] 2 BF) /\
  data (updated x x) = [([1;2;1], 4); ([2;1;2], 2)] /\ ~ wf cls_surj (updated x x) /\
  add 0 cls_surj x x = Ok (mkElt [([1;2;1], 1); ([2;1;2], 2)] 3 MS) /\
  elt_eqb (updated x x) (mkElt [([1;2;1], 1); ([2;1;2], 2)] 3 MS) = false /\
  counter_pos (data x) = data x /\ counter_or (data x) (data x) = data x /\ counter_and (data x) (data x) = data x /\
  counter_pos [([1;2;1], -2); ([2;1;2], 1)] = [([2;1;2], 1)].
Proof. exact @C89_example_l. Qed.
