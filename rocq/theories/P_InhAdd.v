(** * Property theorems.  Generated by tools/mkprop.py from the tagged lemmas of
    InhAdd.v: every theorem is closed by [exact]. *)
From Coq Require Import Znumtheory Sorting.Sorted.
From Verif Require Import PyBase Dict FreeModule Symmetric Simplicial Cubical Surjection BarrattEccles Inherited Eqm Spec FreeModuleFacts FreeModuleLaws InhLaws InhAdd.

(** [x <= y], [x < y], [x >= y], [x > y] compare all the coefficients as integers, also those of
    the keys that occur in only one of the elements; [<] is [<=] with one strict inequality. *)
Theorem C89_order : forall {K A} `{KeyOk K} (x y : elt K A),
  (counter_le (data x) (data y) = true <-> forall k, dget (data x) k <= dget (data y) k) /\
  (counter_ge (data x) (data y) = true <-> forall k, dget (data y) k <= dget (data x) k) /\
  (counter_lt (data x) (data y) = true <->
     (forall k, dget (data x) k <= dget (data y) k) /\ exists k, dget (data x) k < dget (data y) k) /\
  (counter_gt (data x) (data y) = true <->
     (forall k, dget (data y) k <= dget (data x) k) /\ exists k, dget (data y) k < dget (data x) k).
Proof. exact @C89_order_l. Qed.
Print Assumptions C89_order.

(** Over the integers, and only there, this is an order of the module: adding the same
    element to both sides keeps [<=]. *)
Theorem C89_order_add : forall {K A} `{KeyOk K} (c : pycls K) (dt : Z) (x y z : elt K A),
  cls_ok c -> wf c x -> wf c y -> wf c z -> torsion x = 0 -> torsion y = 0 -> torsion z = 0 -> dt_ok dt 0 ->
  exists p q, add dt c x z = Ok p /\ add dt c y z = Ok q /\ counter_le (data p) (data q) = counter_le (data x) (data y).
Proof. exact @C89_order_add_l. Qed.
Print Assumptions C89_order_add.

(** [x |= y] and [x &= y] set the coefficients to the maximum and minimum (cut at 0) and keep the
    attributes of [x]; for elements over the same ring the result is again a normal form. *)
Theorem C89_inplace : forall {K A} `{KeyOk K} (c : pycls K) (x y : elt K A),
  wf c x -> wf c y ->
  (forall k, dget (data (ior x y)) k = Z.max 0 (Z.max (dget (data x) k) (dget (data y) k))) /\
  (forall k, dget (data (iand x y)) k = Z.max 0 (Z.min (dget (data x) k) (dget (data y) k))) /\
  torsion (ior x y) = torsion x /\ attr (ior x y) = attr x /\
  torsion (iand x y) = torsion x /\ attr (iand x y) = attr x /\
  (torsion y = torsion x -> wf c (ior x y) /\ wf c (iand x y)).
Proof. exact @C89_inplace_l. Qed.
Print Assumptions C89_inplace.

(** [x.elements()] lists every key as often as its coefficient says, and not at all if it is negative. *)
Theorem C89_elements : forall {K A} `{KeyOk K} (c : pycls K) (x : elt K A) k,
  wf c x -> zlen (filter (fun k' => keqb k' k) (counter_elements (data x))) = Z.max 0 (dget (data x) k).
Proof. exact @C89_elements_l. Qed.
Print Assumptions C89_elements.

(** [x.total()] is the augmentation: the sum of the coefficients, exactly additive for
    [x.update(y)] and [x.subtract(y)], and additive modulo the torsion for [x + y]. *)
Theorem C89_total : forall {K A} `{KeyOk K} (c : pycls K) (dt : Z) (x y : elt K A),
  cls_ok c -> wf c x -> wf c y -> torsion y = torsion x -> dt_ok dt (torsion x) ->
  counter_total (data x) = zsum (map (dget (data x)) (dkeys (data x))) /\
  counter_total (data (updated x y)) = counter_total (data x) + counter_total (data y) /\
  counter_total (data (subtracted x y)) = counter_total (data x) - counter_total (data y) /\
  exists s, add dt c x y = Ok s /\ eqm (torsion x) (counter_total (data s)) (counter_total (data x) + counter_total (data y)).
Proof. exact @C89_total_l. Qed.
Print Assumptions C89_total.

(** A copy of a surjection element has the default torsion and the default convention, whatever the
    convention of the original is. *)
Theorem C89_copy_surj : forall (dt : Z) (dc : conv) (x : surj),
  wf cls_surj x -> 0 <= dt ->
  exists y, surj_copied dt dc x = Ok y /\ wf cls_surj y /\ torsion y = dt /\ attr y = dc /\
    forall k, dget (data y) k = if dt =? 0 then dget (data x) k else dget (data x) k mod dt.
Proof. exact @C89_copy_surj_l. Qed.
Print Assumptions C89_copy_surj.

(** For [x = 2*(1,2,1) + (2,1,2)] and [y = (1,2,1)] modulo 3: [y <= x] and [y < x], but
    [y + y <= x + y] is false: the order is not kept by the addition modulo 3;
    [x | y], [x & y], the elements and the total. *)
Example C89_more_example : let x := mkElt [([1;2;1], 2); ([2;1;2], 1)] 3 MS in
  let y := mkElt [([1;2;1], 1)] 3 MS in
  wf cls_surj x /\ wf cls_surj y /\
  counter_le (data y) (data x) = true /\ counter_lt (data y) (data x) = true /\ counter_ge (data y) (data x) = false /\
  counter_gt (data x) (data y) = true /\
  add 0 cls_surj y y = Ok (mkElt [([1;2;1], 2)] 3 MS) /\ add 0 cls_surj x y = Ok (mkElt [([2;1;2], 1)] 3 MS) /\
  counter_le [([1;2;1], 2)] [([2;1;2], 1)] = false /\
  ior y x = mkElt [([1;2;1], 2); ([2;1;2], 1)] 3 MS /\ iand x y = mkElt [([1;2;1], 1)] 3 MS /\
  counter_elements (data x) = [[1;2;1]; [1;2;1]; [2;1;2]] /\ counter_total (data x) = 3.
Proof. exact @C89_more_example_l. Qed.
