(** * Property theorems.  Generated by tools/mkprop.py from the tagged lemmas of
    HeapLaws.v: every theorem is closed by [exact]. *)
From Coq Require Import Znumtheory Sorting.Sorted.
From Verif Require Import PyBase Dict FreeModule Spec Heap HeapLaws.

(** Each operation on objects returns an object
    whose value is that computed by the value-level model used in all the
    other theorems (or raises the same exception), in every heap. *)
Theorem C08_objects_compute_values : forall {K A} `{PyKey K} (dt : Z) (dA : A) (c : pycls K) (h : heap) (i j : nat)
  (x y : elt K A) (d : dict K) (n : Z),
  view h i = Some x -> view h j = Some y ->
  let computes o r := match r with
                      | Ok z => exists h' k, hstep dt dA c o h = (h', Ok k) /\ view h' k = Some z
                      | Err e => exists h', hstep dt dA c o h = (h', Err e)
                      end in
  computes (OCreate i d) (create dt c x d) /\ computes (OZero i) (zero dt c x) /\
  computes (OAdd i j) (add dt c x y) /\ computes (OSub i j) (sub dt c x y) /\
  computes (OScale n i) (scale dt c n x) /\ computes (ONeg i) (neg dt c x) /\
  computes (ODiv i n) (truediv dt c x n) /\
  computes (OIadd i j) (iadd c x y) /\ computes (OIsub i j) (isub c x y) /\
  computes (OSetTorsion i n) (set_torsion c x n).
Proof. exact @C08_objects_compute_values_l. Qed.
Print Assumptions C08_objects_compute_values.

(** In any history (over any heap reached
    by a history [before]) that contains no [set_torsion] and no [+=]/[-=]
    whose left operand is the object [k], the value and attributes of [k]
    never change; [+=]/[-=] on [k] itself keep its attributes. *)
Theorem C08_results_and_operands_stable : forall {K A} `{PyKey K} (dt : Z) (dA : A) (c : pycls K)
  (before after : list op) (k : nat) (e : elt K A),
  let h := hrun dt dA c before empty_heap in
  view h k = Some e ->
  (forall o, In o after -> match o with OSetTorsion _ _ => False | OIadd i _ | OIsub i _ => i <> k | _ => True end) ->
  view (hrun dt dA c after h) k = Some e.
Proof. exact @C08_results_and_operands_stable_l. Qed.
Print Assumptions C08_results_and_operands_stable.

(** [x += y] and [x -= y] change no other object, and not the attributes of [x]. *)
Theorem C08_inplace_frame : forall {K A} `{PyKey K} (dt : Z) (dA : A) (c : pycls K) (before : list op) (i j k : nat) (e : elt K A) (o : op),
  let h := hrun dt dA c before empty_heap in
  o = OIadd i j \/ o = OIsub i j -> view h k = Some e ->
  exists d, view (fst (hstep dt dA c o h)) k = Some (mkElt d (torsion e) (attr e)) /\ (k <> i -> d = data e).
Proof. exact @C08_inplace_frame_l. Qed.
Print Assumptions C08_inplace_frame.

(** Exactly what [set_torsion] on the object [i]
    does to another object [j]: nothing if the two do not share their
    attribute dictionary; otherwise the torsion of [j] changes and its
    coefficients are not reduced. *)
Theorem C08_set_torsion_exact : forall {K A} `{PyKey K} (dt : Z) (dA : A) (c : pycls K) (before : list op) (i j : nat) (t : Z)
  (oi oj : obj) (e : elt K A),
  let h := hrun dt dA c before empty_heap in
  nth_error (objs h) i = Some oi -> nth_error (objs h) j = Some oj -> j <> i -> view h j = Some e ->
  view (fst (hstep dt dA c (OSetTorsion i t) h)) j =
    Some (if Nat.eqb (dref oj) (dref oi) then mkElt (data e) t (attr e) else e).
Proof. exact @C08_set_torsion_exact_l. Qed.
Print Assumptions C08_set_torsion_exact.

(** The second half of C08 is false: after
    [z = x + y], the call [z.set_torsion(2)] changes the torsion of [x] and
    leaves [x] with a coefficient that is not reduced, so that [x] is no
    longer canonical and [x != x + x.zero()]. *)
Theorem C08_set_torsion_refuted : exists (before : list (@op Z unit)) (e e' : elt Z unit),
  let h := hrun 0 tt (cls_free Z) before empty_heap in
  let h' := fst (hstep 0 tt (cls_free Z) (OSetTorsion 2 2) h) in
  before = [ONew [(7, 3)] None tt; ONew [(8, 1)] None tt; OAdd 0 1] /\
  view h 0 = Some e /\ view h' 0 = Some e' /\ torsion e = 0 /\ torsion e' = 2 /\
  wf (cls_free Z) e /\ ~ wf (cls_free Z) e' /\
  exists z s, zero 0 (cls_free Z) e' = Ok z /\ add 0 (cls_free Z) e' z = Ok s /\ elt_eqb s e' = false.
Proof. exact @C08_set_torsion_refuted_l. Qed.
Print Assumptions C08_set_torsion_refuted.

(** A history that meets the hypotheses of the frame theorem. *)
Example C08_example : let before := [ONew [(7, 3)] None tt; ONew [(8, 1)] None tt; OAdd 0 1] in
  let after := [OIadd 1 2; OScale 5 0; OIsub 3 1] in
  view (hrun 0 tt (cls_free Z) before empty_heap) 0 = Some (mkElt [(7, 3)] 0 tt) /\
  (forall o, In o after -> match o with OSetTorsion _ _ => False | OIadd i _ | OIsub i _ => i <> 0%nat | _ => True end) /\
  view (hrun 0 tt (cls_free Z) (before ++ after) empty_heap) 1 = Some (mkElt [(8, 2); (7, 3)] 0 tt).
Proof. exact @C08_example_l. Qed.
