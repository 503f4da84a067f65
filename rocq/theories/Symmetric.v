(** * comch/symmetric/symmetric.py

    Model file. *)
From Verif Require Import PyBase Dict FreeModule.

(** ** SymmetricGroupElement: a tuple of ints *)

(** symmetric.py:98-116 *)
Definition sg_arity (p : list Z) : res Z := py_max p.

(** symmetric.py:62-96.  The list [p] holds ints or [False] ([None] here).
    Python treats [False] as the int 0 in [p[next_one - 1]] and in the
    comparison with [cycle_first >= 1]. *)
Definition cell := option Z.
Definition cell_int (x : cell) : Z := match x with Some z => z | None => 0 end.

(** symmetric.py:89-91, the [while] loop; [Diverges] when fuel is exhausted *)
Fixpoint cycle_loop (fuel : nat) (first : Z) (p : list cell) (next_one : cell)
  (cycle : list Z) : res (list cell * list Z) :=
  match fuel with
  | O => Err Diverges
  | S fuel' =>
      if cell_int next_one =? first then Ok (p, cycle)
      else
        let i := cell_int next_one - 1 in
        let! nxt := py_get p i in
        let! p' := py_set p i None in
        cycle_loop fuel' first p' nxt (cycle ++ [cell_int next_one])
  end.

(** symmetric.py:83-94, the body of the [for] loop *)
Definition cycles_step (fuel : nat) (singletons : bool)
  (st : list cell * list (list Z)) (i : Z) : res (list cell * list (list Z)) :=
  let (p, cycles) := st in
  let! pi := py_get p i in
  match pi with
  | None => Ok (p, cycles)
  | Some v =>
      let! p1 := py_set p i None in
      let! r := cycle_loop fuel (i + 1) p1 (Some v) [i + 1] in
      let (p2, cycle) := r in
      Ok (p2, if singletons || (1 <? zlen cycle) then cycles ++ [cycle] else cycles)
  end.

(** symmetric.py:62-96; [fuel] bounds each [while] loop *)
Definition to_cycles_fuel (fuel : nat) (s : list Z) (singletons : bool) : res (list (list Z)) :=
  let! r := for_ (zrange 0 (zlen s)) (map Some s, []) (cycles_step fuel singletons) in
  Ok (snd r).
Definition to_cycles (s : list Z) (singletons : bool) : res (list (list Z)) :=
  to_cycles_fuel (S (length s)) s singletons.

(** symmetric.py:38-60 *)
Definition sg_sign (p : list Z) : res Z :=
  if negb (set_eqb p (zrange 1 (zlen p + 1))) then Err TypeError else
  let! cycles := to_cycles p false in
  Ok (sgn (zsum (map (fun cy => zlen cy - 1) cycles))).

(** symmetric.py:142-145: product of two symmetric group elements *)
Definition sg_mul (a b : list Z) : res (list Z) :=
  let! na := sg_arity a in
  let! nb := sg_arity b in
  if negb (na =? nb) then Err TypeError else
  mapM (fun i => py_get a (i - 1)) b.

(** symmetric.py:147-163 *)
Definition sg_inverse (a : list Z) : res (list Z) :=
  let! n := sg_arity a in
  mapM (fun i => let! j := py_index a (i + 1) in Ok (j + 1)) (zrange 0 n).

(** symmetric.py:165-186 *)
Definition sg_pow (a : list Z) (times : Z) : res (list Z) :=
  if times =? 0 then let! n := py_max a in Ok (zrange 1 (n + 1))
  else for_ (zrange 0 (times - 1)) a (fun answer _ => sg_mul answer a).

(** symmetric.py:188-230 *)
Definition sg_compose (a b : list Z) (position : Z) : res (list Z) :=
  let s := zlen b - 1 in
  let to_insert := map (fun i => i + position - 1) b in
  let! at_ := py_index a position in
  let shift := map (fun i => if position <? i then i + s else i) a in
  Ok (slice_to shift at_ ++ to_insert ++ slice_from shift (at_ + 1)).

(** ** SymmetricGroup *)

(** symmetric.py:236-257 *)
Definition sg_all (n : Z) : list (list Z) := permutations (zrange 1 (n + 1)).

(** symmetric.py:259-284 *)
Definition sg_shuffles (i j : Z) : list (list Z) :=
  filter (fun p =>
            forallb (fun xy => fst xy <? snd xy) (pairwise (slice_to p i)) &&
            forallb (fun xy => fst xy <? snd xy) (pairwise (slice_from p i)))
         (permutations (zrange 1 (i + j + 1))).

(** ** SymmetricRingElement *)

(** A key is a tuple of ints, either an instance of [SymmetricGroupElement]
    ([is_sge = true]) or a plain [tuple]; the two compare (and hash) equal. *)
Record skey := mkSkey { is_sge : bool; kval : list Z }.
Definition SGE (l : list Z) : skey := mkSkey true l.
Definition Tup (l : list Z) : skey := mkSkey false l.
#[global] Instance PyKey_skey : PyKey skey :=
  {| keqb := fun a b => tup_eqb (kval a) (kval b) |}.

(** symmetric.py:323-328: the constructor turns keys into
    [SymmetricGroupElement]; no key is degenerate. *)
Definition cls_ring : pycls skey := mkCls (fun _ => Ok false) (fun k => SGE (kval k)).

Definition ring := elt skey unit.

Section Ring.
Variable dt : Z. (* default_torsion *)

(** Constructor [SymmetricRingElement(data, torsion)] on tuples *)
Definition ring_new (d : list (list Z * Z)) (t : option Z) : res ring :=
  new dt cls_ring (dict_of (map (fun p => (SGE (fst p), snd p)) d)) t tt.

(** symmetric.py:334-360; [None] when not homogeneous *)
Definition ring_arity (x : ring) : res (option Z) :=
  if dempty (data x) then Ok None else
  let! ms := mapM (fun k => py_max (kval k)) (dkeys (data x)) in
  match zset ms with
  | [m] => Ok (Some m)
  | _ => Ok None
  end.

(** symmetric.py:392-400: product of two ring elements. The new keys are
    plain tuples. *)
Definition ring_mul (x y : ring) : res ring :=
  if negb (torsion x =? torsion y) then Err TypeError else
  let! answer := zero dt cls_ring x in
  let! d := for_ (list_prod (data x) (data y)) (data answer)
    (fun d '((k1, v1), (k2, v2)) =>
       let! k := mapM (fun i => py_get (kval k1) (i - 1)) (kval k2) in
       Ok (dset d (Tup k) (dget d (Tup k) + v1 * v2))) in
  let! d' := pref cls_ring (torsion x) d in
  Ok (mkElt d' (torsion x) tt).

(** symmetric.py:389-390 with [other] a [SymmetricGroupElement]:
    [other.__rmul__(self)] is [tuple.__rmul__], which requires an int. *)
Definition ring_mul_group (x : ring) (g : list Z) : res ring := Err TypeError.

(** symmetric.py:138-140 with [other] a [SymmetricRingElement]:
    [other.__rmul__(as_ring)] is [FreeModuleElement.__rmul__]
    (free_module.py:149-150), which requires an int. The ring element
    [as_ring] is built first. *)
Definition group_mul_ring (g : list Z) (y : ring) : res ring :=
  let! as_ring := new dt cls_ring [(SGE g, 1)] (Some (torsion y)) tt in
  Err TypeError.

(** symmetric.py:468-491 *)
Definition identity_element (arity : Z) (t : option Z) : res ring :=
  new dt cls_ring [(SGE (zrange 1 (arity + 1)), 1)] t tt.

(** symmetric.py:493-526 *)
Definition rotation_element (arity : Z) (t : option Z) : res ring :=
  new dt cls_ring [(SGE (zrange 2 (arity + 1) ++ [1]), 1)] t tt.

(** symmetric.py:528-553. [dict_of] models the dict literal: the two keys
    coincide when [arity = 1]. *)
Definition transposition_element (arity : Z) (t : option Z) : res ring :=
  let rho := zrange 2 (arity + 1) ++ [1] in
  let identity := zrange 1 (arity + 1) in
  new dt cls_ring (dict_of [(SGE rho, 1); (SGE identity, -1)]) t tt.

(** symmetric.py:402-422. [k ** times] on a plain tuple is a [TypeError]. *)
Definition ring_pow (x : ring) (times : Z) : res ring :=
  if times =? 0 then
    let! n := ring_arity x in
    match n with
    | None => Err TypeError (* range(1, None + 1) *)
    | Some n => identity_element n (Some (torsion x))
    end
  else
    let! answer := zero dt cls_ring x in
    for_ (data x) answer (fun answer '(k, v) =>
      if is_sge k then
        let! kt := sg_pow (kval k) times in
        add_term dt cls_ring x answer (SGE kt) v
      else Err TypeError).

(** symmetric.py:424-462. [k1.compose] on a plain tuple is an
    [AttributeError]. *)
Definition ring_compose (x y : ring) (position : Z) : res ring :=
  if dempty (data x) then zero dt cls_ring x else
  if negb (torsion x =? torsion y) then Err TypeError else
  let! answer := zero dt cls_ring x in
  for_ (list_prod (data x) (data y)) answer
    (fun answer '((k1, v1), (k2, v2)) =>
       if is_sge k1 then
         let! new_k := sg_compose (kval k1) (kval k2) position in
         add_term dt cls_ring x answer (SGE new_k) (v1 * v2)
       else Err AttributeError).

(** symmetric.py:555-581 *)
Definition norm_element (arity : Z) (t : option Z) : res ring :=
  let! rho := rotation_element arity t in
  let! answer := new dt cls_ring [] t tt in
  for_ (zrange 0 arity) answer (fun answer i =>
    let! r := ring_pow rho i in iadd cls_ring answer r).

End Ring.
