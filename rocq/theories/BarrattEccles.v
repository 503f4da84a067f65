(** * comch/barratt_eccles/barratt_eccles.py

    Model file.  A basis element is a tuple of [SymmetricGroupElement]; the
    constructor (lines 73-78) converts keys, so all entries of keys are of
    that class. *)
From Verif Require Import PyBase Dict FreeModule Symmetric Simplicial Utils Surjection.

Definition bkey := list (list Z).
(** barratt_eccles.py:520-525 *)
Definition cls_be : pycls bkey :=
  mkCls (fun k => Ok (match k with [] => true | _ => false end ||
                      existsb (fun p => tup_eqb (fst p) (snd p)) (pairwise k)))
        (fun k => k).
Definition bee := elt bkey unit.

(** barratt_eccles.py:105-113 *)
Definition be_arity (x : bee) : res (option Z) :=
  if dempty (data x) then Ok None else
  let! ars := mapM (fun k => mapM sg_arity k) (dkeys (data x)) in
  match zset (concat ars) with
  | [a] => Ok (Some a)
  | _ => Ok None
  end.

(** barratt_eccles.py:134-139 *)
Definition be_degree (x : bee) : option Z :=
  if dempty (data x) then None else
  match zset (map (fun k => zlen k - 1) (dkeys (data x))) with
  | [d] => Some d
  | _ => None
  end.

(** barratt_eccles.py:172-178.  [seq] yields [filter] objects, which compare
    by identity: [p != q] always holds, so each pair counts. *)
Definition be_complexity (x : bee) : res Z :=
  for_ (dkeys (data x)) 0 (fun complexity k =>
    let! k0 := py_get k 0 in
    let! m := py_max k0 in
    for_ (pairs_upto m) complexity (fun complexity '(i, j) =>
      let cpxty := zlen (pairwise k) in
      Ok (Z.max cpxty complexity))).

Section BarrattEccles.
Variable dt : Z.

(** Constructor, barratt_eccles.py:49-79 *)
Definition be_new (d : list (bkey * Z)) (t : option Z) : res bee :=
  new dt cls_be (dict_of d) t tt.

(** barratt_eccles.py:205-212; the final [preferred_rep] is included *)
Definition be_boundary (x : bee) : res bee :=
  let! answer := zero dt cls_be x in
  let! answer := for_ (data x) answer (fun answer '(spx, coeff) =>
    for_ (zrange 0 (zlen spx)) answer (fun answer i =>
      add_term dt cls_be answer answer (slice_to spx i ++ slice_from spx (i + 1))
               (sgn (i mod 2) * coeff))) in
  let! d := pref cls_be (torsion answer) (data answer) in
  Ok (mkElt d (torsion answer) (attr answer)).

(** barratt_eccles.py:247-257, for [other] a [SymmetricRingElement].
    [k2 * pi] is a [TypeError] when [k2] is a plain tuple. *)
Definition be_act (other : ring) (x : bee) : res bee :=
  if negb (torsion x =? torsion other) then Err TypeError else
  let! xa := be_arity x in
  let! oa := ring_arity other in
  if negb (opt_eqb xa oa) then Err TypeError else
  let! answer := zero dt cls_be x in
  for_ (list_prod (data x) (data other)) answer (fun answer '((k1, v1), (k2, v2)) =>
    let! new_k := mapM (fun pi => if is_sge k2 then sg_mul (kval k2) pi else Err TypeError) k1 in
    add_term dt cls_be x answer new_k (v1 * v2)).

(** barratt_eccles.py:281-292 *)
Definition be_orbit (x : bee) (rep : repr) : res bee :=
  if dempty (data x) then Ok x else
  let! answer := be_new [] (Some (torsion x)) in
  for_ (data x) answer (fun answer '(k, v) =>
    let! k0 := py_get k 0 in
    let! inverse := mapM (fun i => let! j := py_index k0 (i + 1) in Ok (j + 1))
                         (zrange 0 (zlen k0)) in
    let! permutation := new dt cls_ring [(SGE inverse, 1)] (Some (torsion x)) tt in
    let! permutation := match rep with
                        | SignRep => let! s := sg_sign k0 in scale dt cls_ring s permutation
                        | _ => Ok permutation
                        end in
    let! e := be_new [(k, v)] (Some (torsion x)) in
    let! to_add := be_act permutation e in
    iadd cls_be answer to_add).

(** barratt_eccles.py:350-363 *)
Fixpoint paths (p : nat) : nat -> list (list (Z * Z)) :=
  match p with
  | O => fix paths0 (q : nat) :=
      match q with
      | O => [[(0, 0)]]
      | S q' => map (fun path => path ++ [(0, Z.of_nat q)]) (paths0 q')
      end
  | S p' => fix pathsS (q : nat) :=
      map (fun path => path ++ [(Z.of_nat (S p'), Z.of_nat q)]) (paths p' q) ++
      match q with
      | O => []
      | S q' => map (fun path => path ++ [(Z.of_nat (S p'), Z.of_nat q)]) (pathsS q')
      end
  end.

(** barratt_eccles.py:365-372 *)
Definition sign_of_path (path : list (Z * Z)) : Z :=
  let vectors := map (fun ba => (fst (snd ba) - fst (fst ba), snd (snd ba) - snd (fst ba)))
                     (pairwise path) in
  sgn (zsum (map (fun '(idx, (a, b)) =>
                    if (a =? 0) && (b =? 1) then
                      zlen (filter (fun '(a', b') => (a' =? 1) && (b' =? 0))
                                   (slice_from vectors (idx + 1)))
                    else 0) (enumerate vectors))).

(** barratt_eccles.py:339-348.  For a zero operand the function returns a
    value that the caller discards. *)
Definition be_compose_check (x y : bee) (position : Z) : res unit :=
  if negb (torsion x =? torsion y) then Err TypeError else
  if dempty (data x) || dempty (data y) then Ok tt else
  let! xa := be_arity x in
  let! ya := be_arity y in
  match xa, ya, be_degree x, be_degree y with
  | Some a, Some _, Some _, Some _ => if a <? position then Err TypeError else Ok tt
  | _, _, _, _ => Err TypeError
  end.

(** barratt_eccles.py:374-385.  With a degree [None] the comparison
    [p > 0] (or the recursion) in [paths] raises [TypeError]. *)
Definition be_compose (x y : bee) (position : Z) : res bee :=
  let! _ := be_compose_check x y position in
  let! answer := zero dt cls_be x in
  match be_degree x, be_degree y with
  | Some p, Some q =>
    for_ (list_prod (data x) (data y)) answer (fun answer '((k1, v1), (k2, v2)) =>
      for_ (paths (Z.to_nat p) (Z.to_nat q)) answer (fun answer path =>
        let! new_k := mapM (fun '(i, j) =>
                              let! a := py_get k1 i in
                              let! b := py_get k2 j in
                              sg_compose a b position) path in
        let sign := if torsion x =? 2 then 1 else sign_of_path path in
        add_term dt cls_be x answer new_k (sign * v1 * v2)))
  | _, _ => Err TypeError
  end.

(** barratt_eccles.py:444-456: [None] when [degenerate] *)
Fixpoint table_row (idx : Z) (pi : list Z) (k1 : bkey) (k2 removed : list Z)
  : res (option (list Z)) :=
  match pi with
  | [] => Ok (Some k2)
  | i :: pi' =>
      let! row := py_get k1 idx in
      let filtered := filter (fun j => negb (mem j removed)) row in
      let! deg := (if 0 <? idx then
                     let! l := py_get k2 (-1) in
                     let! f := py_get filtered 0 in
                     Ok (l =? f)
                   else Ok false) in
      if deg : bool then Ok None else
      let removed' := if 1 <? i then removed ++ slice_to filtered (i - 1) else removed in
      table_row (idx + 1) pi' k1 (k2 ++ slice_to filtered i) removed'
  end.

(** barratt_eccles.py:439-458 *)
Definition be_table_reduction (x : bee) : res surj :=
  let! answer := new dt cls_surj [] (Some (torsion x)) BF in
  let! answer := for_ (data x) answer (fun answer '(k1, v) =>
    let d := zlen k1 - 1 in
    let! k10 := py_get k1 0 in
    let! a := py_max k10 in
    let! ps := partitions (d + a) (d + 1) 1 None true in
    for_ ps answer (fun answer pi =>
      let! r := table_row 0 pi k1 [] [] in
      match r with
      | None => Ok answer
      | Some k2 => add_term dt cls_surj answer answer k2 v
      end)) in
  let! d := pref cls_surj (torsion answer) (data answer) in
  Ok (mkElt d (torsion answer) (attr answer)).

(** barratt_eccles.py:490-492 *)
Definition be_split (m : list bkey) : res (list (list bkey)) :=
  match m with
  | [] => Err IndexError
  | a :: b => Ok (dedup (map (fun i => [slice_to a (i + 1); slice_from a i] ++ b)
                             (zrange 0 (zlen a))))
  end.
(** barratt_eccles.py:497-498; [set.union()] without argument is a [TypeError] *)
Fixpoint be_splits (s : nat) (to_add : list (list bkey)) : res (list (list bkey)) :=
  match s with
  | O => Ok to_add
  | S s' =>
      match to_add with
      | [] => Err TypeError
      | _ => let! ss := mapM be_split to_add in be_splits s' (dedup (concat ss))
      end
  end.

(** barratt_eccles.py:494-501; the answer is a [FreeModuleElement] *)
Definition be_diagonal (x : bee) (r : Z) : res (elt (list bkey) unit) :=
  let! answer := new dt (cls_free (list bkey)) [] (Some (torsion x)) tt in
  for_ (data x) answer (fun answer '(k, v) =>
    let! to_add := be_splits (Z.to_nat r) [[k]] in
    let! e := create dt (cls_free (list bkey)) answer (dict_of (map (fun m => (m, v)) to_add)) in
    iadd (cls_free (list bkey)) answer e).

(** ** BarrattEccles *)

(** barratt_eccles.py:570-581 *)
Fixpoint be_psi (n t : ring) (arity : Z) (degree : nat) : res bee :=
  match degree with
  | O => be_new [([zrange 1 (arity + 1)], 1)] None
  | S d =>
      let! previous := be_psi n t arity d in
      let! acted_on := be_act (if Nat.even (S d) then n else t) previous in
      let identity := zrange 1 (arity + 1) in
      be_new (map (fun kv => (identity :: fst kv, snd kv)) (data acted_on)) None
  end.

(** barratt_eccles.py:532-586 *)
Definition be_may_steenrod (arity degree : Z) (t : option Z) : res bee :=
  let! n := norm_element dt arity None in
  let! tr := transposition_element dt arity None in
  if degree <? 0 then Err RecursionError else
  let! a := be_psi n tr arity (Z.to_nat degree) in
  match t with
  | None => Ok a
  | Some t => if t =? 0 then Ok a else set_torsion cls_be a t
  end.

(** barratt_eccles.py:588-659 *)
Definition be_steenrod_operation (p s q : Z) (bockstein : bool) : res bee :=
  if (p =? 2) && bockstein then Err TypeError else
  if p =? 2 then
    let d := s - q in
    if d <? 0 then be_new [] (Some 2) else
    let! e := be_may_steenrod p d (Some p) in
    scale dt cls_be 1 e
  else
    let b := if bockstein then 1 else 0 in
    let! coeff := steenrod_coeff p s q in
    let d := (2 * s - q) * (p - 1) - b in
    if d <? 0 then be_new [] (Some p) else
    let! e := be_may_steenrod p d (Some p) in
    scale dt cls_be coeff e.

End BarrattEccles.
