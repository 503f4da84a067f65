(** * comch/surjection/surjection.py

    Model file.  A basis element is a tuple of ints. *)
From Verif Require Import PyBase Dict FreeModule Symmetric Simplicial Cubical Utils.

(** The attribute [convention]: the two strings the code knows, or any other. *)
Inductive conv := BF | MS | OtherConv.

(** surjection.py:742-751: degenerate when not surjective onto
    [{1, ..., max}], or with two equal consecutive values.  [max(())] raises
    [ValueError]. *)
Definition surj_bad (k : list Z) : res bool :=
  let! m := py_max k in
  Ok (negb (set_eqb k (zrange 1 (m + 1))) || existsb (fun p => fst p =? snd p) (pairwise k)).
Definition cls_surj : pycls (list Z) := mkCls surj_bad (fun k => k).
Definition surj := elt (list Z) conv.

(** surjection.py:89-112 *)
Definition surj_arity (x : surj) : res (option Z) :=
  if dempty (data x) then Ok None else
  let! ms := mapM py_max (dkeys (data x)) in
  match zset ms with
  | [m] => Ok (Some m)
  | _ => Ok None
  end.

(** surjection.py:114-137 *)
Definition surj_degree (x : surj) : res (option Z) :=
  if dempty (data x) then Ok None else
  let! ds := mapM (fun k => let! m := py_max k in Ok (zlen k - m)) (dkeys (data x)) in
  match zset ds with
  | [d] => Ok (Some d)
  | _ => Ok None
  end.

(** surjection.py:169-170 and 193-194: number of alternations in the
    subsequence of the values [i], [j] *)
Definition alternations (i j : Z) (k : list Z) : Z :=
  zlen (filter (fun pq => negb (fst pq =? snd pq))
               (pairwise (filter (fun x => (x =? i) || (x =? j)) k))).

(** [combinations(range(1, m + 1), 2)], as pairs *)
Definition pairs_upto (m : Z) : list (Z * Z) :=
  flat_map (fun l => match l with [i; j] => [(i, j)] | _ => [] end)
           (combinations 2 (zrange 1 (m + 1))).

(** surjection.py:166-172 *)
Definition surj_complexity (x : surj) : res Z :=
  for_ (dkeys (data x)) 0 (fun complexity k =>
    let! m := py_max k in
    for_ (pairs_upto m) complexity (fun complexity '(i, j) =>
      Ok (Z.max (alternations i j k) complexity))).

(** surjection.py:189-197 *)
Definition surj_filtration (x : surj) : res Z :=
  for_ (dkeys (data x)) 0 (fun filtration k =>
    let! m := py_max k in
    Ok (Z.max filtration (zsum (map (fun '(i, j) => alternations i j k) (pairs_upto m))))).

(** surjection.py:239-249: the dict [signs], as the list of its values in the
    order of the indices [0, 1, ...] *)
Definition bf_signs (k : list Z) : res (list Z) :=
  let! r := for_ (enumerate k) ([], 1) (fun '(signs, alternating_sign) '(idx, i) =>
    if mem i (slice_from k (idx + 1)) then
      Ok (signs ++ [alternating_sign], - alternating_sign)
    else if mem i (slice_to k idx) then
      let! m := py_max (map fst (filter (fun pj => i =? snd pj) (enumerate (slice_to k idx)))) in
      let! s := py_get signs m in
      Ok (signs ++ [- s], alternating_sign)
    else Ok (signs ++ [0], alternating_sign)) in
  Ok (fst r).

Section Surjection.
Variable dt : Z.        (* default_torsion *)
Variable dc : conv.     (* default_convention *)

(** Constructor, surjection.py:58-83; [ov] is the argument [convention] *)
Definition surj_new (d : list (list Z * Z)) (t : option Z) (ov : option conv) : res surj :=
  new dt cls_surj (dict_of d) t (match ov with Some c => c | None => dc end).

(** surjection.py:199-265 *)
Definition surj_boundary (x : surj) : res surj :=
  let! answer := zero dt cls_surj x in
  if torsion x =? 2 then
    for_ (dkeys (data x)) answer (fun answer k =>
      for_ (zrange 0 (zlen k)) answer (fun answer idx =>
        let bdry_summand := slice_to k idx ++ slice_from k (idx + 1) in
        let! i := py_get k idx in
        if mem i bdry_summand then add_term dt cls_surj x answer bdry_summand 1
        else Ok answer))
  else match attr x with
  | BF =>
    for_ (data x) answer (fun answer '(k, v) =>
      let! signs := bf_signs k in
      for_ (zrange 0 (zlen k)) answer (fun answer idx =>
        let bdry_summand := slice_to k idx ++ slice_from k (idx + 1) in
        let! i := py_get k idx in
        if mem i bdry_summand then
          let! s := py_get signs idx in
          add_term dt cls_surj x answer bdry_summand (s * v)
        else Ok answer))
  | MS =>
    for_ (data x) answer (fun answer '(k, v) =>
      let! m := py_max k in
      let! r := for_ (zrange 1 (m + 1)) (answer, 1) (fun '(answer, sign) i =>
        let! r := for_ (map fst (filter (fun pj => snd pj =? i) (enumerate k))) (answer, sign)
          (fun '(answer, sign) idx =>
             let new_k := slice_to k idx ++ slice_from k (idx + 1) in
             let! j := py_get k idx in
             let! answer' := (if mem j new_k
                              then add_term dt cls_surj answer answer new_k (v * sign)
                              else Ok answer) in
             Ok (answer', - sign)) in
        let (answer, sign) := (r : surj * Z) in Ok (answer, - sign)) in
      Ok (fst r))
  | OtherConv => Ok answer
  end.

(** surjection.py:303-314 *)
Definition surj_act_sign (perm k : list Z) (cv : conv) : res Z :=
  match cv with
  | BF => Ok 1
  | OtherConv => Err AssertionError
  | MS =>
    let! m := py_max k in
    koszul_sign perm (map (fun i => py_count k i - 1) (zrange 1 (m + 1)))
  end.

(** surjection.py:267-326, for [other] a [SymmetricRingElement] *)
Definition surj_act (other : ring) (x : surj) : res surj :=
  if negb (torsion x =? torsion other) then Err TypeError else
  let! xa := surj_arity x in
  let! oa := ring_arity other in
  if negb (opt_eqb xa oa) then Err TypeError else
  let! answer := zero dt cls_surj x in
  for_ (list_prod (data x) (data other)) answer (fun answer '((k1, v1), (k2, v2)) =>
    let! new_key := mapM (fun i => py_get (kval k2) (i - 1)) k1 in
    let! new_sign := surj_act_sign (kval k2) k1 (attr x) in
    add_term dt cls_surj x answer new_key (new_sign * v1 * v2)).

(** symmetric.py:137-140 with [other] a [SurjectionElement]: a group element
    times a surjection element *)
Definition group_mul_surj (g : list Z) (y : surj) : res surj :=
  let! as_ring := new dt cls_ring [(SGE g, 1)] (Some (torsion y)) tt in
  surj_act as_ring y.

(** The string argument [representation] *)
Inductive repr := Trivial | SignRep | OtherRep.

(** surjection.py:361-363 *)
Definition first_seen (k : list Z) : list Z :=
  fold_left (fun seen i => if mem i seen then seen else seen ++ [i]) k [].

(** surjection.py:328-368; for other strings [sign] returns [None] and
    [None * v] raises [TypeError] *)
Definition surj_orbit (x : surj) (rep : repr) : res surj :=
  let! answer := zero dt cls_surj x in
  for_ (data x) answer (fun answer '(k, v) =>
    let! permutation := sg_inverse (first_seen k) in
    let! s := match rep with
              | Trivial => Ok 1
              | SignRep => sg_sign permutation
              | OtherRep => Err TypeError
              end in
    let! e := create dt cls_surj x [(k, s * v)] in
    let! to_add := group_mul_surj permutation e in
    iadd cls_surj answer to_add).

(** [sorted(enumerate(k1), key=itemgetter(1))]: Python's sort is stable *)
Fixpoint insert_pair (p : Z * Z) (l : list (Z * Z)) : list (Z * Z) :=
  match l with
  | [] => [p]
  | q :: l' => if snd p <=? snd q then p :: l else q :: insert_pair p l'
  end.
Definition sort_pairs (l : list (Z * Z)) : list (Z * Z) := fold_right insert_pair [] l.

(** surjection.py:442-453 *)
Definition ordering_sign (permu weights : list Z) : res Z :=
  let! sign_exp := for_ (enumerate permu) 0 (fun acc '(idx, j) =>
    let! to_add := mapM (fun i => let! at_ := py_index permu i in py_get weights at_)
                        (filter (fun i => i <? j) (slice_from permu (idx + 1))) in
    let! w := py_get weights idx in
    Ok (acc + w * zsum to_add)) in
  Ok (sign_exp mod 2).

(** surjection.py:455-466 *)
Definition action_sign (ordered_k1 ordered_weights : list Z) : Z :=
  zsum (map (fun '(idx, (i, j)) =>
               if i =? j then zsum (slice_to ordered_weights (idx + 1)) else 0)
            (enumerate (pairwise ordered_k1))) mod 2.

(** surjection.py:439-478; [weights] are the dimensions mod 2 of the factors *)
Definition compute_sign (k1 weights : list Z) : res Z :=
  let inv_ordering_permu := map fst (sort_pairs (enumerate k1)) in
  let! ordering_permu := mapM (fun i => py_index inv_ordering_permu i)
                              (zrange 0 (zlen inv_ordering_permu)) in
  let! s1 := ordering_sign ordering_permu weights in
  let ordered_k1 := zsort k1 in
  let! ordered_weights := mapM (fun i => py_get weights i) inv_ordering_permu in
  let s2 := action_sign ordered_k1 ordered_weights in
  Ok (sgn (s1 + s2)).

(** surjection.py:489-497: [None] when [zero_summand] *)
Fixpoint simp_joins (is : list Z) (k1 : list Z) (k2 : list (list Z)) : res (option (list (list Z))) :=
  match is with
  | [] => Ok (Some [])
  | i :: is' =>
      let! parts := mapM (fun '(idx, spx) => let! v := py_get k1 idx in Ok (v =? i, spx))
                         (enumerate k2) in
      match filter (fun p : bool * list Z => fst p) parts with
      | [] => Err TypeError (* reduce() of empty iterable *)
      | to_join =>
          let joined := concat (map snd to_join) in
          if spx_is_degenerate joined then Ok None else
          let! rest := simp_joins is' k1 k2 in
          Ok (match rest with None => None | Some r => Some (joined :: r) end)
      end
  end.

(** surjection.py:480-507 *)
Definition surj_call_simplicial_body (x : surj) (y : simp) (coord ar deg : Z) : res simp :=
  let! answer := zero dt cls_simplicial y in
  let times := ar + deg - 1 in
  let! pre_join := simp_iterated_diagonal dt y times coord in
  for_ (list_prod (data x) (data pre_join)) answer (fun answer '((k1, v1), (k2, v2)) =>
    let i := coord - 1 in
    let j := coord + zlen k1 - 1 in
    let lft := slice_to k2 i in
    let rgt := slice_from k2 j in
    let k2 := slice k2 i j in
    let! m := py_max k1 in
    let! r := simp_joins (zrange 1 (m + 1)) k1 k2 in
    match r with
    | None => Ok answer
    | Some new_k =>
        let! sign := (if torsion x =? 2 then Ok 1 else
                      let! s := compute_sign k1 (map (fun e => spx_dim e mod 2) k2) in
                      let deg_left := zsum (map (fun spx => zlen spx - 1) lft) mod 2 in
                      Ok (s * sgn (deg_left * deg))) in
        add_term dt cls_simplicial answer answer (lft ++ new_k ++ rgt) (sign * v1 * v2)
    end).

(** surjection.py:512-527 *)
Definition cubical_sign (ar : Z) (weights : list Z) (groups : list (list Z)) : res Z :=
  let! sign_exp :=
    (if ar <=? 2 then
       let! t1 := mapM (fun group => let! g0 := py_get group 0 in
                                     let! w := py_get weights g0 in
                                     Ok ((zlen group - 1) * w)) groups in
       let! t2 := mapM (fun '(i, lft) =>
                          mapM (fun rgt => let! l0 := py_get lft 0 in
                                           let! r0 := py_get rgt 0 in
                                           Ok (if r0 <? l0 then (zlen lft - 1) * (zlen rgt - 1) else 0))
                               (slice_from groups (i + 1))) (enumerate groups) in
       Ok (zsum t1 + zsum (map zsum t2))
     else
       let! t1 := mapM (fun group =>
                          mapM (fun '(idx, i) => let! w := py_get weights i in
                                                 Ok ((zlen group - 1 - idx) * w)) (enumerate group))
                       groups in
       Ok (zsum (map zsum t1) + zsum (map (fun group => zlen group - 1) groups))) in
  Ok (sgn (sign_exp mod 2)).

(** surjection.py:538-547: [None] when [zero_summand] *)
Fixpoint cub_joins (y : cubc) (is : list Z) (k1 : list Z) (k2 : list (list Z))
  : res (option (list (list Z * cubc))) :=
  match is with
  | [] => Ok (Some [])
  | i :: is' =>
      let group := map fst (filter (fun p => snd p =? i) (enumerate k1)) in
      let! key_to_join := mapM (fun idx => py_get k2 idx) group in
      let! e := create dt cls_cubical y [(key_to_join, 1)] in
      let! joined := cub_join dt e in
      if dempty (data joined) then Ok None else
      let! rest := cub_joins y is' k1 k2 in
      Ok (match rest with None => None | Some r => Some ((group, joined) :: r) end)
  end.

(** surjection.py:529-563 *)
Definition surj_call_cubical_body (x : surj) (y : cubc) (coord ar deg : Z) : res cubc :=
  let! answer := zero dt cls_cubical y in
  let! pre_join := cub_iterated_diagonal dt y (ar + deg - 1) coord in
  for_ (list_prod (data x) (data pre_join)) answer (fun answer '((k1, v1), (k2, v2)) =>
    let i := coord - 1 in
    let j := coord + zlen k1 - 1 in
    let lft := slice_to k2 i in
    let rgt := slice_from k2 j in
    let k2 := slice k2 i j in
    let! m := py_max k1 in
    let! r := cub_joins y (zrange 1 (m + 1)) k1 k2 in
    match r with
    | None => Ok answer
    | Some gj =>
        let weights := map (fun e => cube_dim e mod 2) k2 in
        let! sign := (if torsion x =? 2 then Ok 1 else
                      let! s := compute_sign k1 weights in
                      let! s' := cubical_sign ar weights (map fst gj) in
                      let deg_left := zsum (map cube_dim lft) mod 2 in
                      Ok (s * s' * sgn (deg_left * deg))) in
        match gj with
        | [] => Err TypeError (* reduce() of empty iterable *)
        | _ =>
          for_ (product_all (map (fun p => data (snd p)) gj)) answer (fun answer pairs =>
            let new_k := concat (map fst pairs) in
            let new_v := fold_right Z.mul 1 (map snd pairs) in
            add_term dt cls_cubical answer answer (lft ++ new_k ++ rgt) (sign * new_v * v1 * v2))
        end
    end).

(** surjection.py:431-437 *)
Definition call_check (x : surj) (tother : Z) (oarity : option Z) (coord : Z) : res (Z * Z) :=
  let! od := surj_degree x in
  let! oa := surj_arity x in
  match od, oa with
  | Some d, Some a =>
      match oarity with
      | None => Err TypeError
      | Some n => if n <? coord then Err TypeError else
                  if negb (torsion x =? tother) then Err TypeError else Ok (a, d)
      end
  | _, _ => Err TypeError
  end.

(** surjection.py:370-577 with [other] a [SimplicialElement] *)
Definition surj_call_simplicial (x : surj) (y : simp) (coord : Z) : res simp :=
  if dempty (data x) || dempty (data y) then zero dt cls_simplicial y else
  let! ad := call_check x (torsion y) (simp_arity y) coord in
  match attr x with
  | MS => surj_call_simplicial_body x y coord (fst ad) (snd ad)
  | _ => Err NotImplementedError
  end.

(** surjection.py:370-577 with [other] a [CubicalElement] *)
Definition surj_call_cubical (x : surj) (y : cubc) (coord : Z) : res cubc :=
  if dempty (data x) || dempty (data y) then zero dt cls_cubical y else
  let! ad := call_check x (torsion y) (cub_arity y) coord in
  surj_call_cubical_body x y coord (fst ad) (snd ad).

(** surjection.py:628-634 *)
Definition caesuras (k : list Z) : list Z :=
  map fst (filter (fun p => mem (snd p) (slice_from k (fst p + 1))) (enumerate k)).
(** surjection.py:636-642 *)
Definition cae_weights (cae p : list Z) : list Z :=
  map (fun '(i, j) => zlen (filter (fun e => (i <=? e) && (e <? j)) cae) mod 2) (pairwise p).
(** surjection.py:625-653 *)
Definition bf_sign (p1 k1 p2 k2 : list Z) : Z :=
  let w1 := cae_weights (caesuras k1) ([0] ++ p1 ++ [zlen k1 - 1]) in
  let w2 := cae_weights (caesuras k2) p2 in
  sgn (zsum (map (fun '(idx, w) => if w =? 0 then 0 else zsum (slice_from w1 (idx + 1)) mod 2)
                 (enumerate w2))).

(** surjection.py:668-675: replacement of the entries equal to [position];
    [next] on an exhausted generator cannot happen. *)
Fixpoint compose_key (k1 : list Z) (position : Z) (oarity : option Z) (ins : list (list Z))
  : res (list Z) :=
  match k1 with
  | [] => Ok []
  | j :: k1' =>
      if j <? position then
        let! r := compose_key k1' position oarity ins in Ok (j :: r)
      else if j =? position then
        match ins with
        | [] => Err RecursionError (* StopIteration; unreachable *)
        | part :: ins' => let! r := compose_key k1' position oarity ins' in Ok (part ++ r)
        end
      else
        match oarity with
        | None => Err TypeError
        | Some s => let! r := compose_key k1' position oarity ins in Ok (j + s - 1 :: r)
        end
  end.

(** surjection.py:579-683 *)
Definition surj_compose (x y : surj) (position : Z) : res surj :=
  let! answer := zero dt cls_surj x in
  let! oarity := surj_arity y in
  for_ (list_prod (data x) (data y)) answer (fun answer '((k1, v1), (k2, v2)) =>
    let positions := map fst (filter (fun p => snd p =? position) (enumerate k1)) in
    let! ps := py_cwr (zrange 0 (zlen k2)) (zlen positions - 1) in
    for_ ps answer (fun answer p =>
      let p := [0] ++ p ++ [zlen k2 - 1] in
      let split := map (fun ab => slice k2 (fst ab) (snd ab + 1)) (pairwise p) in
      let to_insert := map (map (fun j => j + position - 1)) split in
      let! new_k := compose_key k1 position oarity to_insert in
      let! sign := (if torsion x =? 2 then Ok 1 else
                    match attr x with
                    | BF => Ok (bf_sign positions k1 p k2)
                    | MS => Err NotImplementedError
                    | OtherConv => Err UnboundLocalError
                    end) in
      add_term dt cls_surj answer answer new_k (v1 * v2 * sign))).

(** surjection.py:685-722; the [TypeError] of a non-permutation is caught *)
Definition surj_suspension (x : surj) : res surj :=
  if dempty (data x) then Ok x else
  let! oa := surj_arity x in
  let! od := surj_degree x in
  match oa, od with
  | Some a, Some _ =>
    match attr x with
    | BF =>
      let! answer := zero dt cls_surj x in
      for_ (data x) answer (fun answer '(k, v) =>
        match sg_sign (slice_to k a) with
        | Ok sign => add_term dt cls_surj x answer (slice_from k (a - 1)) (v * sign)
        | Err TypeError => Ok answer
        | Err e => Err e
        end)
    | _ => Err NotImplementedError
    end
  | _, _ => Err TypeError
  end.

(** ** Surjection *)

(** surjection.py:822-827 *)
Definition ms_i1 (x : surj) : res surj :=
  let! answer := zero dt cls_surj x in
  for_ (data x) answer (fun answer '(k, v) =>
    add_term dt cls_surj answer answer (1 :: map (fun j => j + 1) k) v).
(** surjection.py:838-846 *)
Definition ms_p1 (x : surj) : res surj :=
  let! answer := zero dt cls_surj x in
  for_ (data x) answer (fun answer '(k, v) =>
    if py_count k 1 =? 1 then
      let! idx := py_index k 1 in
      add_term dt cls_surj answer answer
        (map (fun j => j - 1) (slice_to k idx) ++ map (fun j => j - 1) (slice_from k (idx + 1))) v
    else Ok answer).
(** surjection.py:816-829 and 831-848: [iterate >= 1] in all calls *)
Fixpoint res_iter (n : nat) (f : surj -> res surj) (x : surj) : res surj :=
  match n with
  | O => Ok x
  | S n' => let! y := res_iter n' f x in f y
  end.
Definition ms_i (n : Z) (x : surj) : res surj := res_iter (Z.to_nat n) ms_i1 x.
Definition ms_p (n : Z) (x : surj) : res surj := res_iter (Z.to_nat n) ms_p1 x.
(** surjection.py:850-856 *)
Definition ms_s (x : surj) : res surj :=
  let! answer := zero dt cls_surj x in
  for_ (data x) answer (fun answer '(k, v) =>
    add_term dt cls_surj answer answer (1 :: k) v).
(** surjection.py:858-864 *)
Definition ms_h (arity : Z) (x : surj) : res surj :=
  let! answer := ms_s x in
  for_ (zrange 1 (arity - 1)) answer (fun answer r =>
    let! a := ms_p r x in
    let! b := ms_s a in
    let! c := ms_i r b in
    iadd cls_surj answer c).

(** surjection.py:871-880 *)
Fixpoint surj_psi (n t : ring) (arity : Z) (degree : nat) (cv : conv) : res surj :=
  match degree with
  | O => surj_new [(zrange 1 (arity + 1), 1)] None (Some cv)
  | S d =>
      let! previous := surj_psi n t arity d cv in
      let! acted_on := surj_act (if Nat.even (S d) then n else t) previous in
      ms_h arity acted_on
  end.

(** surjection.py:758-887; a negative degree recurses forever *)
Definition surj_may_steenrod (arity degree : Z) (t : option Z) (ov : option conv) : res surj :=
  let! n := norm_element dt arity None in
  let! tr := transposition_element dt arity None in
  let cv := match ov with Some c => c | None => dc end in
  if degree <? 0 then Err RecursionError else
  let! a := surj_psi n tr arity (Z.to_nat degree) cv in
  match t with
  | None => Ok a
  | Some t => if t =? 0 then Ok a else set_torsion cls_surj a t
  end.

End Surjection.

(** ** Steenrod operations *)

(** [math.factorial] *)
Fixpoint zfact (n : nat) : Z :=
  match n with
  | O => 1
  | S n' => Z.of_nat n * zfact n'
  end.

(** Conversion of an int to a float (IEEE double, round half to even), as the
    int that it represents; [OverflowError] beyond the largest double.
    Used for [coeff *= factorial(m)] when [coeff] is the float
    [(-1) ** negative]. *)
Definition float_of_int (n : Z) : res Z :=
  let a := Z.abs n in
  if a <? 2 ^ 53 then Ok n else
  let e := Z.log2 a - 52 in
  let q := a / 2 ^ e in
  let r := a mod 2 ^ e in
  let h := 2 ^ (e - 1) in
  let q' := if (r <? h) || ((r =? h) && Z.even q) then q else q + 1 in
  let b := q' * 2 ^ e in
  if 2 ^ 1024 <=? b then Err OverflowError else Ok (Z.sgn n * b).

(** surjection.py:984-986 and barratt_eccles.py:650-652: the value of
    [int(coeff)]; for a negative exponent [coeff] is a float. *)
Definition steenrod_coeff (p s q : Z) : res Z :=
  let e := q / 2 + s in
  let c0 := sgn e in
  if q mod 2 =? 0 then Ok c0 else
  let m := (p - 1) / 2 in
  if m <? 0 then Err ValueError else
  let f := zfact (Z.to_nat m) in
  if 0 <=? e then Ok (c0 * f) else
  let! g := float_of_int f in Ok (c0 * g).

Section SurjectionSteenrod.
Variable dt : Z.
Variable dc : conv.

(** surjection.py:889-993 (ints and a bool as arguments) *)
Definition surj_steenrod_operation (p s q : Z) (bockstein : bool) (cv : option conv) : res surj :=
  if (p =? 2) && bockstein then Err TypeError else
  if p =? 2 then
    let d := s - q in
    if d <? 0 then surj_new dt dc [] (Some 2) None else
    let! e := surj_may_steenrod dt dc p d (Some p) cv in
    scale dt cls_surj 1 e
  else
    let b := if bockstein then 1 else 0 in
    let! coeff := steenrod_coeff p s q in
    let d := (2 * s - q) * (p - 1) - b in
    if d <? 0 then surj_new dt dc [] (Some p) None else
    let! e := surj_may_steenrod dt dc p d (Some p) cv in
    scale dt cls_surj coeff e.

(** surjection.py:1032-1037 *)
Definition filter_homogeneous (c : pycls (list (list Z))) (dim : list Z -> Z)
  (x : elt (list (list Z)) unit) : res (elt (list (list Z)) unit) :=
  create dt c x (filter (fun kv => zlen (zset (map dim (fst kv))) =? 1) (data x)).

(** surjection.py:995-1052 with [shape = 'simplex'] *)
Definition steenrod_chain_simplex (p s q : Z) (bockstein : bool) : res simp :=
  let! sj := surj_steenrod_operation p s q bockstein (Some MS) in
  let b := if bockstein then 1 else 0 in
  let d := if p =? 2 then q + s else q + 2 * s * (p - 1) - b in
  let! element := simp_standard_element dt (- d) 1 (Some p) in
  let! r := surj_call_simplicial dt sj element 1 in
  filter_homogeneous cls_simplicial spx_dim r.
(** surjection.py:995-1052 with [shape = 'cube'] *)
Definition steenrod_chain_cube (p s q : Z) (bockstein : bool) : res cubc :=
  let! sj := surj_steenrod_operation p s q bockstein (Some MS) in
  let b := if bockstein then 1 else 0 in
  let d := if p =? 2 then q + s else q + 2 * s * (p - 1) - b in
  let! element := cub_standard_element dt (- d) 1 (Some p) in
  let! r := surj_call_cubical dt sj element 1 in
  filter_homogeneous cls_cubical cube_dim r.

(** surjection.py:1054-1089 *)
Definition surj_basis (arity degree : Z) (complexity : option Z) : res (list (list Z)) :=
  let c := match complexity with Some c => c | None => degree + 1 end in
  if arity + degree <? 0 then Err ValueError else
  for_ (product_rep (zrange 1 (arity + 1)) (Z.to_nat (arity + degree))) [] (fun basis s =>
    let! e := surj_new dt dc [(s, 1)] None None in
    if dempty (data e) then Ok basis else
    let! cx := surj_complexity e in
    let! oa := surj_arity e in
    if (cx <=? c) && opt_eqb oa (Some arity) then Ok (basis ++ [s]) else Ok basis).

End SurjectionSteenrod.
