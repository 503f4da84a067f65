(** * Object-level model of the methods of all classes (C92)

    Model file.  [Heap.v] models the operations of [FreeModuleElement] on
    objects: items of their own, and a reference to an attribute dictionary
    that [create] (free_module.py:307) shares.  Here every method of the five
    subclasses that builds elements is written on objects: which object it
    starts from ([self.zero()], [other.zero()], a constructor), which object
    [create] is called on, and that [answer += ...] is [__iadd__] on
    [answer].  The computations with basis elements inside the loops are
    those of the value-level model (Simplicial.v, Cubical.v, Surjection.v,
    BarrattEccles.v, Symmetric.v).

    Simplifications: the items of an operand are read once, before the loop
    (Python iterates over the live dictionary; the theorems of
    ObjLaws.v show that no loop changes an operand); temporary objects of
    another class (the ring element made from a permutation) are values, as
    nothing can refer to them afterwards; each class has its own heap,
    because no method shares an attribute dictionary between two classes. *)
From Verif Require Import PyBase Dict FreeModule Symmetric Simplicial Cubical Utils Surjection BarrattEccles Heap.

Notation "'do!' x := m 'in' k" := (mbind m (fun x => k))
  (at level 200, x pattern, m at level 100, k at level 200, right associativity).

(** a computation without effect on objects; its exception is propagated *)
Definition hbind {K A X Y} (p : res X) (f : X -> @M K A Y) : @M K A Y :=
  match p with Ok x => f x | Err e => raise e end.
Notation "'pure!' x := m 'in' k" := (hbind m (fun x => k))
  (at level 200, x pattern, m at level 100, k at level 200, right associativity).

(** [for a in l: s = body(s, a)] *)
Fixpoint hfor_ {K A X S} (l : list X) (s : S) (body : S -> X -> @M K A S) : @M K A S :=
  match l with
  | [] => ret s
  | a :: l' => do! s' := body s a in hfor_ l' s' body
  end.

(** what a method sees of an object: its items and attributes *)
Definition h_see {K A} (i : nat) : @M K A (elt K A) := fun h =>
  match view h i with Some e => (h, Ok e) | None => (h, Err UnboundLocalError) end.

Section Terms.
Context {K A : Type} `{PyKey K}.
Variable dt : Z.
Variable dA : A.
Variable c : pycls K.
(** [answer += base.create({k: v})], e.g. simplicial.py:363 *)
Definition h_add_term (base answer : nat) (k : K) (v : Z) : @M K A nat :=
  do! to_add := h_create dt dA c base [(k, v)] in h_iadd c answer to_add.
End Terms.

Section Methods.
Variable dt : Z.      (* default_torsion *)

(** ** symmetric.py *)
Notation h_zero_r := (h_zero dt tt cls_ring).
Notation h_term_r := (h_add_term dt tt cls_ring).

(** symmetric.py:392-400: the loop writes into the items of [answer] *)
Definition h_ring_mul (self other : nat) : @M skey unit nat :=
  do! x := h_see self in
  do! y := h_see other in
  if negb (torsion x =? torsion y) then raise TypeError else
  do! answer := h_zero_r self in
  do! answer := hfor_ (list_prod (data x) (data y)) answer (fun answer '((k1, v1), (k2, v2)) =>
    pure! k := mapM (fun i => py_get (kval k1) (i - 1)) (kval k2) in
    do! o := get_obj answer in
    do! _ := set_items answer (dset (items o) (Tup k) (dget (items o) (Tup k) + v1 * v2)) in
    ret answer) in
  do! _ := h_preferred_rep cls_ring answer in
  ret answer.

(** symmetric.py:402-422; the power 0 calls the constructor (symmetric.py:491) *)
Definition h_ring_pow (self : nat) (times : Z) : @M skey unit nat :=
  do! x := h_see self in
  if times =? 0 then
    pure! n := ring_arity x in
    match n with
    | None => raise TypeError
    | Some n => h_new dt cls_ring [(SGE (zrange 1 (n + 1)), 1)] (Some (torsion x)) tt
    end
  else
    do! answer := h_zero_r self in
    hfor_ (data x) answer (fun answer '(k, v) =>
      if is_sge k then
        pure! kt := sg_pow (kval k) times in
        h_term_r self answer (SGE kt) v
      else raise TypeError).

(** symmetric.py:424-462 *)
Definition h_ring_compose (self other : nat) (position : Z) : @M skey unit nat :=
  do! x := h_see self in
  do! y := h_see other in
  if dempty (data x) then h_zero_r self else
  if negb (torsion x =? torsion y) then raise TypeError else
  do! answer := h_zero_r self in
  hfor_ (list_prod (data x) (data y)) answer (fun answer '((k1, v1), (k2, v2)) =>
    if is_sge k1 then
      pure! new_k := sg_compose (kval k1) (kval k2) position in
      h_term_r self answer (SGE new_k) (v1 * v2)
    else raise AttributeError).

(** ** simplicial.py *)
Notation h_zero_s := (h_zero dt tt cls_simplicial).
Notation h_term_s := (h_add_term dt tt cls_simplicial).

(** simplicial.py:337-364 *)
Definition h_simp_boundary (self : nat) : @M skey2 unit nat :=
  do! x := h_see self in
  do! answer := h_zero_s self in
  hfor_ (data x) answer (fun answer '(k, v) =>
    hfor_ (enumerate k) answer (fun answer '(idx, spx) =>
      let acc_dim := zsum (map spx_dim (slice_to k idx)) in
      hfor_ (zrange 0 (spx_dim spx + 1)) answer (fun answer i =>
        let new_spx := spx_face spx i in
        let new_k := slice_to k idx ++ [new_spx] ++ slice_from k (idx + 1) in
        let sign_exp := (acc_dim + i) mod 2 in
        h_term_s answer answer new_k (v * sgn sign_exp)))).

(** simplicial.py:366-423, [other] a [SymmetricRingElement] *)
Definition h_simp_act (other : ring) (self : nat) : @M skey2 unit nat :=
  do! x := h_see self in
  if negb (torsion x =? torsion other) then raise TypeError else
  pure! oa := ring_arity other in
  if negb (opt_eqb (simp_arity x) oa) then raise TypeError else
  do! answer := h_zero_s self in
  hfor_ (list_prod (data x) (data other)) answer (fun answer '((k1, v1), (k2, v2)) =>
    pure! new_key := place (kval k2) k1 in
    pure! new_sign := koszul_sign (kval k2) (map (fun s => spx_dim s mod 2) k1) in
    h_term_s self answer new_key (new_sign * v1 * v2)).

(** simplicial.py:425-476 *)
Definition h_simp_iterated_diagonal (self : nat) (times coord : Z) : @M skey2 unit nat :=
  do! x := h_see self in
  match simp_degree x with
  | None => raise TypeError
  | Some deg =>
    match simp_arity x with
    | None => raise TypeError
    | Some ar =>
      if ar <? coord then raise TypeError else
      do! answer := h_zero_s self in
      hfor_ (data x) answer (fun answer '(k, v) =>
        let lft := slice_to k (coord - 1) in
        pure! spx := py_get k (coord - 1) in
        let rgt := slice_from k coord in
        pure! ps := py_cwr (zrange 0 (deg + 1)) times in
        hfor_ ps answer (fun answer p =>
          let p := [0] ++ p ++ [deg] in
          let new_k := map (fun ij => slice spx (fst ij) (snd ij + 1)) (pairwise p) in
          h_term_s self answer (lft ++ new_k ++ rgt) v))
    end
  end.

(** simplicial.py:478-500 *)
Definition h_simp_one_reduced (self : nat) : @M skey2 unit nat :=
  do! x := h_see self in
  do! answer := h_zero_s self in
  hfor_ (data x) answer (fun answer '(k, v) =>
    if forallb (fun spx => negb (spx_dim spx =? 1)) k
    then h_term_s self answer k v else ret answer).

(** ** cubical.py *)
Notation h_zero_c := (h_zero dt tt cls_cubical).
Notation h_term_c := (h_add_term dt tt cls_cubical).

(** cubical.py:277-305 *)
Definition h_cub_boundary (self : nat) : @M ckey2 unit nat :=
  do! x := h_see self in
  do! answer := h_zero_c self in
  hfor_ (data x) answer (fun answer '(k, v) =>
    hfor_ (enumerate k) answer (fun answer '(idx, cube) =>
      let acc_dim := zsum (map cube_dim (slice_to k idx)) in
      hfor_ (zrange 0 (cube_dim cube)) answer (fun answer i =>
        hfor_ [0; 1] answer (fun answer epsilon =>
          pure! new_cube := cube_face cube i epsilon in
          let new_k := slice_to k idx ++ [new_cube] ++ slice_from k (idx + 1) in
          let sign_exp := (acc_dim + i + epsilon) mod 2 in
          h_term_c answer answer new_k (v * sgn sign_exp))))).

(** cubical.py:307-364, [other] a [SymmetricRingElement] *)
Definition h_cub_act (other : ring) (self : nat) : @M ckey2 unit nat :=
  do! x := h_see self in
  if negb (torsion x =? torsion other) then raise TypeError else
  pure! oa := ring_arity other in
  if negb (opt_eqb (cub_arity x) oa) then raise TypeError else
  do! answer := h_zero_c self in
  hfor_ (list_prod (data x) (data other)) answer (fun answer '((k1, v1), (k2, v2)) =>
    pure! new_key := place (kval k2) k1 in
    pure! new_sign := koszul_sign (kval k2) (map (fun s => cube_dim s mod 2) k1) in
    h_term_c self answer new_key (new_sign * v1 * v2)).

(** cubical.py:366-445 *)
Definition h_cub_iterated_diagonal (self : nat) (times coord : Z) : @M ckey2 unit nat :=
  do! x := h_see self in
  match cub_degree x with
  | None => raise TypeError
  | Some _ =>
    match cub_arity x with
    | None => raise TypeError
    | Some ar =>
      if ar <? coord then raise TypeError else
      do! answer := h_zero_c self in
      hfor_ (data x) answer (fun answer '(k, v) =>
        let lft := slice_to k (coord - 1) in
        pure! cube := py_get k (coord - 1) in
        let rgt := slice_from k coord in
        hfor_ (product_rep (zrange 0 (times + 1)) (Z.to_nat (py_count cube 2))) answer
          (fun answer p =>
             pure! new_k := diag_cubes cube times p in
             h_term_c answer answer (lft ++ new_k ++ rgt) (v * inv_sign p)))
    end
  end.

(** cubical.py:447-547; [return self] (line 522) for the zero element *)
Definition h_cub_join (self : nat) : @M ckey2 unit nat :=
  do! x := h_see self in
  if dempty (data x) then ret self else
  match cub_degree x with
  | None => raise TypeError
  | Some _ =>
    do! answer := h_zero_c self in
    hfor_ (data x) answer (fun answer '(k, v) =>
      pure! k0 := py_get k 0 in
      match cub_arity x with
      | None => raise TypeError
      | Some ar =>
        pure! idxs := py_combinations (zrange 0 (zlen k0)) (ar - 1) in
        hfor_ idxs answer (fun answer indices =>
          pure! skip := join_skip (combine indices (pairwise k)) in
          if skip : bool then ret answer else
          pure! r := join_loop (combine indices (slice_from k 1)) k0 0 in
          match r with
          | None => ret answer
          | Some (cube, sign_exp) => h_term_c answer answer [cube] (sgn sign_exp * v)
          end)
      end)
  end.

(** cubical.py:549-575, on the heap of simplicial elements; [x] is what the
    method sees of the cubical element.  The comparison [self == self.zero()]
    (line 566) makes a temporary cubical element, given as a value. *)
Definition h_cub_cartan_serre (x : cubc) : @M skey2 unit nat :=
  do! answer := h_new dt cls_simplicial [] (Some (torsion x)) tt in
  pure! z := zero dt cls_cubical x in
  if elt_eqb x z then ret answer else
  hfor_ (data x) answer (fun answer '(k, v) =>
    let old_dim := zsum (map cube_dim k) in
    pure! new_k := mapM cube_cartan_serre k in
    let new_dim := zsum (map spx_dim new_k) in
    if old_dim =? new_dim then h_term_s answer answer new_k v
    else ret answer).

(** ** surjection.py *)
Variable dc : conv.     (* default_convention *)
Notation h_zero_j := (h_zero dt dc cls_surj).
Notation h_term_j := (h_add_term dt dc cls_surj).

(** surjection.py:199-265 *)
Definition h_surj_boundary (self : nat) : @M (list Z) conv nat :=
  do! x := h_see self in
  do! answer := h_zero_j self in
  if torsion x =? 2 then
    hfor_ (dkeys (data x)) answer (fun answer k =>
      hfor_ (zrange 0 (zlen k)) answer (fun answer idx =>
        let bdry_summand := slice_to k idx ++ slice_from k (idx + 1) in
        pure! i := py_get k idx in
        if mem i bdry_summand then h_term_j self answer bdry_summand 1
        else ret answer))
  else match attr x with
  | BF =>
    hfor_ (data x) answer (fun answer '(k, v) =>
      pure! signs := bf_signs k in
      hfor_ (zrange 0 (zlen k)) answer (fun answer idx =>
        let bdry_summand := slice_to k idx ++ slice_from k (idx + 1) in
        pure! i := py_get k idx in
        if mem i bdry_summand then
          pure! s := py_get signs idx in
          h_term_j self answer bdry_summand (s * v)
        else ret answer))
  | MS =>
    hfor_ (data x) answer (fun answer '(k, v) =>
      pure! m := py_max k in
      do! r := hfor_ (zrange 1 (m + 1)) (answer, 1) (fun '(answer, sign) i =>
        do! r := hfor_ (map fst (filter (fun pj => snd pj =? i) (enumerate k))) (answer, sign)
          (fun '(answer, sign) idx =>
             let new_k := slice_to k idx ++ slice_from k (idx + 1) in
             pure! j := py_get k idx in
             do! answer' := (if mem j new_k
                             then h_term_j answer answer new_k (v * sign)
                             else ret answer) in
             ret (answer', - sign)) in
        ret (fst r, - snd r)) in
      ret (fst r))
  | OtherConv => ret answer
  end.

(** surjection.py:267-326, [other] a [SymmetricRingElement] *)
Definition h_surj_act (other : ring) (self : nat) : @M (list Z) conv nat :=
  do! x := h_see self in
  if negb (torsion x =? torsion other) then raise TypeError else
  pure! xa := surj_arity x in
  pure! oa := ring_arity other in
  if negb (opt_eqb xa oa) then raise TypeError else
  do! answer := h_zero_j self in
  hfor_ (list_prod (data x) (data other)) answer (fun answer '((k1, v1), (k2, v2)) =>
    pure! new_key := mapM (fun i => py_get (kval k2) (i - 1)) k1 in
    pure! new_sign := surj_act_sign (kval k2) k1 (attr x) in
    h_term_j self answer new_key (new_sign * v1 * v2)).

(** symmetric.py:137-140: a permutation times an object; [act] is the
    [__rmul__] of its class *)
Definition h_group_mul {K A} (act : ring -> nat -> @M K A nat) (g : list Z) (other : nat) : @M K A nat :=
  do! y := h_see other in
  pure! as_ring := new dt cls_ring [(SGE g, 1)] (Some (torsion y)) tt in
  act as_ring other.

(** surjection.py:328-368 *)
Definition h_surj_orbit (self : nat) (rep : repr) : @M (list Z) conv nat :=
  do! x := h_see self in
  do! answer := h_zero_j self in
  hfor_ (data x) answer (fun answer '(k, v) =>
    pure! permutation := sg_inverse (first_seen k) in
    pure! s := match rep with
               | Trivial => Ok 1
               | SignRep => sg_sign permutation
               | OtherRep => Err TypeError
               end in
    do! e := h_create dt dc cls_surj self [(k, s * v)] in
    do! to_add := h_group_mul h_surj_act permutation e in
    h_iadd cls_surj answer to_add).

(** surjection.py:480-507, on the heap of simplicial elements *)
Definition h_call_simplicial_body (x : surj) (other : nat) (coord ar deg : Z) : @M skey2 unit nat :=
  do! answer := h_zero_s other in
  let times := ar + deg - 1 in
  do! pre_join := h_simp_iterated_diagonal other times coord in
  do! pj := h_see pre_join in
  hfor_ (list_prod (data x) (data pj)) answer (fun answer '((k1, v1), (k2, v2)) =>
    let i := coord - 1 in
    let j := coord + zlen k1 - 1 in
    let lft := slice_to k2 i in
    let rgt := slice_from k2 j in
    let k2 := slice k2 i j in
    pure! m := py_max k1 in
    pure! r := simp_joins (zrange 1 (m + 1)) k1 k2 in
    match r with
    | None => ret answer
    | Some new_k =>
        pure! sign := (if torsion x =? 2 then Ok 1 else
                       let! s := compute_sign k1 (map (fun e => spx_dim e mod 2) k2) in
                       let deg_left := zsum (map (fun spx => zlen spx - 1) lft) mod 2 in
                       Ok (s * sgn (deg_left * deg))) in
        h_term_s answer answer (lft ++ new_k ++ rgt) (sign * v1 * v2)
    end).

(** surjection.py:370-577, [other] a [SimplicialElement] *)
Definition h_call_simplicial (x : surj) (other : nat) (coord : Z) : @M skey2 unit nat :=
  do! y := h_see other in
  if dempty (data x) || dempty (data y) then h_zero_s other else
  pure! ad := call_check x (torsion y) (simp_arity y) coord in
  match attr x with
  | MS => h_call_simplicial_body x other coord (fst ad) (snd ad)
  | _ => raise NotImplementedError
  end.

(** surjection.py:538-547 *)
Fixpoint h_cub_joins (other : nat) (is : list Z) (k1 : list Z) (k2 : list (list Z))
  : @M ckey2 unit (option (list (list Z * nat))) :=
  match is with
  | [] => ret (Some [])
  | i :: is' =>
      let group := map fst (filter (fun p => snd p =? i) (enumerate k1)) in
      pure! key_to_join := mapM (fun idx => py_get k2 idx) group in
      do! e := h_create dt tt cls_cubical other [(key_to_join, 1)] in
      do! joined := h_cub_join e in
      do! z := h_see joined in
      if dempty (data z) then ret None else
      do! rest := h_cub_joins other is' k1 k2 in
      ret (match rest with None => None | Some r => Some ((group, joined) :: r) end)
  end.

(** surjection.py:556: the items of the joined objects *)
Fixpoint h_see_all (l : list (list Z * nat)) : @M ckey2 unit (list (list Z * cubc)) :=
  match l with
  | [] => ret []
  | (group, j) :: l' =>
      do! z := h_see j in
      do! rest := h_see_all l' in
      ret ((group, z) :: rest)
  end.

(** surjection.py:529-563, on the heap of cubical elements *)
Definition h_call_cubical_body (x : surj) (other : nat) (coord ar deg : Z) : @M ckey2 unit nat :=
  do! answer := h_zero_c other in
  do! pre_join := h_cub_iterated_diagonal other (ar + deg - 1) coord in
  do! pj := h_see pre_join in
  hfor_ (list_prod (data x) (data pj)) answer (fun answer '((k1, v1), (k2, v2)) =>
    let i := coord - 1 in
    let j := coord + zlen k1 - 1 in
    let lft := slice_to k2 i in
    let rgt := slice_from k2 j in
    let k2 := slice k2 i j in
    pure! m := py_max k1 in
    do! r := h_cub_joins other (zrange 1 (m + 1)) k1 k2 in
    match r with
    | None => ret answer
    | Some gj =>
        let weights := map (fun e => cube_dim e mod 2) k2 in
        pure! sign := (if torsion x =? 2 then Ok 1 else
                       let! s := compute_sign k1 weights in
                       let! s' := cubical_sign ar weights (map fst gj) in
                       let deg_left := zsum (map cube_dim lft) mod 2 in
                       Ok (s * s' * sgn (deg_left * deg))) in
        do! gz := h_see_all gj in
        match gz with
        | [] => raise TypeError
        | _ =>
          hfor_ (product_all (map (fun p => data (snd p)) gz)) answer (fun answer pairs =>
            let new_k := concat (map fst pairs) in
            let new_v := fold_right Z.mul 1 (map snd pairs) in
            h_term_c answer answer (lft ++ new_k ++ rgt) (sign * new_v * v1 * v2))
        end
    end).

(** surjection.py:370-577, [other] a [CubicalElement] *)
Definition h_call_cubical (x : surj) (other : nat) (coord : Z) : @M ckey2 unit nat :=
  do! y := h_see other in
  if dempty (data x) || dempty (data y) then h_zero_c other else
  pure! ad := call_check x (torsion y) (cub_arity y) coord in
  h_call_cubical_body x other coord (fst ad) (snd ad).

(** surjection.py:579-683 *)
Definition h_surj_compose (self other : nat) (position : Z) : @M (list Z) conv nat :=
  do! x := h_see self in
  do! y := h_see other in
  do! answer := h_zero_j self in
  pure! oarity := surj_arity y in
  hfor_ (list_prod (data x) (data y)) answer (fun answer '((k1, v1), (k2, v2)) =>
    let positions := map fst (filter (fun p => snd p =? position) (enumerate k1)) in
    pure! ps := py_cwr (zrange 0 (zlen k2)) (zlen positions - 1) in
    hfor_ ps answer (fun answer p =>
      let p := [0] ++ p ++ [zlen k2 - 1] in
      let split := map (fun ab => slice k2 (fst ab) (snd ab + 1)) (pairwise p) in
      let to_insert := map (map (fun j => j + position - 1)) split in
      pure! new_k := compose_key k1 position oarity to_insert in
      pure! sign := (if torsion x =? 2 then Ok 1 else
                     match attr x with
                     | BF => Ok (bf_sign positions k1 p k2)
                     | MS => Err NotImplementedError
                     | OtherConv => Err UnboundLocalError
                     end) in
      h_term_j answer answer new_k (v1 * v2 * sign))).

(** surjection.py:685-722; [return self] (line 706) for the zero element *)
Definition h_surj_suspension (self : nat) : @M (list Z) conv nat :=
  do! x := h_see self in
  if dempty (data x) then ret self else
  pure! oa := surj_arity x in
  pure! od := surj_degree x in
  match oa, od with
  | Some a, Some _ =>
    match attr x with
    | BF =>
      do! answer := h_zero_j self in
      hfor_ (data x) answer (fun answer '(k, v) =>
        match sg_sign (slice_to k a) with
        | Ok sign => h_term_j self answer (slice_from k (a - 1)) (v * sign)
        | Err TypeError => ret answer
        | Err e => raise e
        end)
    | _ => raise NotImplementedError
    end
  | _, _ => raise TypeError
  end.

(** ** barratt_eccles.py *)
Notation h_zero_b := (h_zero dt tt cls_be).
Notation h_term_b := (h_add_term dt tt cls_be).

(** barratt_eccles.py:180-212 *)
Definition h_be_boundary (self : nat) : @M bkey unit nat :=
  do! x := h_see self in
  do! answer := h_zero_b self in
  do! answer := hfor_ (data x) answer (fun answer '(spx, coeff) =>
    hfor_ (zrange 0 (zlen spx)) answer (fun answer i =>
      h_term_b answer answer (slice_to spx i ++ slice_from spx (i + 1)) (sgn (i mod 2) * coeff))) in
  do! _ := h_preferred_rep cls_be answer in
  ret answer.

(** barratt_eccles.py:214-257, [other] a [SymmetricRingElement] *)
Definition h_be_act (other : ring) (self : nat) : @M bkey unit nat :=
  do! x := h_see self in
  if negb (torsion x =? torsion other) then raise TypeError else
  pure! xa := be_arity x in
  pure! oa := ring_arity other in
  if negb (opt_eqb xa oa) then raise TypeError else
  do! answer := h_zero_b self in
  hfor_ (list_prod (data x) (data other)) answer (fun answer '((k1, v1), (k2, v2)) =>
    pure! new_k := mapM (fun pi => if is_sge k2 then sg_mul (kval k2) pi else Err TypeError) k1 in
    h_term_b self answer new_k (v1 * v2)).

(** barratt_eccles.py:259-292; [return self] (line 282) for the zero
    element, otherwise the answer comes from the constructor *)
Definition h_be_orbit (self : nat) (rep : repr) : @M bkey unit nat :=
  do! x := (h_see self : @M bkey unit bee) in
  if dempty (data x) then ret self else
  do! answer := h_new dt cls_be [] (Some (torsion x)) tt in
  hfor_ (data x) answer (fun answer '(k, v) =>
    pure! k0 := py_get k 0 in
    pure! inverse := mapM (fun i => let! j := py_index k0 (i + 1) in Ok (j + 1))
                          (zrange 0 (zlen k0)) in
    pure! permutation := new dt cls_ring [(SGE inverse, 1)] (Some (torsion x)) tt in
    pure! permutation := match rep with
                         | SignRep => let! s := sg_sign k0 in scale dt cls_ring s permutation
                         | _ => Ok permutation
                         end in
    do! e := h_new dt cls_be (dict_of [(k, v)]) (Some (torsion x)) tt in
    do! to_add := h_be_act permutation e in
    h_iadd cls_be answer to_add).

(** barratt_eccles.py:294-385 *)
Definition h_be_compose (self other : nat) (position : Z) : @M bkey unit nat :=
  do! x := h_see self in
  do! y := h_see other in
  pure! _ := be_compose_check x y position in
  do! answer := h_zero_b self in
  match be_degree x, be_degree y with
  | Some p, Some q =>
    hfor_ (list_prod (data x) (data y)) answer (fun answer '((k1, v1), (k2, v2)) =>
      hfor_ (paths (Z.to_nat p) (Z.to_nat q)) answer (fun answer path =>
        pure! new_k := mapM (fun '(i, j) =>
                               let! a := py_get k1 i in
                               let! b := py_get k2 j in
                               sg_compose a b position) path in
        let sign := if torsion x =? 2 then 1 else sign_of_path path in
        h_term_b self answer new_k (sign * v1 * v2)))
  | _, _ => raise TypeError
  end.

(** barratt_eccles.py:390-458, on the heap of surjection elements *)
Definition h_be_table_reduction (x : bee) : @M (list Z) conv nat :=
  do! answer := h_new dt cls_surj [] (Some (torsion x)) BF in
  do! answer := hfor_ (data x) answer (fun answer '(k1, v) =>
    let d := zlen k1 - 1 in
    pure! k10 := py_get k1 0 in
    pure! a := py_max k10 in
    pure! ps := partitions (d + a) (d + 1) 1 None true in
    hfor_ ps answer (fun answer pi =>
      pure! r := table_row 0 pi k1 [] [] in
      match r with
      | None => ret answer
      | Some k2 => h_term_j answer answer k2 v
      end)) in
  do! _ := h_preferred_rep cls_surj answer in
  ret answer.

(** barratt_eccles.py:460-501, on the heap of [FreeModuleElement]s *)
Definition h_be_diagonal (x : bee) (r : Z) : @M (list bkey) unit nat :=
  do! answer := h_new dt (cls_free (list bkey)) [] (Some (torsion x)) tt in
  hfor_ (data x) answer (fun answer '(k, v) =>
    pure! to_add := be_splits (Z.to_nat r) [[k]] in
    do! e := h_create dt tt (cls_free (list bkey)) answer (dict_of (map (fun m => (m, v)) to_add)) in
    h_iadd (cls_free (list bkey)) answer e).

End Methods.
