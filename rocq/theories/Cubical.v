(** * comch/cubical/cubical.py

    Model file.  A cube is a tuple of ints, where 2 stands for the interval.
    A basis element of [CubicalElement] is a tuple of cubes. *)
From Verif Require Import PyBase Dict FreeModule Symmetric Simplicial.

(** ** Cube *)

(** cubical.py:37-54 *)
Definition cube_dim (c : list Z) : Z := py_count c 2.
(** cubical.py:56-73 *)
Definition cube_intervals (c : list Z) : list Z :=
  map fst (filter (fun p => snd p =? 2) (enumerate c)).
(** cubical.py:75-93 *)
Definition cube_face (c : list Z) (i eps : Z) : res (list Z) :=
  let! idx := py_get (cube_intervals c) i in
  Ok (slice_to c idx ++ [(eps + 1) mod 2] ++ slice_from c (idx + 1)).
(** cubical.py:95-119 *)
Definition cube_cartan_serre (c : list Z) : res (list Z) :=
  let! end_ := (if mem 0 c then py_index c 0 else Ok (zlen c)) in
  Ok (filter (fun i => i <? end_) (cube_intervals c) ++ [end_]).

(** ** CubicalElement *)

Definition ckey2 := list (list Z).
(** [CubicalElement] does not override [preferred_rep]: no degenerate keys *)
Definition cls_cubical : pycls ckey2 := mkCls (fun _ => Ok false) (fun k => k).
Definition cubc := elt ckey2 unit.

Section Cubical.
Variable dt : Z.

(** Constructor, cubical.py:163-195 *)
Definition cub_new (d : list (ckey2 * Z)) (t : option Z) : res cubc :=
  new dt cls_cubical (dict_of d) t tt.

(** cubical.py:228-250 *)
Definition cub_arity (x : cubc) : option Z := tensor_arity x.

(** cubical.py:252-275 *)
Definition cub_key_degree (k : ckey2) : Z := zsum (map cube_dim k).
Definition cub_degree (x : cubc) : option Z :=
  match zset (map cub_key_degree (dkeys (data x))) with
  | [n] => Some n
  | _ => None
  end.

(** cubical.py:277-305 *)
Definition cub_boundary (x : cubc) : res cubc :=
  let! answer := zero dt cls_cubical x in
  for_ (data x) answer (fun answer '(k, v) =>
    for_ (enumerate k) answer (fun answer '(idx, cube) =>
      let acc_dim := zsum (map cube_dim (slice_to k idx)) in
      for_ (zrange 0 (cube_dim cube)) answer (fun answer i =>
        for_ [0; 1] answer (fun answer epsilon =>
          let! new_cube := cube_face cube i epsilon in
          let new_k := slice_to k idx ++ [new_cube] ++ slice_from k (idx + 1) in
          let sign_exp := (acc_dim + i + epsilon) mod 2 in
          add_term dt cls_cubical answer answer new_k (v * sgn sign_exp))))).

(** cubical.py:307-364, for [other] a [SymmetricRingElement] *)
Definition cub_act (other : ring) (x : cubc) : res cubc :=
  if negb (torsion x =? torsion other) then Err TypeError else
  let! oa := ring_arity other in
  if negb (opt_eqb (cub_arity x) oa) then Err TypeError else
  let! answer := zero dt cls_cubical x in
  for_ (list_prod (data x) (data other)) answer (fun answer '((k1, v1), (k2, v2)) =>
    let! new_key := place (kval k2) k1 in
    let! new_sign := koszul_sign (kval k2) (map (fun s => cube_dim s mod 2) k1) in
    add_term dt cls_cubical x answer new_key (new_sign * v1 * v2)).

(** cubical.py:410-414: sign of a tuple, by its number of inversions *)
Definition inv_sign (p : list Z) : Z :=
  sgn (zlen (filter (fun ab => match ab with [a; b] => b <? a | _ => false end)
                    (combinations 2 p)) mod 2).

(** cubical.py:416-424 *)
Definition elementary_summand (fixed i : Z) : Z :=
  if i <? fixed then 0 else if i =? fixed then 2 else 1.

(** cubical.py:432-443: the cubes of the summand indexed by [p] *)
Definition diag_cubes (cube : list Z) (times : Z) (p : list Z) : res (list (list Z)) :=
  let intervals := cube_intervals cube in
  let base := map snd (filter (fun q => negb (mem (fst q) intervals)) (enumerate cube)) in
  let multibase := map (fun _ => base) (zrange 0 (times + 1)) in
  for_ (enumerate p) multibase (fun multibase '(idx, fixed) =>
    let! at_ := py_get intervals idx in
    Ok (map (fun '(i, new_base) => py_insert new_base at_ (elementary_summand fixed i))
            (enumerate multibase))).

(** cubical.py:366-445 *)
Definition cub_iterated_diagonal (x : cubc) (times coord : Z) : res cubc :=
  match cub_degree x with
  | None => Err TypeError
  | Some _ =>
    match cub_arity x with
    | None => Err TypeError
    | Some ar =>
      if ar <? coord then Err TypeError else
      let! answer := zero dt cls_cubical x in
      for_ (data x) answer (fun answer '(k, v) =>
        let lft := slice_to k (coord - 1) in
        let! cube := py_get k (coord - 1) in
        let rgt := slice_from k coord in
        for_ (product_rep (zrange 0 (times + 1)) (Z.to_nat (py_count cube 2))) answer
          (fun answer p =>
             let! new_k := diag_cubes cube times p in
             add_term dt cls_cubical answer answer (lft ++ new_k ++ rgt) (v * inv_sign p)))
    end
  end.

(** cubical.py:496-507 with [right] an int *)
Definition join_is_zero_l (ivs : list Z) (i : Z) : res bool :=
  match ivs with
  | [] => Ok false
  | _ => let! m := py_max ivs in Ok (i <=? m)
  end.
(** cubical.py:496-507 with [left] an int *)
Definition join_is_zero_r (i : Z) (ivs : list Z) : res bool :=
  match ivs with
  | [] => Ok false
  | _ => let! m := py_min ivs in Ok (m <=? i)
  end.

(** cubical.py:509-519; [None] for the pair [(None, None)] *)
Definition join_step (i : Z) (cube1 cube2 : list Z) (sign_exp : Z) : res (option (list Z * Z)) :=
  let sign_exp := sign_exp + cube_dim cube1 in
  let cube := slice_to cube1 i ++ [2] ++ slice_from cube2 (i + 1) in
  let! p := py_get cube1 i in
  let! q := py_get cube2 i in
  if (p =? 0) && (q =? 1) then Ok (Some (cube, sign_exp mod 2))
  else if (p =? 1) && (q =? 0) then Ok (Some (cube, (1 + sign_exp) mod 2))
  else Ok None.

(** cubical.py:530-535, the loop with [break] that computes [skip] *)
Fixpoint join_skip (l : list (Z * (list Z * list Z))) : res bool :=
  match l with
  | [] => Ok false
  | (i, (cube1, cube2)) :: l' =>
      let! a := join_is_zero_l (cube_intervals cube1) i in
      let! b := (if a : bool then Ok true else join_is_zero_r i (cube_intervals cube2)) in
      if b : bool then Ok true else join_skip l'
  end.

(** cubical.py:537-544, the loop with [break] that computes [cube], [sign_exp] *)
Fixpoint join_loop (l : list (Z * list Z)) (cube : list Z) (sign_exp : Z)
  : res (option (list Z * Z)) :=
  match l with
  | [] => Ok (Some (cube, sign_exp))
  | (i, next_cube) :: l' =>
      let! r := join_step i cube next_cube sign_exp in
      match r with
      | None => Ok None
      | Some (cube', sign_exp') => join_loop l' cube' sign_exp'
      end
  end.

(** cubical.py:447-547 *)
Definition cub_join (x : cubc) : res cubc :=
  if dempty (data x) then Ok x else
  match cub_degree x with
  | None => Err TypeError
  | Some _ =>
    let! answer := zero dt cls_cubical x in
    for_ (data x) answer (fun answer '(k, v) =>
      let! k0 := py_get k 0 in
      match cub_arity x with
      | None => Err TypeError
      | Some ar =>
        let! idxs := py_combinations (zrange 0 (zlen k0)) (ar - 1) in
        for_ idxs answer (fun answer indices =>
          let! skip := join_skip (combine indices (pairwise k)) in
          if skip : bool then Ok answer else
          let! r := join_loop (combine indices (slice_from k 1)) k0 0 in
          match r with
          | None => Ok answer
          | Some (cube, sign_exp) =>
              add_term dt cls_cubical answer answer [cube] (sgn sign_exp * v)
          end)
      end)
  end.

(** cubical.py:549-575 *)
Definition cub_cartan_serre (x : cubc) : res simp :=
  let! answer := new dt cls_simplicial [] (Some (torsion x)) tt in
  let! z := zero dt cls_cubical x in
  if elt_eqb x z then Ok answer else
  for_ (data x) answer (fun answer '(k, v) =>
    let old_dim := zsum (map cube_dim k) in
    let! new_k := mapM cube_cartan_serre k in
    let new_dim := zsum (map spx_dim new_k) in
    if old_dim =? new_dim then add_term dt cls_simplicial answer answer new_k v
    else Ok answer).

(** cubical.py:581-600 *)
Definition cub_standard_element (n times : Z) (t : option Z) : res cubc :=
  cub_new [(repeat (repeat 2 (Z.to_nat n)) (Z.to_nat times), 1)] t.

(** cubical.py:602-620: the basis keys ([product({0, 1, 2}, repeat=n)]), for
    n >= 0; Python raises ValueError for a negative [repeat], which is not
    modelled (the theorems assume 0 <= n) *)
Definition cub_basis_keys (n : Z) : list ckey2 :=
  map (fun b => [b]) (product_rep [0; 1; 2] (Z.to_nat n)).
Definition cub_basis (n : Z) (t : option Z) : list (res cubc) :=
  map (fun k => cub_new [(k, 1)] t) (cub_basis_keys n).

End Cubical.
