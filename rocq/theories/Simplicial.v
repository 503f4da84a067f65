(** * comch/simplicial/simplicial.py

    Model file.  A simplex is a tuple of ints; a basis element of
    [SimplicialElement] is a tuple of simplices.  The attribute [dimension]
    of [SimplicialElement] (line 255), which no method reads, is not
    modelled. *)
From Verif Require Import PyBase Dict FreeModule Symmetric.

(** ** Simplex *)

(** simplicial.py:34-51 *)
Definition spx_dim (s : list Z) : Z := zlen s - 1.
(** simplicial.py:53-69 *)
Definition spx_face (s : list Z) (i : Z) : list Z := slice_to s i ++ slice_from s (i + 1).
(** simplicial.py:71-88 *)
Definition spx_degeneracy (s : list Z) (i : Z) : list Z := slice_to s (i + 1) ++ slice_from s i.
(** simplicial.py:90-111 *)
Definition spx_coface (s : list Z) (i : Z) : list Z := map (fun j => if i <=? j then j + 1 else j) s.
(** simplicial.py:113-134 *)
Definition spx_codegeneracy (s : list Z) (i : Z) : list Z := map (fun j => if i <? j then j - 1 else j) s.
(** simplicial.py:136-157 *)
Definition spx_is_degenerate (s : list Z) : bool :=
  (spx_dim s =? -1) || existsb (fun p => fst p =? snd p) (pairwise s).
(** simplicial.py:159-176 *)
Definition spx_is_nondegenerate (s : list Z) : bool := negb (spx_is_degenerate s).

(** ** SimplicialElement *)

Definition skey2 := list (list Z).
(** simplicial.py:502-524: degenerate when some tensor factor is *)
Definition cls_simplicial : pycls skey2 :=
  mkCls (fun k => Ok (existsb spx_is_degenerate k)) (fun k => k).
Definition simp := elt skey2 unit.

(** The Koszul sign of simplicial.py:403-410 and cubical.py:344-351, as a
    function of the weights (dimension parities). *)
Definition koszul_sign (perm : list Z) (weights : list Z) : res Z :=
  let! sign_exp := for_ (enumerate perm) 0 (fun acc '(idx, i) =>
    let! rgt := mapM (fun j => let! at_ := py_index perm j in py_get weights at_)
                       (filter (fun j => j <? i) (slice_from perm (idx + 1))) in
    let! w := py_get weights idx in
    Ok (acc + zsum rgt * w)) in
  Ok (sgn (sign_exp mod 2)).

(** simplicial.py:418-420 and cubical.py:359-361: [new_key[i - 1] = k1[idx]];
    an entry left to [None] makes the constructor raise [TypeError]. *)
Definition place {B} (perm : list Z) (k : list B) : res (list B) :=
  let! slots := for_ (enumerate perm) (repeat None (length perm)) (fun slots '(idx, i) =>
    let! a := py_get k idx in py_set slots (i - 1) (Some a)) in
  mapM (fun o => match o with Some b => Ok b | None => Err TypeError end) slots.

(** the arity property shared by simplicial.py:288-310 and cubical.py:228-250 *)
Definition tensor_arity {B A} (x : elt (list B) A) : option Z :=
  match zset (map zlen (dkeys (data x))) with
  | [n] => Some n
  | _ => None
  end.

Definition opt_eqb (a b : option Z) : bool :=
  match a, b with
  | Some x, Some y => x =? y
  | None, None => true
  | _, _ => false
  end.

Section Simplicial.
Variable dt : Z.

(** Constructor [SimplicialElement(data, torsion=t)], simplicial.py:215-258 *)
Definition simp_new (d : list (skey2 * Z)) (t : option Z) : res simp :=
  new dt cls_simplicial (dict_of d) t tt.

Definition simp_arity (x : simp) : option Z := tensor_arity x.

(** simplicial.py:312-335 *)
Definition simp_key_degree (k : skey2) : Z := zsum (map spx_dim k).
Definition simp_degree (x : simp) : option Z :=
  match zset (map simp_key_degree (dkeys (data x))) with
  | [n] => Some n
  | _ => None
  end.

(** simplicial.py:337-364 *)
Definition simp_boundary (x : simp) : res simp :=
  let! answer := zero dt cls_simplicial x in
  for_ (data x) answer (fun answer '(k, v) =>
    for_ (enumerate k) answer (fun answer '(idx, spx) =>
      let acc_dim := zsum (map spx_dim (slice_to k idx)) in
      for_ (zrange 0 (spx_dim spx + 1)) answer (fun answer i =>
        let new_spx := spx_face spx i in
        let new_k := slice_to k idx ++ [new_spx] ++ slice_from k (idx + 1) in
        let sign_exp := (acc_dim + i) mod 2 in
        add_term dt cls_simplicial answer answer new_k (v * sgn sign_exp)))).

(** simplicial.py:366-423, for [other] a [SymmetricRingElement] *)
Definition simp_act (other : ring) (x : simp) : res simp :=
  if negb (torsion x =? torsion other) then Err TypeError else
  let! oa := ring_arity other in
  if negb (opt_eqb (simp_arity x) oa) then Err TypeError else
  let! answer := zero dt cls_simplicial x in
  for_ (list_prod (data x) (data other)) answer (fun answer '((k1, v1), (k2, v2)) =>
    let! new_key := place (kval k2) k1 in
    let! new_sign := koszul_sign (kval k2) (map (fun s => spx_dim s mod 2) k1) in
    add_term dt cls_simplicial x answer new_key (new_sign * v1 * v2)).

(** simplicial.py:425-476 *)
Definition simp_iterated_diagonal (x : simp) (times coord : Z) : res simp :=
  match simp_degree x with
  | None => Err TypeError
  | Some deg =>
    match simp_arity x with
    | None => Err TypeError (* None < coord *)
    | Some ar =>
      if ar <? coord then Err TypeError else
      let! answer := zero dt cls_simplicial x in
      for_ (data x) answer (fun answer '(k, v) =>
        let lft := slice_to k (coord - 1) in
        let! spx := py_get k (coord - 1) in
        let rgt := slice_from k coord in
        let! ps := py_cwr (zrange 0 (deg + 1)) times in
        for_ ps answer (fun answer p =>
          let p := [0] ++ p ++ [deg] in
          let new_k := map (fun ij => slice spx (fst ij) (snd ij + 1)) (pairwise p) in
          add_term dt cls_simplicial x answer (lft ++ new_k ++ rgt) v))
    end
  end.

(** simplicial.py:478-500 *)
Definition simp_one_reduced (x : simp) : res simp :=
  let! answer := zero dt cls_simplicial x in
  for_ (data x) answer (fun answer '(k, v) =>
    if forallb (fun spx => negb (spx_dim spx =? 1)) k
    then add_term dt cls_simplicial x answer k v else Ok answer).

(** simplicial.py:530-550 *)
Definition simp_standard_element (n times : Z) (t : option Z) : res simp :=
  simp_new [(repeat (zrange 0 (n + 1)) (Z.to_nat times), 1)] t.

(** simplicial.py:552-571: the basis keys, in order *)
Definition simp_basis_keys (n : Z) : list skey2 :=
  flat_map (fun m => map (fun b => [b]) (combinations (Z.to_nat m) (zrange 0 (n + 1))))
           (zrange 1 (n + 2)).
Definition simp_basis (n : Z) (t : option Z) : list (res simp) :=
  map (fun k => simp_new [(k, 1)] t) (simp_basis_keys n).

End Simplicial.
