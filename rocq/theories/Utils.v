(** * comch/utils/utils.py

    Model file.  Generators are modelled by the list of the values that they
    yield. *)
From Verif Require Import PyBase Dict.

(** Removal of repetitions, for [set(...)] of tuples: first occurrences are
    kept.  The iteration order of a Python set is unspecified; this order
    only influences the insertion order of dicts built from it. *)
Fixpoint dedup_acc {K} `{PyKey K} (seen l : list K) : list K :=
  match l with
  | [] => []
  | a :: l' => if existsb (keqb a) seen then dedup_acc seen l'
               else a :: dedup_acc (a :: seen) l'
  end.
Definition dedup {K} `{PyKey K} (l : list K) : list K := dedup_acc [] l.

(** utils.py:16-23, for [k >= 1] *)
Fixpoint unordered_partitions (k : nat) (n r m : Z) : list (list Z) :=
  match k with
  | O => []
  | S O => if (r <=? n) && (n <=? m) then [[n]] else []
  | S k' => flat_map (fun i => map (cons i) (unordered_partitions k' (n - i) i m))
                     (zrange r (m + 1))
  end.

(** utils.py:5-29. For [k < 1] the recursion of [unordered_partitions] never
    reaches its base case: [RecursionError] unless the range is empty. *)
Definition partitions (n k smallest : Z) (largest : option Z) (ordered : bool)
  : res (list (list Z)) :=
  let m := match largest with Some m => m | None => n end in
  if k <? 1 then (if smallest <=? m then Err RecursionError else Ok []) else
  let up := unordered_partitions (Z.to_nat k) n smallest m in
  Ok (if ordered then flat_map (fun p => dedup (permutations p)) up else up).

(** [itertools.accumulate(l, add)] *)
Fixpoint accumulate_from (acc : Z) (l : list Z) : list Z :=
  match l with
  | [] => []
  | a :: l' => (acc + a) :: accumulate_from (acc + a) l'
  end.
Definition accumulate (l : list Z) : list Z := accumulate_from 0 l.

(** utils.py:41-47 *)
Definition decompositions_int (x k : Z) : res (list (list (Z * Z))) :=
  let! parts := partitions (x + k) (k + 1) 1 None true in
  Ok (map (fun part =>
             let indices := accumulate (0 :: map (fun i => i - 1) part) in
             map (fun ij => (fst ij, snd ij + 1)) (pairwise indices)) parts).
(** utils.py:48-50 *)
Definition decompositions {B} (x : list B) (k : Z) : res (list (list (list B))) :=
  let! dec := decompositions_int (zlen x) k in
  Ok (map (fun pairs => map (fun pr => slice x (fst pr) (snd pr)) pairs) dec).

(** ** distinct_permutations *)

(** utils.py:82-87: largest [i] with [A[i] < A[i+1]], scanning down *)
Fixpoint find_ascent (A : list Z) (is : list Z) : res (option Z) :=
  match is with
  | [] => Ok None
  | i :: is' =>
      let! a := py_get A i in
      let! b := py_get A (i + 1) in
      if a <? b then Ok (Some i) else find_ascent A is'
  end.
(** utils.py:90-92: the last value of the loop variable [j]; the loop leaves
    [j] at its last value if it does not break *)
Fixpoint find_above (A : list Z) (ai : Z) (js : list Z) (last : option Z) : res Z :=
  match js with
  | [] => match last with Some j => Ok j | None => Err UnboundLocalError end
  | j :: js' =>
      let! b := py_get A j in
      if ai <? b then Ok j else find_above A ai js' (Some j)
  end.
(** [range(b, a, -1)] *)
Definition zrange_down (b a : Z) : list Z := rev (zrange (a + 1) (b + 1)).

(** utils.py:76-97; [fuel] bounds the [while] loop *)
Fixpoint dp_full (fuel : nat) (A : list Z) : res (list (list Z)) :=
  match fuel with
  | O => Err Diverges
  | S fuel' =>
      let size := zlen A in
      let! oi := find_ascent A (zrange_down (size - 2) (-1)) in
      match oi with
      | None => Ok [A]
      | Some i =>
          let! ai := py_get A i in
          let! j := find_above A ai (zrange_down (size - 1) i) None in
          let! aj := py_get A j in
          let! A1 := py_set A i aj in
          let! A2 := py_set A1 j ai in
          let A3 := slice_to A2 (i + 1) ++ rev (slice_from A2 (i + 1)) in
          let! rest := dp_full fuel' A3 in
          Ok (A :: rest)
      end
  end.

(** utils.py:112-118 *)
Fixpoint dp_pivot (head : list Z) (pivot : Z) (is : list Z) : res (option Z) :=
  match is with
  | [] => Ok None
  | i :: is' =>
      let! h := py_get head i in
      if h <? pivot then Ok (Some i) else dp_pivot head h is'
  end.
(** utils.py:122-125: first [j] of the tail with [tail[j] > head[i]] *)
Fixpoint dp_find (l : list Z) (a : Z) (js : list Z) : res (option Z) :=
  match js with
  | [] => Ok None
  | j :: js' =>
      let! b := py_get l j in
      if a <? b then Ok (Some j) else dp_find l a js'
  end.

(** utils.py:100-137 *)
Fixpoint dp_partial (fuel : nat) (r : Z) (head tail : list Z) : res (list (list Z)) :=
  match fuel with
  | O => Err Diverges
  | S fuel' =>
      let rhi := zrange_down (r - 1) (-1) in
      let lti := zrange 0 (zlen tail) in
      let! pivot := py_get tail (-1) in
      let! oi := dp_pivot head pivot rhi in
      match oi with
      | None => Ok [head]
      | Some i =>
          let! hi := py_get head i in
          let! oj := dp_find tail hi lti in
          let! ht :=
            match oj with
            | Some j =>
                let! tj := py_get tail j in
                let! head1 := py_set head i tj in
                let! tail1 := py_set tail j hi in
                Ok (head1, tail1)
            | None =>
                let! oj' := dp_find head hi rhi in
                match oj' with
                | Some j =>
                    let! hj := py_get head j in
                    let! h1 := py_set head i hj in
                    let! h2 := py_set h1 j hi in
                    Ok (h2, tail)
                | None => Ok (head, tail)
                end
            end in
          let (head1, tail1) := (ht : list Z * list Z) in
          let tail2 := tail1 ++ rev (slice_from head1 (i + 1)) in
          let i' := i + 1 in
          let head2 := slice_to head1 i' ++ slice_to tail2 (r - i') in
          let tail3 := slice_from tail2 (r - i') in
          let! rest := dp_partial fuel' r head2 tail3 in
          Ok (head :: rest)
      end
  end.

(** [sorted(l)] on ints *)
Fixpoint insert_sorted (a : Z) (l : list Z) : list Z :=
  match l with
  | [] => [a]
  | b :: l' => if a <=? b then a :: l else b :: insert_sorted a l'
  end.
Definition zsort (l : list Z) : list Z := fold_right insert_sorted [] l.

(** utils.py:139-148; [r = None] stands for the default argument *)
Definition distinct_permutations (fuel : nat) (l : list Z) (r : option Z) : res (list (list Z)) :=
  let items := zsort l in
  let size := zlen items in
  let r := match r with Some r => r | None => size end in
  if (0 <? r) && (r <=? size) then
    if r =? size then dp_full fuel items
    else dp_partial fuel r (slice_to items r) (slice_from items r)
  else Ok (if r =? 0 then [[]] else []).
