(** * Property theorems.  Generated by tools/mkprop.py from the tagged lemmas of
    TensLaws.v: every theorem is closed by [exact]. *)
From Coq Require Import Znumtheory Sorting.Sorted.
From Verif Require Import PyBase Dict FreeModule Symmetric Simplicial Cubical Utils Surjection Spec SpecChain SpecOperad SpecSurj SpecAction SpecCube SpecCubAction SpecTensor TensLaws.

(** The boundary of a tensor product of elements. *)
Theorem C105_leibniz : forall (dt n d n' d' : Z) (x y : simp) (u v : cubc),
  wf cls_simplicial x -> wf cls_simplicial y -> torsion y = torsion x -> dt_ok dt (torsion x) ->
  keys_in (fun k => zlen k = n /\ total_degree k = d) x -> keys_in (fun k => zlen k = n' /\ total_degree k = d') y ->
  wf cls_cubical u -> wf cls_cubical v -> torsion v = torsion u -> dt_ok dt (torsion u) ->
  keys_in (fun k => zlen k = n /\ cube_degree k = d) u -> keys_in (fun k => zlen k = n' /\ cube_degree k = d') v ->
  same (let! z := simp_tensor dt x y in simp_boundary dt z)
       (let! dx := simp_boundary dt x in let! p := simp_tensor dt dx y in let! dy := simp_boundary dt y in let! q := simp_tensor dt x dy in let! q' := scale dt cls_simplicial (sgn d) q in add dt cls_simplicial p q') /\
  same (let! z := cub_tensor dt u v in cub_boundary dt z)
       (let! du := cub_boundary dt u in let! p := cub_tensor dt du v in let! dv := cub_boundary dt v in let! q := cub_tensor dt u dv in let! q' := scale dt cls_cubical (sgn d) q in add dt cls_cubical p q').
Proof. exact @C105_leibniz_l. Qed.
Print Assumptions C105_leibniz.

(** Diagonals and operations of surjection elements at a factor of a tensor product of simplicial elements. *)
Theorem C105_simplicial : forall (dt r d n e n' e' i t : Z) (s : surj) (x y : simp),
  1 <= r -> 0 <= t -> 0 <= n -> 0 <= n' -> wf cls_surj s -> torsion s = torsion x -> attr s = MS -> keys_in (surj_cell r d) s ->
  wf cls_simplicial x -> wf cls_simplicial y -> torsion y = torsion x -> dt_ok dt (torsion x) ->
  keys_in (fun k => zlen k = n /\ total_degree k = e) x -> keys_in (fun k => zlen k = n' /\ total_degree k = e') y ->
  let diagonal coord := extended1 dt cls_simplicial (fun u => simp_iterated_diagonal dt u t coord) in
  (1 <= i <= n ->
    same (let! z := simp_tensor dt x y in surj_call_simplicial dt s z i) (let! u := surj_call_simplicial dt s x i in simp_tensor dt u y) /\
    same (let! z := simp_tensor dt x y in diagonal i z) (let! u := diagonal i x in simp_tensor dt u y)) /\
  (1 <= i <= n' ->
    same (let! z := simp_tensor dt x y in surj_call_simplicial dt s z (n + i)) (let! u := surj_call_simplicial dt s y i in let! v := simp_tensor dt x u in scale dt cls_simplicial (sgn (e * d)) v) /\
    same (let! z := simp_tensor dt x y in diagonal (n + i) z) (let! u := diagonal i y in simp_tensor dt x u)).
Proof. exact @C105_simplicial_l. Qed.
Print Assumptions C105_simplicial.

(** The same for cubical elements, in every convention. *)
Theorem C105_cubical : forall (dt r d n e n' e' i t : Z) (s : surj) (x y : cubc),
  1 <= r -> 0 <= t -> 0 <= n -> 0 <= n' -> wf cls_surj s -> torsion s = torsion x -> keys_in (surj_cell r d) s ->
  wf cls_cubical x -> wf cls_cubical y -> torsion y = torsion x -> dt_ok dt (torsion x) ->
  keys_in (fun k => zlen k = n /\ cube_degree k = e) x -> keys_in (fun k => zlen k = n' /\ cube_degree k = e') y ->
  let diagonal coord := extended1 dt cls_cubical (fun u => cub_iterated_diagonal dt u t coord) in
  (1 <= i <= n ->
    same (let! z := cub_tensor dt x y in surj_call_cubical dt s z i) (let! u := surj_call_cubical dt s x i in cub_tensor dt u y) /\
    same (let! z := cub_tensor dt x y in diagonal i z) (let! u := diagonal i x in cub_tensor dt u y)) /\
  (1 <= i <= n' ->
    same (let! z := cub_tensor dt x y in surj_call_cubical dt s z (n + i)) (let! u := surj_call_cubical dt s y i in let! v := cub_tensor dt x u in scale dt cls_cubical (sgn (e * d)) v) /\
    same (let! z := cub_tensor dt x y in diagonal (n + i) z) (let! u := diagonal i y in cub_tensor dt x u)).
Proof. exact @C105_cubical_l. Qed.
Print Assumptions C105_cubical.

(** The permutation that exchanges the two blocks of factors turns x (x) y into (-1)^(|x||y|) y (x) x. *)
Theorem C105_swap : forall (dt n d n' d' : Z) (p : skey) (a : ring) (x y z : simp) (u v w : cubc),
  0 <= n -> 1 <= n' -> wf cls_ring a -> data a = [(p, 1)] -> kval p = zrange (n' + 1) (n' + n + 1) ++ zrange 1 (n' + 1) -> dt_ok dt (torsion a) ->
  wf cls_simplicial x -> wf cls_simplicial y -> torsion x = torsion a -> torsion y = torsion a ->
  keys_in (fun k => zlen k = n /\ total_degree k = d) x -> keys_in (fun k => zlen k = n' /\ total_degree k = d') y ->
  wf cls_cubical u -> wf cls_cubical v -> torsion u = torsion a -> torsion v = torsion a ->
  keys_in (fun k => zlen k = n /\ cube_degree k = d) u -> keys_in (fun k => zlen k = n' /\ cube_degree k = d') v ->
  (simp_tensor dt x y = Ok z -> ~ is_zero z -> same (simp_act dt a z) (let! w := simp_tensor dt y x in scale dt cls_simplicial (sgn (d * d')) w)) /\
  (cub_tensor dt u v = Ok w -> ~ is_zero w -> same (cub_act dt a w) (let! w := cub_tensor dt v u in scale dt cls_cubical (sgn (d * d')) w)).
Proof. exact @C105_swap_l. Qed.
Print Assumptions C105_swap.

(** The tensor product is associative. *)
Theorem C105_associative : forall (dt n d n' d' n'' d'' : Z) (x y z : simp) (u v w : cubc),
  wf cls_simplicial x -> wf cls_simplicial y -> wf cls_simplicial z -> torsion y = torsion x -> torsion z = torsion x ->
  keys_in (fun k => zlen k = n /\ total_degree k = d) x -> keys_in (fun k => zlen k = n' /\ total_degree k = d') y -> keys_in (fun k => zlen k = n'' /\ total_degree k = d'') z ->
  wf cls_cubical u -> wf cls_cubical v -> wf cls_cubical w -> torsion v = torsion u -> torsion w = torsion u ->
  keys_in (fun k => zlen k = n /\ cube_degree k = d) u -> keys_in (fun k => zlen k = n' /\ cube_degree k = d') v -> keys_in (fun k => zlen k = n'' /\ cube_degree k = d'') w ->
  same (let! p := simp_tensor dt x y in simp_tensor dt p z) (let! q := simp_tensor dt y z in simp_tensor dt x q) /\
  same (let! p := cub_tensor dt u v in cub_tensor dt p w) (let! q := cub_tensor dt v w in cub_tensor dt u q).
Proof. exact @C105_associative_l. Qed.
Print Assumptions C105_associative.

(** The Cartan-Serre map is compatible with tensor products. *)
Theorem C105_cartan_serre : forall (dt n d n' d' : Z) (u v : cubc),
  wf cls_cubical u -> wf cls_cubical v -> torsion v = torsion u -> dt_ok dt (torsion u) ->
  keys_in (fun k => zlen k = n /\ cube_degree k = d) u -> keys_in (fun k => zlen k = n' /\ cube_degree k = d') v ->
  same (let! w := cub_tensor dt u v in cub_cartan_serre dt w)
       (let! x := cub_cartan_serre dt u in let! y := cub_cartan_serre dt v in simp_tensor dt x y).
Proof. exact @C105_cartan_serre_l. Qed.
Print Assumptions C105_cartan_serre.

Example C105_example : let x : simp := mkElt [([[0; 1]], 1); ([[1; 2]], 2)] 0 tt in
  let y : simp := mkElt [([[3]; [4; 5]], 1); ([[6; 7]; [8]], -3)] 0 tt in
  let s : surj := mkElt [([1; 2; 1], 1)] 0 MS in
  wf cls_simplicial x /\ wf cls_simplicial y /\ wf cls_surj s /\ keys_in (surj_cell 2 1) s /\
  keys_in (fun k => zlen k = 1 /\ total_degree k = 1) x /\ keys_in (fun k => zlen k = 2 /\ total_degree k = 1) y /\
  exists z w, simp_tensor 0 x y = Ok z /\ zlen (data z) = 4 /\ surj_call_simplicial 0 s z 3 = Ok w /\ ~ is_zero w.
Proof. exact @C105_example_l. Qed.
