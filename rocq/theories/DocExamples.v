(** * Validation of the model against the docstrings and unit tests of /repo

    These are tests of the model, not properties: each line is an example
    that a docstring or a unit test of comch states. *)
From Verif Require Import PyBase Dict FreeModule Symmetric Simplicial Cubical Utils
  Surjection BarrattEccles.

Definition items {K A} (r : res (elt K A)) : res (dict K) :=
  let! x := r in Ok (data x).
Definition tupitems (r : res ring) : res (list (list Z * Z)) :=
  let! x := r in Ok (map (fun p => (kval (fst p), snd p)) (data x)).
Definition same {K A} `{PyKey K} (a b : res (elt K A)) : res bool :=
  let! x := a in let! y := b in Ok (elt_eqb x y).

(* symmetric.py *)
Example sg_sign_doc : sg_sign [5;2;4;3;1] = Ok 1. Proof. vm_compute. reflexivity. Qed.
Example sg_cycles_doc : to_cycles [5;2;4;3;1] false = Ok [[1;5];[3;4]]. Proof. vm_compute. reflexivity. Qed.
Example sg_mul_doc : sg_mul [2;3;1] [1;3;2] = Ok [2;1;3]. Proof. vm_compute. reflexivity. Qed.
Example sg_inverse_doc : sg_inverse [2;3;1] = Ok [3;1;2]. Proof. vm_compute. reflexivity. Qed.
Example sg_pow_doc : sg_pow [2;3;4;5;1] 5 = Ok [1;2;3;4;5]. Proof. vm_compute. reflexivity. Qed.
Example sg_compose_doc : sg_compose [1;3;2] [2;1] 1 = Ok [2;1;4;3]. Proof. vm_compute. reflexivity. Qed.
Example sg_all_doc : sg_all 3 = [[1;2;3];[1;3;2];[2;1;3];[2;3;1];[3;1;2];[3;2;1]]. Proof. vm_compute. reflexivity. Qed.
Example sg_shuffles_doc : sg_shuffles 1 2 = [[1;2;3];[2;1;3];[3;1;2]]. Proof. vm_compute. reflexivity. Qed.
Example ring_mul_doc :
  tupitems (let! p := ring_new 0 [([4;3;2;1],1);([1;2;3;4],2)] None in
            let! q := ring_new 0 [([4;1;2;3],1)] None in ring_mul 0 p q)
  = Ok [([1;4;3;2],1);([4;1;2;3],2)]. Proof. vm_compute. reflexivity. Qed.
Example ring_pow_doc :
  tupitems (let! p := ring_new 0 [([4;3;2;1],1);([1;2;3;4],2)] None in ring_pow 0 p 2)
  = Ok [([1;2;3;4],3)]. Proof. vm_compute. reflexivity. Qed.
Example ring_compose_doc :
  tupitems (let! x := ring_new 0 [([2;3;1],1);([1;2;3],-1)] None in
            let! y := ring_new 0 [([2;1],1);([1;2],1)] None in ring_compose 0 x y 2)
  = Ok [([3;2;4;1],1);([2;3;4;1],1);([1;3;2;4],-1);([1;2;3;4],-1)]. Proof. vm_compute. reflexivity. Qed.
Example norm_doc : tupitems (norm_element 0 3 None) = Ok [([1;2;3],1);([2;3;1],1);([3;1;2],1)].
Proof. vm_compute. reflexivity. Qed.
Example transposition_doc : tupitems (transposition_element 0 3 None) = Ok [([2;3;1],1);([1;2;3],-1)].
Proof. vm_compute. reflexivity. Qed.

(* simplicial.py *)
Example spx_docs :
  spx_face [1;3;4;5] 2 = [1;3;5] /\ spx_degeneracy [1;3;4;5] 2 = [1;3;4;4;5] /\
  spx_coface [1;3;4;5] 2 = [1;4;5;6] /\ spx_codegeneracy [1;3;4;5] 2 = [1;2;3;4] /\
  spx_is_degenerate [] = true /\ spx_is_degenerate [1;1;2] = true /\ spx_is_nondegenerate [1;2;5] = true.
Proof. vm_compute. repeat split. Qed.
Example simp_boundary_doc :
  items (let! x := simp_new 0 [([[0;1];[1;2]],1)] None in simp_boundary 0 x)
  = Ok [([[1];[1;2]],1);([[0];[1;2]],-1);([[0;1];[2]],-1);([[0;1];[1]],1)]. Proof. vm_compute. reflexivity. Qed.
Example simp_act_doc :
  items (let! x := simp_new 0 [([[0;1];[1;2]],1)] None in
         let! t := ring_new 0 [([2;1],1)] None in simp_act 0 t x)
  = Ok [([[1;2];[0;1]],-1)]. Proof. vm_compute. reflexivity. Qed.
Example simp_diag_doc :
  items (let! x := simp_new 0 [([[0;1;2]],1)] None in simp_iterated_diagonal 0 x 1 1)
  = Ok [([[0];[0;1;2]],1);([[0;1];[1;2]],1);([[0;1;2];[2]],1)]. Proof. vm_compute. reflexivity. Qed.
Example simp_basis_doc : simp_basis_keys 1 = [[[0]];[[1]];[[0;1]]]. Proof. vm_compute. reflexivity. Qed.

(* cubical.py *)
Example cube_docs :
  cube_intervals [1;2;0;2] = [1;3] /\ cube_face [1;2;0;2] 1 0 = Ok [1;2;0;1] /\
  cube_cartan_serre [2;1;2] = Ok [0;2;3]. Proof. vm_compute. repeat split. Qed.
Example cub_boundary_doc :
  items (let! x := cub_new 0 [([[0;2];[2;1]],1)] None in cub_boundary 0 x)
  = Ok [([[0;1];[2;1]],1);([[0;0];[2;1]],-1);([[0;2];[1;1]],-1);([[0;2];[0;1]],1)]. Proof. vm_compute. reflexivity. Qed.
Example cub_act_doc :
  items (let! x := cub_new 0 [([[0;2];[1;2]],1)] None in
         let! t := ring_new 0 [([2;1],1)] None in cub_act 0 t x)
  = Ok [([[1;2];[0;2]],-1)]. Proof. vm_compute. reflexivity. Qed.
Example cub_diag_doc :
  items (let! x := cub_new 0 [([[2;2];[2]],1)] None in cub_iterated_diagonal 0 x 1 2)
  = Ok [([[2;2];[2];[1]],1);([[2;2];[0];[2]],1)]. Proof. vm_compute. reflexivity. Qed.
Example cub_join_doc :
  items (let! x := cub_new 0 [([[0;0;1];[1;0;0]],1)] None in cub_join 0 x)
  = Ok [([[2;0;0]],1);([[0;0;2]],-1)]. Proof. vm_compute. reflexivity. Qed.
Example cub_cs_doc :
  items (let! x := cub_new 0 [([[2;1;2];[2;2;0]],1)] None in cub_cartan_serre 0 x)
  = Ok [([[0;2;3];[0;1;2]],1)]. Proof. vm_compute. reflexivity. Qed.

(* surjection.py *)
Definition s1 cv := surj_new 0 BF [([1;2;1;3;1],1)] None (Some cv).
Example surj_complexity_doc : (let! x := s1 BF in surj_complexity x) = Ok 2. Proof. vm_compute. reflexivity. Qed.
Example surj_filtration_doc : (let! x := surj_new 0 BF [([1;2;1;3;2],1)] None None in surj_filtration x) = Ok 6.
Proof. vm_compute. reflexivity. Qed.
Example surj_boundary_bf_doc :
  items (let! x := surj_new 0 BF [([3;2;1;3;1;3],1)] None None in surj_boundary 0 x)
  = Ok [([2;1;3;1;3],1);([3;2;3;1;3],-1);([3;2;1;3;1],-1)]. Proof. vm_compute. reflexivity. Qed.
Example surj_boundary_ms_doc :
  items (let! x := surj_new 0 BF [([3;2;1;3;1;3],1)] None (Some MS) in surj_boundary 0 x)
  = Ok [([3;2;3;1;3],1);([2;1;3;1;3],-1);([3;2;1;3;1],-1)]. Proof. vm_compute. reflexivity. Qed.
Example surj_act_doc :
  items (let! x := surj_new 0 BF [([1;2;3;1;2],1)] None None in
         let! t := ring_new 0 [([2;3;1],1)] None in surj_act 0 t x)
  = Ok [([2;3;1;2;3],1)]. Proof. vm_compute. reflexivity. Qed.
Example surj_orbit_doc :
  items (let! x := surj_new 0 BF [([1;3;2],1)] None None in surj_orbit 0 x Trivial) = Ok [([1;2;3],1)] /\
  items (let! x := surj_new 0 BF [([1;3;2],1)] None None in surj_orbit 0 x SignRep) = Ok [([1;2;3],-1)].
Proof. vm_compute. split; reflexivity. Qed.
Example surj_call_cubical_doc :
  items (let! s := surj_new 0 BF [([1;2;1],1)] None None in
         let! x := cub_standard_element 0 2 1 None in surj_call_cubical 0 s x 1)
  = Ok [([[2;2];[1;2]],-1);([[2;1];[2;2]],1);([[0;2];[2;2]],1);([[2;2];[2;0]],-1)].
Proof. vm_compute. reflexivity. Qed.
Example surj_call_cubical_doc2 :
  items (let! s := surj_new 0 BF [([1;2;1],1)] None None in
         let! x := cub_standard_element 0 2 2 None in surj_call_cubical 0 s x 2)
  = Ok [([[2;2];[2;2];[1;2]],-1);([[2;2];[2;1];[2;2]],1);([[2;2];[0;2];[2;2]],1);([[2;2];[2;2];[2;0]],-1)].
Proof. vm_compute. reflexivity. Qed.
Example surj_compose_doc :
  items (let! x := surj_new 0 BF [([1;2;1;3],1)] None None in
         let! y := surj_new 0 BF [([1;2;1],1)] None None in surj_compose 0 x y 1)
  = Ok [([1;3;1;2;1;4],1);([1;2;3;2;1;4],-1);([1;2;1;3;1;4],-1)]. Proof. vm_compute. reflexivity. Qed.
Example surj_suspension_doc :
  items (let! x := surj_new 0 BF [([1;3;2;1;2],1)] None None in surj_suspension 0 x) = Ok [([2;1;2],-1)].
Proof. vm_compute. reflexivity. Qed.
Example surj_pref_doc : items (surj_new 0 BF [([1;1;2],1);([1;3],1);([1;2],0)] None None) = Ok [].
Proof. vm_compute. reflexivity. Qed.
Example steenrod_chain_doc :
  items (steenrod_chain_simplex 0 BF 2 (-1) (-2) false) = Ok [([[0;2;3];[0;1;2]],1);([[0;1;3];[1;2;3]],1)].
Proof. vm_compute. reflexivity. Qed.
Example surj_basis_doc : surj_basis 0 BF 2 1 None = Ok [[1;2;1];[2;1;2]]. Proof. vm_compute. reflexivity. Qed.
Example surj_steenrod_test :
  same (surj_steenrod_operation 0 BF 3 2 3 false (Some MS))
       (surj_new 0 BF [([1;2;3;1;2],2);([1;3;1;2;3],2);([1;2;3;2;3],2)] None None) = Ok true.
Proof. vm_compute. reflexivity. Qed.
Example surj_call_simplicial_test :
  (let! s := s1 MS in
   let! ds := surj_boundary 0 s in
   let! x := simp_standard_element 0 3 1 None in
   let! dx := simp_boundary 0 x in
   let! ds_x := surj_call_simplicial 0 ds x 1 in
   let! sx := surj_call_simplicial 0 s x 1 in
   let! d_sx := simp_boundary 0 sx in
   let! s_dx := surj_call_simplicial 0 s dx 1 in
   let! l := sub 0 cls_simplicial d_sx s_dx in Ok (elt_eqb l ds_x, negb (dempty (data ds_x)))) = Ok (true, true).
Proof. vm_compute. reflexivity. Qed.
Example suspension_test :
  (let! x := surj_new 0 BF [([1;3;2;1;2;3;4],1)] None None in
   let! y := surj_new 0 BF [([1;2;3;1;2;3],1)] None None in
   let! sx := surj_suspension 0 x in
   let! sy := surj_suspension 0 y in
   let! xy := surj_compose 0 x y 1 in
   let! a := surj_suspension 0 xy in
   let! b := surj_compose 0 sx sy 1 in Ok (elt_eqb a b)) = Ok true.
Proof. vm_compute. reflexivity. Qed.

(* barratt_eccles.py *)
Example be_boundary_doc :
  items (let! x := be_new 0 [([[1;3;2];[2;3;1];[1;2;3]],1)] None in be_boundary 0 x)
  = Ok [([[2;3;1];[1;2;3]],1);([[1;3;2];[1;2;3]],-1);([[1;3;2];[2;3;1]],1)]. Proof. vm_compute. reflexivity. Qed.
Example be_act_doc :
  items (let! x := be_new 0 [([[1;3;2];[2;3;1]],1)] None in
         let! t := ring_new 0 [([2;3;1],1)] None in be_act 0 t x)
  = Ok [([[2;1;3];[3;1;2]],1)]. Proof. vm_compute. reflexivity. Qed.
Example be_orbit_doc :
  items (let! x := be_new 0 [([[1;3;2];[1;2;3]],1)] None in be_orbit 0 x Trivial) = Ok [([[1;2;3];[1;3;2]],1)] /\
  items (let! x := be_new 0 [([[1;3;2];[1;2;3]],1)] None in be_orbit 0 x SignRep) = Ok [([[1;2;3];[1;3;2]],-1)].
Proof. vm_compute. split; reflexivity. Qed.
Example be_compose_doc :
  items (let! x := be_new 0 [([[1;2];[2;1]],1)] None in be_compose 0 x x 1)
  = Ok [([[1;2;3];[2;1;3];[3;2;1]],-1);([[1;2;3];[3;1;2];[3;2;1]],1)]. Proof. vm_compute. reflexivity. Qed.
Example be_tr_doc :
  same (let! x := be_new 0 [([[1;2;3;4];[1;4;3;2];[1;2;4;3]],1)] None in be_table_reduction 0 x)
  (surj_new 0 BF [([1;2;4;2;4;3],1);([1;2;4;3;2;3],1)] None None) = Ok true. Proof. vm_compute. reflexivity. Qed.
Example be_diagonal_doc :
  items (let! x := be_new 0 [([[1;2];[2;1]],1)] None in be_diagonal 0 x 1)
  = Ok [([[[1;2]];[[1;2];[2;1]]],1);([[[1;2];[2;1]];[[2;1]]],1)]. Proof. vm_compute. reflexivity. Qed.
Example be_complexity_doc :
  (let! x := be_new 0 [([[1;2;3];[1;3;2];[1;2;3]],1)] None in be_complexity x) = Ok 2. Proof. vm_compute. reflexivity. Qed.
Example be_pref_doc : items (be_new 0 [([[1;2];[1;2]],1);([],1);([[1;2]],0)] None) = Ok []. Proof. vm_compute. reflexivity. Qed.
Example be_steenrod_test :
  same (be_steenrod_operation 0 3 2 3 false)
       (be_new 0 [([[1;2;3];[2;3;1];[3;1;2]],2);([[1;2;3];[3;1;2];[1;2;3]],2)] None) = Ok true.
Proof. vm_compute. reflexivity. Qed.
Example be_may_test :
  (let! t := transposition_element 0 4 None in
   let! a := be_may_steenrod 0 4 3 None in
   let! x := be_boundary 0 a in
   let! b := be_may_steenrod 0 4 2 None in
   let! y := be_act 0 t b in Ok (elt_eqb x y)) = Ok true.
Proof. vm_compute. reflexivity. Qed.

(* utils.py *)
Example decompositions_doc :
  decompositions [0;1] 2 = Ok [[[0];[0];[0;1]];[[0];[0;1];[1]];[[0;1];[1];[1]]].
Proof. vm_compute. reflexivity. Qed.
Example distinct_permutations_doc :
  distinct_permutations 10 [1;0;1] None = Ok [[0;1;1];[1;0;1];[1;1;0]] /\
  distinct_permutations 10 [1;0;1] (Some 2) = Ok [[0;1];[1;0];[1;1]].
Proof. vm_compute. split; reflexivity. Qed.
