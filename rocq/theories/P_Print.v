(** * Property theorems.  Generated by tools/mkprop.py from the tagged lemmas of
    PrintLaws.v: every theorem is closed by [exact]. *)
From Coq Require Import Znumtheory Sorting.Sorted.
From Verif Require Import PyBase Dict FreeModule Symmetric Simplicial Cubical Surjection BarrattEccles Spec Printing SpecPrint PrintLaws.

(** Simplices, cubes and permutations print as tuples without spaces. *)
Theorem C67_simplex : forall (s : list Z),
  str_simplex s = shown_ints s /\ str_cube s = shown_ints s /\ str_sg s = shown_ints s.
Proof. exact @C67_simplex_l. Qed.
Print Assumptions C67_simplex.

(** [str] never fails and prints every term, coefficient first. *)
Theorem C67_simplicial : forall (x : simp),
  wf cls_simplicial x -> str_simplicial x = Ok (shown shown_tuples (data x)).
Proof. exact @C67_simplicial_l. Qed.
Print Assumptions C67_simplicial.

Theorem C67_cubical : forall (x : cubc),
  wf cls_cubical x -> str_cubical x = Ok (shown shown_tuples (data x)).
Proof. exact @C67_cubical_l. Qed.
Print Assumptions C67_cubical.

Theorem C67_barratt_eccles : forall (x : bee),
  wf cls_be x -> str_be x = Ok (shown shown_tuples (data x)).
Proof. exact @C67_barratt_eccles_l. Qed.
Print Assumptions C67_barratt_eccles.

Theorem C67_surjection : forall (x : surj),
  wf cls_surj x -> str_surj x = Ok (shown shown_ints (data x)).
Proof. exact @C67_surjection_l. Qed.
Print Assumptions C67_surjection.

(** Group elements and plain tuples print alike. *)
Theorem C67_ring : forall (x : ring),
  wf cls_ring x -> str_ring x = Ok (shown (fun k => shown_ints (kval k)) (data x)).
Proof. exact @C67_ring_l. Qed.
Print Assumptions C67_ring.

(** Two elements print the same exactly if they have
    the same terms in the same order; only zero prints as [0]. *)
Theorem C67_faithful_simplicial : forall (x y : simp),
  wf cls_simplicial x -> wf cls_simplicial y ->
  (str_simplicial x = str_simplicial y <-> data x = data y) /\ (str_simplicial x = Ok (lit "0") <-> is_zero x).
Proof. exact @C67_faithful_simplicial_l. Qed.
Print Assumptions C67_faithful_simplicial.

Theorem C67_faithful_cubical : forall (x y : cubc),
  wf cls_cubical x -> wf cls_cubical y ->
  (str_cubical x = str_cubical y <-> data x = data y) /\ (str_cubical x = Ok (lit "0") <-> is_zero x).
Proof. exact @C67_faithful_cubical_l. Qed.
Print Assumptions C67_faithful_cubical.

Theorem C67_faithful_barratt_eccles : forall (x y : bee),
  wf cls_be x -> wf cls_be y ->
  (str_be x = str_be y <-> data x = data y) /\ (str_be x = Ok (lit "0") <-> is_zero x).
Proof. exact @C67_faithful_barratt_eccles_l. Qed.
Print Assumptions C67_faithful_barratt_eccles.

Theorem C67_faithful_surjection : forall (x y : surj),
  wf cls_surj x -> wf cls_surj y ->
  (str_surj x = str_surj y <-> data x = data y) /\ (str_surj x = Ok (lit "0") <-> is_zero x).
Proof. exact @C67_faithful_surjection_l. Qed.
Print Assumptions C67_faithful_surjection.

(** In the symmetric ring the same, up to the class of the
    keys (group element or plain tuple), which [==] ignores as well. *)
Theorem C67_faithful_ring : forall (x y : ring),
  wf cls_ring x -> wf cls_ring y ->
  (str_ring x = str_ring y <-> map (fun kv => (kval (fst kv), snd kv)) (data x) = map (fun kv => (kval (fst kv), snd kv)) (data y)) /\ (str_ring x = Ok (lit "0") <-> is_zero x).
Proof. exact @C67_faithful_ring_l. Qed.
Print Assumptions C67_faithful_ring.

Example C67_example : wf cls_surj (mkElt [([1; 2; 1], -1); ([2; 1; 3], 2); ([1], 10)] 0 BF : surj) /\
  str_surj (mkElt [([1; 2; 1], -1); ([2; 1; 3], 2); ([1], 10)] 0 BF : surj) = Ok (lit "- (1,2,1) + 2(2,1,3) + 10(1,)").
Proof. exact @C67_example_l. Qed.

(** [_latex_] of a non-zero simplicial element whose keys are
    non-empty, with non-empty simplices, and not a single vertex. *)
Theorem C68_simplicial : forall (x : simp),
  wf cls_simplicial x -> ~ is_zero x ->
  keys_in (fun k => k <> [] /\ (forall s, In s k -> s <> []) /\ (forall v, k <> [[v]])) x ->
  latex_simplicial x = Ok (shown latex_simplices (data x)).
Proof. exact @C68_simplicial_l. Qed.
Print Assumptions C68_simplicial.

(** A single vertex prints with a stray comma: the LaTeX form of
    ((v,),) is [v,] and not [v]. *)
Theorem C68_vertex : forall (v : Z),
  latex_simplicial (mkElt [([[v]], 1)] 0 tt) = Ok (lit "[" ++ str_int v ++ lit ",]") /\
  latex_simplices [[v]] = lit "[" ++ str_int v ++ lit "]".
Proof. exact @C68_vertex_l. Qed.
Print Assumptions C68_vertex.

(** [_latex_] of a non-zero cubical element: keys non-empty, with
    non-empty cubes, and no digit 0 or 1 in a printed coefficient (coefficients
    1 and -1 are not printed). *)
Theorem C68_cubical : forall (x : cubc),
  wf cls_cubical x -> ~ is_zero x ->
  keys_in (fun k => k <> [] /\ forall s, In s k -> s <> [] /\ forall e, In e s -> e = 0 \/ e = 1 \/ e = 2) x ->
  (forall k v, In (k, v) (data x) -> no_binary_digit v) ->
  latex_cubical x = Ok (shown latex_cubes (data x)).
Proof. exact @C68_cubical_l. Qed.
Print Assumptions C68_cubical.

(** Without the condition on the digits the output is
    wrong: the coefficient 10 is printed as if it were the cube [1][0]; and zero
    prints as the vertex [0]. *)
Theorem C68_cubical_refuted : latex_cubical (mkElt [([[2]], 10)] 0 tt) = Ok (lit "[1][0][01]") /\
  shown latex_cubes [([[2]], 10)] = lit "10[01]" /\
  latex_cubical (mkElt [([[1; 0; 2]], 1)] 0 tt) = Ok (lit "[1][0][01]") /\
  latex_cubical (mkElt [] 0 tt) = Ok (lit "[0]") /\ latex_cubical (mkElt [([[0]], 1)] 0 tt) = Ok (lit "[0]").
Proof. exact @C68_cubical_refuted_l. Qed.
Print Assumptions C68_cubical_refuted.

Example C68_example : latex_simplicial (mkElt [([[0]; [0; 1; 2]], 1); ([[0; 12]], -3)] 0 tt) = Ok (lit "[0] \otimes [0,1,2] - 3[0,12]") /\
  latex_cubical (mkElt [([[2; 2]; [1; 0]], -1); ([[0; 2]; [2; 1]], 24)] 0 tt) = Ok (lit "- [01][01] \otimes [1][0] + 24[0][01] \otimes [01][1]").
Proof. exact @C68_example_l. Qed.
