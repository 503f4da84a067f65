# How each property is modelled and proved: used by mkdesign.py.
HOW = {
"C01": "Generic over every class (key type, degeneracy test `bad`, key conversion): `new`, `create`, `preferred_rep` and all arithmetic of FreeModule.v. Canonical = no zero coefficient, coefficients in range of the torsion, no degenerate key, keys distinct. Induction over dictionaries.",
"C02": "`add`, `sub`, `neg`, `iadd`, `isub`, `zero`. Elements with the same value under every linear form are ==; each law becomes an identity of integers modulo the torsion.",
"C03": "`scale` (`__rmul__` by int), `add`, `neg`; as C02.",
"C04": "`truediv` (`__truediv__` by an int): multiplication by `pow(a, -1, torsion)`, modelled by search with ValueError when there is no inverse; torsion 0 raises TypeError.",
"C05": "`add`/`sub`/`iadd`/`isub`, products, actions and compositions with different torsions return `Err`: case analysis, for all elements (`C05_torsion_mismatch`, `C05_products`, `C05_call`). `C05_operands_unchanged` is about the object model (World.v): in every reachable state such a call raises and every object keeps its value. SpecMixed.v lists the calls. The composition of surjections does not compare torsions.",
"C06": "`elt_eqb` (Counter equality of items, attributes ignored), `hash` as a function of the set of keys.",
"C07": "`set_torsion`; coefficients of the result are the residues; additivity.",
"C08": "Heap.v: objects with a separate attribute-dictionary reference; `create` shares the reference. Methods perform their reads and writes in program order. Theorems quantify over all heaps and all sequences of operations; which objects `set_torsion` changes is characterised exactly (all that share the dictionary), and the naive expectation is refuted by a history.",
"C09": "`dt` (class attribute default_torsion) is an argument of every function of the model. `dt_ok` is proved sufficient, with a refuting instance otherwise.",
"C10": "`sg_mul`, `sg_inverse`, `sg_pow`, Python indexing. Specification: functions 1..n -> 1..n (`image`), `perm` = Permutation of range.",
"C11": "`sg_sign` via cycles; specification: parity of the number of inversions. Induction over the cycle decomposition loop.",
"C12": "`to_cycles` with its `while` loop (fuel); termination on permutations and divergence otherwise are both proved (for every amount of fuel).",
"C13": "`sg_compose`; block permutation specification by `image`; operad axioms.",
"C14": "`itertools.permutations`, `sg_all`, `sg_shuffles`: soundness, completeness, no repetition.",
"C15": "`ring_mul` over tagged keys (SGE or plain tuple). Convolution formula; associativity through the evaluation method.",
"C16": "`rotation_element`, `transposition_element`, `norm_element` for all arities; T N = N T = 0.",
"C17": "`ring_pow`; positive statement for single permutations, refutation for sums, and a formula for all elements (ProductLaws.v).",
"C18": "Key tags: products have plain tuples as keys; which later calls fail and which succeed is stated and proved for every product (ProductLaws.v).",
"C19": "`ring_compose`; as C13 and C15.",
"C20": "`simp_boundary`; dual operator `tD` on tensor powers of a complex (Tensor.v), d d = 0 by the simplicial identities and Koszul signs.",
"C21": "`spx_face`, `spx_degeneracy`, `is_degenerate`: list identities for all indices.",
"C22": "`simp_act` incl. `koszul_sign` and `place`; specification `move`/`crossings` (Koszul sign = weighted inversions).",
"C23": "Tensor.v: Koszul action commutes with the boundary of tensor powers; then evaluation.",
"C24": "`simp_iterated_diagonal` (combinations with replacement of cut points); spec `front_back`; induction on the number of cuts.",
"C25": "AW.v coassociativity of cuts at an arbitrary factor.",
"C26": "`simp_basis`, `simp_standard_element` by `combinations`; soundness and completeness.",
"C27": "`cub_boundary`, `cube_face`, basis; recursion over coordinates.",
"C28": "`cub_act`; shares TensorAct.v with C22/C23.",
"C29": "`cub_iterated_diagonal`; spec in SpecCube; recursion over coordinates with signs.",
"C30": "Coassociativity of the Serre diagonal, at an arbitrary factor.",
"C31": "`cub_join`: boundary of a join of two cubes, with the two correction terms.",
"C32": "`cub_join` of elements with any number of factors (`join_loop`, with its vanishing conditions).",
"C33": "`cub_cartan_serre`: formula and chain map to simplicial chains.",
"C34": "`be_boundary`; faces of lists of permutations.",
"C35": "`be_act`; ActGeneric.v.",
"C36": "`be_orbit`; division of each sequence by its first permutation.",
"C37": "`be_compose` via lattice paths (`paths`, `sign_of_path`); EZ.v proves the Leibniz rule of the shuffle product by recursion.",
"C38": "EZ associativity plus C13; the Koszul sign in the parallel axiom.",
"C39": "`be_table_reduction` (all partitions of the row lengths, `table_row`): equals `table_words`; chain map by letter-by-letter recursion on tables.",
"C40": "Relabelling of tables.",
"C41": "TableFacts2: words of a path of composed tables = composites of words, sign bookkeeping by caesuras.",
"C42": "`be_diagonal` (`be_splits`): AW of lists of permutations.",
"C43": "`be_complexity` including the comparison of filter objects by identity; spec `changes of order`.",
"C44": "`be_may_steenrod` recursion with the contracting homotopy; degrees by induction.",
"C45": "`surj_boundary` for both conventions and the unknown-convention branch. BF: recursion on words; MS is conjugate to BF by an explicit sign (`tw`).",
"C46": "`surj_act`; MS sign is the Koszul sign (`crossings`).",
"C47": "`surj_orbit`; renaming by first occurrences.",
"C48": "`surj_compose` (weakly increasing cut positions, `compose_key`, `bf_sign`) equals `surj_composites`; Leibniz rule by recursion on the outer word.",
"C49": "Relabelling lemmas and associativity of insertion of words.",
"C50": "`surj_call_simplicial` with `compute_sign` and joins equals `simp_acts`; chain map: boundary of joins and cuts, sign parities.",
"C51": "`surj_call_cubical` equals `cub_acts` (all conventions); chain map modulo 2 by recursion over coordinates; three integral counterexamples computed by the kernel.",
"C52": "`surj_suspension`; formula, and refutations with witnesses.",
"C53": "`surj_may_steenrod` with the maps i, p, s, h; contracting homotopy identities for both conventions.",
"C54": "`surj_complexity`, `surj_filtration`: maxima over pairs; deletion and renaming of letters.",
"C55": "`surj_basis`; soundness, completeness, no repetition, complexity filter.",
"C56": "`partitions`, `decompositions`: generators as lists of the yielded values.",
"C57": "`surj_steenrod_operation`, `be_steenrod_operation`, with the coefficient as the code computes it: for negative exponents `(-1)**n` is a float and the product with factorial(m) is rounded to a double (`float_of_int`: round half to even, OverflowError). Wilson's theorem (Wilson.v) relates the coefficient to the documented one.",
"C58": "All operations on zero operands, by case analysis on the empty dictionary.",
"C59": "`one_reduced`.",
"C60": "`distinct_permutations`: array algorithm with `while` loops (fuel shown sufficient), next-permutation successor proved to be the lexicographic successor.",
"C61": "`steenrod_chain` with its filter; degree count shows that it keeps exactly the terms of dimension -q in every factor.",
"C62": "Sign of `surj_move` (MS) + `action_exponent` against the Koszul sign of the permuted result, for every word and cut (EquivAct.v).",
"C63": "OperadAct.v: cutting along a composite word = cutting along the outer word, collecting the pieces of letter i, and cutting these along the inner word (continuation-passing sums, induction on the outer word). Cubical case refuted by computation.",
"C64": "CompEquiv.v: where sigma o_{sigma(i)} tau sends each letter, then the terms of the composite of relabelled words are the relabelled terms (induction on the outer word; lattice paths for Barratt-Eccles), extended bilinearly (bil_morphism).",
"C65": "Composite words arise from the factors by repeating and deleting letters and relabelling; `changes` is monotone under these (relation R in CpxLaws.v).",
"C66": "Cochains as functions on a simplicial set (graded set closed under faces); C50 + C53 + C62 give d(alpha^p S) = 0 mod p.",
"C67": "Printing.v models strings, tuple.__repr__, str.replace and __str__; PrintFacts.v: decimal printing is injective, tuple printing is a prefix code, str.replace(', ', ',') acts term by term; the specification SpecPrint.v gives the expected string.",
"C68": "LatexFacts.v: each replace pass turns one explicit form of the printed sum into the next (induction over the factors of a key); exceptions computed.",
"C69": "AcyclicFacts.v: a contracting homotopy (prepending the identity; for surjections the map h of may_steenrod_structure) bounds every cycle; the augmentation handles degree 0.",
"C70": "AcyclicLaws.v: evaluate both products on the indicator of each translate p*k; the translates are pairwise different and non-degenerate.",
"C71": "CubeLaws.v: a cube with an i-th interval is l1 ++ 2 :: l2 with i intervals in l1; all claims are list computations on that decomposition.",
"C72": "AttrLaws.v: the set of values has one element exactly when the list of values is non-empty and constant; supports via den_keys.",
"C73": "GroupMul.v models `SymmetricGroupElement.__mul__` with a module element; GroupLaws.v reduces it to the ring action of {g: 1} (C22, C28, C35, C46).",
"C74": "SteenrodWords.v pairs words in cochains with tensors and contracts the formal complex on two letters; SteenrodLin.v shows that the values Q_d on a cycle satisfy Q_{d+1}(dG) = (T or N) Q_d(G) (C15, C16, C29, C30), so v^p has value 0 for v = du, and sums over rotations of words vanish, which gives additivity for prime p.",
"C75": "CupI.v: a splitting of a simplex of dimension at most d into d+2 overlapping pieces has either a one-point interior piece, and then two pieces with the same letter repeat a vertex, or all interior pieces are edges; induction on the simplex. The sign is a closed form of action_exponent. May elements of arity 2 have one word by uniqueness of alternating words. CupILaws.v combines this with bil_act and diag_den.",
"C76": "CartanSerre.v: the collapse turns the Serre diagonal into the Alexander-Whitney diagonal (induction on the cube with the counit), and the join of two pieces, one below the other, into concatenation of simplices up to the sign of the first dimension (induction on the cube; degenerate concatenations vanish). The pieces of an iterated Serre diagonal are pairwise ordered, so every product of joins becomes the product of concatenations; the sign is computed by a closed form of the iterated join sign. CartanLaws.v lifts to elements with bil_morphism.",
"C77":"Specification `SpecCubCup.v` (face-closed sets of cubes, cochains, coboundary, value of a pair of cochains). The action on one cube mod 2 is a sum over Serre splittings of joins over the blocks of the word (`CubActCore.PhiC`); permuting letters permutes the joins (`CubCup.PsiC_move`), which gives equivariance; the alternating words have boundary 'previous word plus its flip' mod 2 (`CubCup2.alt_sd`), so the chain map property `PhiC_chain` of the action becomes the coboundary formula. The square s (x) s comes from an induction over the coordinates of the cube. The refutation is a computed closed counterexample.",
"C78":"The five identities follow from the formulas of C77 summed over a cycle: cross terms a u_d b + b u_d a are the boundary terms of a u_(d+1) b; df u_d df = boundary of f u_d df plus boundary of f u_(d-1) f. Values outside X are irrelevant because the action does not leave X.",
"C79":"The constructor's attribute is modelled in SimpDim.v on top of the object model Heap.v. Cases on the arguments with the specification of max; induction over histories with the frame theorem of C08 (set_torsion is the only operation that writes an attribute, and it writes the torsion only).",
"C80":"The value of a pairing of cochains on S_d(c) is the denotation of the action (ActCore); the boundary formula of the May-Steenrod structure (C29), the chain map property of the action (C46) and its equivariance (C61) give the formula; the corollaries are sums of the formula over a cycle.",
"C81":"Prepending the identity to a simplex corresponds under table reduction to the contracting homotopy used by the surjection operad (TT_homotopy, from the recursive form of the table reduction); with equivariance of the table reduction (C39) the two recursions agree step by step.",
"C82":"Every basis element of a result comes from the closed formulas of C34, C35, C37, C39; deleting an entry of a sequence does not add changes; along a lattice path the order of two letters is that of the letters of one factor; induction on the recursive table reduction bounds the alternations.",
"C83":"Both sides are values of one functional on words of arity 4: the composites of (1,2) with S_d and of S_a, S_b with (1,2). With the boundary formula of S_d, composition as a chain map and its equivariance both satisfy the same recursion under the boundary, so the contracting homotopy of the surjection complex (C69) gives, by induction on d, an equivariant homotopy between them (SqHtpy.v, SqCartan.v); an invariant cocycle does not see it. The operad action modulo 2 (OperadAct.v) evaluates the two sides (SqAct.v), and SqLaws.v connects them with the code.",
"C84":"The diagonal of one simplex is the sum over its cuts (C10), so a u b is the convolution of a and b over cuts (CupAlgLaws.v: cup_code, cup_is_iff); only one cut has pieces of the right lengths, which gives the formula, and coassociativity of cutting and the boundary of a cut give associativity and the derivation rule.",
"C85":"The image is characterised by its value at every form that kills degenerate tensors (rep_ev); each operator of the model is dual to an operator on forms (linop), and these dual operators commute with relabelling by induction on the key (nat_tDS, nat_Sd, nat_kact, nat_Phi in NatLaws.v); nat_linop transfers this to the code.",
"C86":"The chain formula of the action is used over the integers (QZ_chain in Bockstein.v): boundary e_d is the norm or rotation-minus-one times e_(d-1), rotations fix the tensor power exactly, the coboundary of the tensor power is p times a sum over the places of the divided coboundary; that sum is a norm by the Koszul sign of the rotations (w0_sign) and so has value zero modulo p; dividing by p gives the relation.",
"C87":"By dimension only the tensor power of the simplex itself can occur (sub2_dim, top_key in P0Simplex.v). Its coefficient is computed by induction on the dimension: for the indicator beta of the last face and delta beta, the chain formula gives a relation modulo p between words in beta and delta beta (qq_S); the contraction of the word complex turns it into a descent from (delta beta)^p to beta^p (descent in P0Words.v), whose coefficient is a sum over the adjacent pairs of letters that counts, with Koszul signs of the rotations, h! times a sign (PS_EV, M_step).",
"C88":"For words in alpha and delta alpha the chain formula gives relations modulo p with error terms at boundary(c) (q_0, q_S in Stable.v), and an error term vanishes as soon as the word contains delta alpha, since the action stays inside A (eb_small). The descent of P0Words.v, proved for C87, turns this into the coefficient; the factors nu(q) of the two operations then leave only a sign (stable_coeff). For p = 2 and for cubes: Steenrod's coboundary formula applied to (alpha, alpha) and to (alpha, delta alpha).",
"C89":"Inherited.v models the methods of CPython's collections.Counter that the classes inherit. Copies: the constructor applied to canonical data, reduced to set_torsion (C07). Multiset operations: one lemma about a fold that keeps selected items (sel_fold). Order, in-place operations, elements and total: InhAdd.v, by induction on the items; the total is the evaluation of the constant form 1.",
"C90":"Repr.v models Counter.__repr__ (most_common is a stable insertion sort); SpecRepr.v states the order (by_count). Faithfulness: removing the spaces after commas is a homomorphism on the printed items, whose images are uniquely decodable (PrintFacts.v).",
"C91":"AdemHtpy.v: two families of functionals on words of arity 4, indexed by two degrees, with the same boundary under two commuting involutions agree on invariant cocycles (the contracting homotopy of C69, by induction on both degrees). AdemWords.v and AdemSum.v: the sum of C(b, l) C(a (+1), l + 1) times the composites of S_(j-l) with S_a and S_b has such a boundary in (j, k); AdemSym.v compares it with its mirror image under the exchange of the two middle inputs. AdemAct.v evaluates it on a cocycle (operad action modulo 2): off-diagonal terms cancel by the symmetry of cup-i products on cycles, which leaves sum_i C(i, k - i) Sq Sq; AdemBin.v turns the resulting symmetric relation into the classical one by identities of binomial coefficients modulo 2. AdemLaws.v connects it with the code.",
"C92":"HeapApi.v models every method on objects (create, zero, in-place additions to the answer, temporaries of += included), World.v a program with objects of all classes. HeapSim.v: simulation of the object-level loops by the value-level ones, with the frame (what is unchanged) and the attribute dictionary of the answer; HeapMethods.v: one lemma for each method; WorldSim.v and WorldLaws.v: every call builds a new object, returns its operand, or has a missing operand. ObjLaws.v: induction over histories, with the invariant that families (SpecObjects.v) are the classes of objects with the same attribute dictionary.",
"C93":"SpecHopf.v: boundary, composition and augmentation of tensor products. HopfFacts.v: the signed sum over lattice paths (composition) commutes with the sum over cuts (diagonal), by induction on the two simplices; partial composition of permutations is injective in each argument, so that a path of non-degenerate simplices is non-degenerate; the sum over cuts commutes with the boundary of the tensor power.",
"C94":"TableOnto.v: to a word associate the table that is read in one way only (the last occurrence of a letter ends its column, an earlier occurrence starts a new row); by induction on the word this table is made of permutations, has no equal consecutive rows, and its only non-degenerate reading is the word; the order of two letters changes once per switch after the first. Cycles lift through C69 (acyclicity) and the chain map property C39; CongFacts.v: linear operations respect equality.",
"C95":"SpecCong.v: equal elements. CongFacts.v: a formula of the form `linear extension of f over the terms` has the same coefficients for equal elements, because well-formed equal dictionaries have the same terms; CongLaws.v applies this to the formulas proved for every operation. Counterexamples by computation.",
"C96":"ArgsLaws.v. Slices with negative bounds are rewritten to slices with non-negative bounds (neg_slices, zero_slices, low_get); the loops of the accepted cases are evaluated as for C24 and C29, with the rest of the key replaced by the whole key for coord = 0 and the empty product for times < 0 (SpecArgs.v: counit_at). The rejected cases: the first key raises.",
"C97":"ArityTwo.v, ArityTwoLaws.v, ArityTwoBE.v, ArityTwoBELaws.v. A word in two letters without repetitions alternates (SpecCup.v: altw, alt_simplex). The boundary of an alternating word is computed by induction on its length, in both conventions; the boundaries of the two words of one degree agree up to sign, so with C69 every cycle is a multiple of one of them, which is what may_steenrod_structure(2, d + 1) bounds. Complexity: C43, C54.",
"C98":"ConeFacts.v, ConeLaws.v (SpecCone.v). One factor is contracted by adding the vertex v in front, or by 1 -> interval on the first coordinates of a cube; the contraction of a tensor product is h x 1 + (point) x h, by recursion on the factors, generically in the class. The homotopy formula gives that cycles bound (AcyclicFacts.v), and the augmentation detects degree 0.",
"C99":"HirschFacts.v, HirschLaws.v (SpecHirsch.v). may_steenrod_structure(2, 1) is the word (1, 2, 1) (C75); its action, cut at the two places that the degrees determine, is the closed formula; the two identities are bijections between the terms of double sums, with the slices of the list of vertices compared place by place.",
"C100":"CupiLaws.v (SpecCupi.v, SpecHirsch.v). may_steenrod_structure(2, i) is the alternating word (C75) and its action is the sum over cuts (C50); inner pieces of one vertex give degenerate joins, so each join has at least i + 1 vertices, which bounds i by both degrees; the coboundary formula is the chain map property (C50, C53) read on cochains.",
"C101":"SerreOnto.v, SerreOntoLaws.v (SpecCone.v, SpecCube.v). An explicit section of the map on basis elements (2 at the vertices before the last one, 0 from the last one on, 1 elsewhere) gives surjectivity; the acyclicity of both sides (C98) and the chain map property (C33) give cycles and boundaries, the sum of coefficients deciding degree 0.",
 "C102":"The words are specified in SpecBrace.v. Boundary by the letter-by-letter recursion of the Berger-Fresse boundary; compositions by the overlapping-pieces recursion, whose value on the brace is shown equal to the list of distributions by a double induction on the letters to distribute and the word; single-word composites are computed exactly.",
 "C103":"Every operation is known (theorems *_formula) to extend a map of basis elements linearly or bilinearly with the coefficients reduced modulo the torsion; evaluation of functionals is linear and set_torsion changes evaluations by multiples of m only, so both sides evaluate equally modulo m and are therefore equal (TorsLaws.v).",
 "C104":"Each operation is a dual operator that replaces one factor by a list of factors of known length and degree with the sign of moving past the factors in front (IndepLaws.v, loc); two such operators at different factors commute up to the product of degrees by exchanging two finite sums.",
 "C105":"The tensor product is defined in SpecTensor.v from the constructor alone; it is a bilinear operation whose dual concatenates keys (TensLaws.v). The Leibniz rule, the action at a factor, the block exchange and the Cartan-Serre map then reduce to identities about concatenated keys, which hold by the locality of each operator (IndepLaws.v).",
 "C106":"The dual of the binary join is a recursive function of the two cubes; associativity with its sign is proved by induction on the common length, extended to joins of many cubes by induction on the number of factors, and transported to elements with the tensor product of SpecTensor.v (JoinAssoc.v).",
 "C107":"Maps of cubes are partial functions on cubes (SpecCubNat.v). Compatibility of one-coordinate maps with the duals of the boundary, the Serre diagonal and the binary join is proved by induction on the place and the cube, extended to tensors, iterated diagonals, iterated joins and the operadic action, and transported to elements with the generic calculus of linear operations (CubNat.v).",
 "C108":"The difference of the two elements is a boundary by the acyclicity of the surjection complex (C69); the homotopy is the action of a bounding element, and the formula follows from the chain map identity for the action (C50, C51), bilinearity and the congruence of the action under == (HtpyLaws.v).",
 "C109":"The counit laws are proved for the cuts of a list (induction on the number of cuts) and for the Serre diagonal, and carried to elements; the augmentation of a factor is a linear operation commuting with the boundary (DiagHom.v, over any set of cells closed under faces), so that a bounding element of a diagonal gives, factor by factor, one of the element (CounitLaws.v).",
 "C110":"Every basis element has a place in its orbit under the rotation (the image of 1, the image of 1 under the first permutation, the first letter). With H the sum of the rotations from that place to the end of the orbit and pi, pi' the projections on the first and last places, x = pi N x - T H x and x = N pi' x - H T x hold; this contraction is given for any free action of the rotation by signs and keys (PerExact.v) and instantiated three times (PerLaws.v).",
 "C111":"Induction on the degree for any complex with an action of the group ring whose positive cycles bound (PerUniq.v): psi - psi' - (N or T) h is a cycle, because the boundary commutes with the action, the products of T and N vanish and the previous homotopy exists, so it bounds (C69); in degree 0 the total decides (C69). Existence by the same induction: (N or T) psi is a cycle. Instantiated for the two operads, and with the sequences of C44 and C53 (UniqLaws.v). The acyclicity is the contraction of C69.",
}
