{"id": "C01", "title": "Canonical form", "statement": "Every element returned by a constructor or by +, -, unary -, integer *, /, +=, -=, set_torsion, create, zero stores only non-zero coefficients, each basis element once, with coefficients in {1..n-1} when torsion n>0, and no basis element that its class declares degenerate.", "quantifier": "all classes of elements, all data dicts, all torsions >= 0, all operand pairs", "why_tests_cant": "Canonical form is an invariant of every reachable element: it must hold for each data dict, torsion and chain of operations; one missed reduction shows only for coefficients that happen to cancel or wrap.", "anchors": ["comch/free_module/free_module.py:FreeModuleElement.preferred_rep", "comch/free_module/free_module.py:FreeModuleElement.__init__", "comch/free_module/free_module.py:FreeModuleElement.create"]}
{"id": "C02", "title": "Abelian group laws", "statement": "Under ==, + is associative and commutative with zero() as neutral element, x - y equals x + (-y), and x - x == zero().", "quantifier": "all elements of equal torsion of any class", "why_tests_cant": "The laws are equations between arbitrary formal sums; tests compare finitely many sums, while cancellation patterns (terms that vanish mod the torsion, keys inserted in another order) are unbounded.", "anchors": ["comch/free_module/free_module.py:__add__", "comch/free_module/free_module.py:__sub__", "comch/free_module/free_module.py:__neg__", "comch/free_module/free_module.py:zero"]}
{"id": "C03", "title": "Module laws", "statement": "(a*b)*x == a*(b*x), (a+b)*x == a*x + b*x, a*(x+y) == a*x + a*y, 1*x == x, 0*x == zero, n*x == zero when torsion is n, for Python ints a,b.", "quantifier": "all ints and all elements of any class", "why_tests_cant": "Quantifies over all integers a, b and all elements; wrap-around mod the torsion depends on the values.", "anchors": ["comch/free_module/free_module.py:__rmul__"]}
{"id": "C04", "title": "Division", "statement": "For torsion n>0 and c coprime to n, x / c is the unique element y with c*y == x; if c is not invertible mod n a ValueError is raised; for torsion 0 a TypeError is raised.", "quantifier": "all ints c, all torsions n, all elements", "why_tests_cant": "Invertibility of c mod n depends on gcd(c, n) for all pairs; uniqueness of the quotient cannot be observed by running the division.", "anchors": ["comch/free_module/free_module.py:__truediv__"]}
{"id": "C05", "title": "Torsion mismatch is rejected", "statement": "+, -, +=, -=, the product of the group ring, the actions of the group ring on all classes and the composition of Barratt-Eccles elements raise TypeError between elements of different torsion (the composition of ring elements too unless the left one is zero; the action of surjections on chains unless one of the two is zero), and in every state a program can reach such a call changes neither its operands nor any other object.", "quantifier": "all pairs of elements with different torsion, all histories of calls", "why_tests_cant": "Every pair of different torsions, in every operation, has to be rejected before any state changes; absence of an effect is not testable by samples.", "anchors": ["comch/free_module/free_module.py:__add__", "comch/free_module/free_module.py:__iadd__", "comch/symmetric/symmetric.py:SymmetricRingElement.__mul__", "comch/symmetric/symmetric.py:SymmetricRingElement.compose", "comch/simplicial/simplicial.py:SimplicialElement.__rmul__", "comch/cubical/cubical.py:CubicalElement.__rmul__", "comch/surjection/surjection.py:SurjectionElement.__rmul__", "comch/surjection/surjection.py:SurjectionElement.__call__", "comch/barratt_eccles/barratt_eccles.py:BarrattEcclesElement.__rmul__", "comch/barratt_eccles/barratt_eccles.py:BarrattEcclesElement.compose"]}
{"id": "C06", "title": "Equality and hash", "statement": "x == y holds exactly when both have the same coefficient at every basis element (torsion is ignored), and then hash(x) is computed from the same set of basis elements, so equal elements hash equal.", "quantifier": "all pairs of elements in canonical form", "why_tests_cant": "Equality is between all pairs of elements, with keys inserted in any order.", "anchors": ["comch/free_module/free_module.py:__hash__", "collections.Counter.__eq__"]}
{"id": "C07", "title": "set_torsion is reduction of coefficients", "statement": "x.set_torsion(n) replaces each coefficient by its residue mod n; reducing an integral sum/multiple/difference equals the sum/multiple/difference of the reductions; reducing mod n then mod m equals reducing mod m if m divides n.", "quantifier": "all elements, all n>=0, m | n", "why_tests_cant": "Compatibility of residues with sums and with iterated reduction concerns all moduli and coefficients.", "anchors": ["comch/free_module/free_module.py:set_torsion", "comch/free_module/free_module.py:preferred_rep"]}
{"id": "C08", "title": "Which objects an operation can change", "statement": "Objects carry their attributes (torsion, convention) in a dictionary that results of +, -, *, zero(), create() share with their operand. In every history: each operation returns the value given by the value-level semantics; an object never changes unless it is the left operand of += / -= or set_torsion is called; += and -= on x change no other object and no attribute; x.set_torsion(n) changes, in exactly those other objects that share x's attribute dictionary, the torsion and nothing else. The naive expectation that set_torsion never affects other objects is FALSE for the code (theorem C08_set_torsion_refuted: after z = x + y, z.set_torsion(2) changes x's torsion and leaves x not canonical).", "quantifier": "all histories of object creations and operations", "why_tests_cant": "Aliasing shows only after particular sequences of operations on shared objects; the histories are unbounded.", "anchors": ["comch/free_module/free_module.py:create", "comch/free_module/free_module.py:set_torsion", "comch/free_module/free_module.py:__iadd__"]}
{"id": "C09", "title": "Dependence on default_torsion", "statement": "If default_torsion is 0 or a multiple of the torsion t of the operands (in general: for two admissible values of default_torsion), all operations return the same elements. The unrestricted claim is FALSE (C09_refuted: with default_torsion = 2, adding zero to an element of torsion 3 loses a coefficient), because create() first reduces modulo default_torsion.", "quantifier": "all elements, all pairs of admissible values of default_torsion", "why_tests_cant": "The class attribute and the instance torsion range independently over all integers; a test fixes both.", "anchors": ["comch/free_module/free_module.py:create", "comch/free_module/free_module.py:default_torsion"]}
{"id": "C10", "title": "Symmetric group laws", "statement": "On permutations of (1..r): * is composition of bijections, is closed, associative, has identity (1..r); inverse() is a two-sided inverse; x**0 is the identity and x**(m+n) == x**m * x**n for m, n >= 0; a negative exponent silently returns x itself; unequal arities raise TypeError.", "quantifier": "all r and all permutations of arity r, all exponents >= 0", "why_tests_cant": "There are r! permutations for every r; group laws relate all pairs and triples of them.", "anchors": ["comch/symmetric/symmetric.py:SymmetricGroupElement"]}
{"id": "C11", "title": "Sign of a permutation", "statement": "sign is (-1)^(number of inversions), is multiplicative, and is defined exactly on permutations of (1..r), TypeError otherwise.", "quantifier": "all tuples / all pairs of permutations", "why_tests_cant": "Multiplicativity ranges over all pairs of permutations of all arities; the characterisation of the inputs that raise ranges over all tuples.", "anchors": ["comch/symmetric/symmetric.py:SymmetricGroupElement.sign"]}
{"id": "C12", "title": "Cycle decomposition", "statement": "to_cycles terminates on every permutation and returns disjoint cycles of it (each entry is sent to the next, the last to the first); with singletons=True they partition {1..r}, the default omits exactly the cycles of length one. On tuples that are not permutations the loop need not end (C12_diverges: (2,2)).", "quantifier": "all permutations of all arities", "why_tests_cant": "A while loop: termination for every input is not observable, and neither is divergence.", "anchors": ["comch/symmetric/symmetric.py:SymmetricGroupElement.to_cycles"]}
{"id": "C13", "title": "Operad axioms of symmetric groups", "statement": "compose returns a permutation of arity r+s-1 and satisfies sequential and parallel associativity, unit laws; position outside 1..r raises ValueError.", "quantifier": "all permutations and positions", "why_tests_cant": "The operad axioms relate all triples of permutations and all pairs of positions.", "anchors": ["comch/symmetric/symmetric.py:SymmetricGroupElement.compose"]}
{"id": "C14", "title": "Enumeration of permutations and shuffles", "statement": "SymmetricGroup.all(n) yields each permutation of (1..n) exactly once; shuffles(i,j) yields exactly once each permutation increasing on its first i and on its last j entries.", "quantifier": "all n, i, j >= 0", "why_tests_cant": "Completeness and absence of repetitions of an enumeration for every n.", "anchors": ["comch/symmetric/symmetric.py:SymmetricGroup.all", "comch/symmetric/symmetric.py:SymmetricGroup.shuffles"]}
{"id": "C15", "title": "Group ring", "statement": "* on symmetric ring elements is associative, distributes over + on both sides, has identity_element(r) as unit, and extends the product of permutations bilinearly.", "quantifier": "all ring elements of common arity and torsion", "why_tests_cant": "Bilinear identities between arbitrary elements of the group ring for every arity and torsion.", "anchors": ["comch/symmetric/symmetric.py:SymmetricRingElement.__mul__", "comch/symmetric/symmetric.py:SymmetricRing.identity_element"]}
{"id": "C16", "title": "Norm and transposition elements", "statement": "For torsion different from 1: rotation_element(r) is i -> i+1 mod r and has order r; norm_element is the sum of its r distinct powers; for r >= 2 transposition_element is rho - id and T*N == N*T == 0. In arity 1 this is FALSE (C16_transposition_refuted: transposition_element(1) is minus the identity and T*N is not 0).", "quantifier": "all arities r >= 1, all torsions different from 1", "why_tests_cant": "One identity for every arity and torsion; the boundary case r = 1 behaves differently.", "anchors": ["comch/symmetric/symmetric.py:SymmetricRing"]}
{"id": "C17", "title": "Ring power: iterated product exactly on permutations", "statement": "For a ring element that is one permutation with coefficient 1, x ** n is the n-fold product. For general elements this is FALSE (C17_refuted): x ** m with m >= 1 is the sum of the m-th powers of the permutations of x, each with its coefficient in x, and x ** 0 is the identity of the arity (C17_power_formula).", "quantifier": "all permutations and n >= 0; counterexample otherwise", "why_tests_cant": "Agreement with the iterated product holds only on a special infinite family, which samples cannot delimit.", "anchors": ["comch/symmetric/symmetric.py:SymmetricRingElement.__pow__"]}
{"id": "C18", "title": "What products of ring elements can be used for", "statement": "Products of ring elements can be added, subtracted, scaled, compared and multiplied again, and act directly on simplicial, cubical and surjection elements; after re-creating them they can also be composed, raised to powers and act on Barratt-Eccles elements. Used directly they are not first class (C18_refuted): every non-zero product is rejected by compose (AttributeError) and by ** (TypeError); and ring element * group element raises TypeError in both orders for every group and ring element.", "quantifier": "all p, q, g", "why_tests_cant": "Whether an operation accepts a value depends on the hidden Python type of its keys, which depends on the whole history of the value.", "anchors": ["comch/symmetric/symmetric.py:SymmetricRingElement.__mul__", "comch/symmetric/symmetric.py:SymmetricGroupElement.__mul__"]}
{"id": "C19", "title": "Ring composition", "statement": "compose of ring elements is bilinear and satisfies the operad axioms.", "quantifier": "all ring elements and positions", "why_tests_cant": "Operad axioms for all triples of formal sums and all positions.", "anchors": ["comch/symmetric/symmetric.py:SymmetricRingElement.compose"]}
{"id": "C20", "title": "Simplicial boundary squares to zero", "statement": "x.boundary().boundary() == x.zero() for SimplicialElement; boundary is additive, preserves arity and lowers degree by one.", "quantifier": "all simplicial elements of any arity, degree, torsion", "why_tests_cant": "d(d(x)) = 0 is an identity of signs for basis elements of every arity and degree and all linear combinations; a wrong sign can be invisible in low degree.", "anchors": ["comch/simplicial/simplicial.py:SimplicialElement.boundary"]}
{"id": "C21", "title": "Simplex identities", "statement": "face, degeneracy, coface, codegeneracy satisfy the (co)simplicial identities; is_degenerate holds exactly for the empty simplex and those with two equal consecutive vertices.", "quantifier": "all simplices and indices", "why_tests_cant": "Identities for all simplices and all pairs of indices.", "anchors": ["comch/simplicial/simplicial.py:Simplex"]}
{"id": "C22", "title": "Koszul action on simplicial elements", "statement": "The action of the group ring on SimplicialElement is a left action: (a*b)*x == a*(b*x), id*x == x, bilinear.", "quantifier": "all simplicial elements, all ring elements of equal arity", "why_tests_cant": "The Koszul sign of a permutation of graded factors has to be multiplicative for all permutations and all degree sequences.", "anchors": ["comch/simplicial/simplicial.py:SimplicialElement.__rmul__"]}
{"id": "C23", "title": "Action commutes with boundary (simplicial)", "statement": "(a*x).boundary() == a*(x.boundary()) whenever both sides are defined.", "quantifier": "all simplicial elements, all ring elements of equal arity", "why_tests_cant": "Signs of the action and of the boundary must match for all degree sequences and permutations.", "anchors": ["comch/simplicial/simplicial.py:SimplicialElement.__rmul__", "comch/simplicial/simplicial.py:SimplicialElement.boundary"]}
{"id": "C24", "title": "Alexander-Whitney iterated diagonal", "statement": "For a non-zero homogeneous element of arity n, times >= 0 and 1 <= coord <= n, iterated_diagonal(times, coord) is the sum over 0<=i1<=..<=ik<=dim of the front/back splittings of factor coord, extended linearly, and it commutes with boundary (a zero boundary counting as zero; on the zero element itself the code raises TypeError, see C58).", "quantifier": "all homogeneous elements, times >= 0, 1 <= coord <= arity", "why_tests_cant": "The number of splittings grows with degree and times; the chain map identity is a sign identity in all degrees.", "anchors": ["comch/simplicial/simplicial.py:SimplicialElement.iterated_diagonal"]}
{"id": "C25", "title": "Coassociativity (simplicial)", "statement": "Applying iterated_diagonal to any of the factors produced by iterated_diagonal at coord gives iterated_diagonal with the sum of the times.", "quantifier": "all homogeneous elements, all times, coord, all produced factors", "why_tests_cant": "Infinite family of identities indexed by degrees, times and factors.", "anchors": ["comch/simplicial/simplicial.py:SimplicialElement.iterated_diagonal"]}
{"id": "C26", "title": "Simplicial bases", "statement": "Simplicial.basis(n) enumerates exactly once each non-empty strictly increasing tuple of {0..n}; standard_element is the top simplex.", "quantifier": "all n", "why_tests_cant": "Enumeration complete and without repetitions for every n.", "anchors": ["comch/simplicial/simplicial.py:Simplicial"]}
{"id": "C27", "title": "Cubical boundary squares to zero", "statement": "x.boundary().boundary() == x.zero() for CubicalElement; boundary is additive, preserves arity and lowers degree by one.", "quantifier": "all cubical elements", "why_tests_cant": "d(d(x)) = 0 is an identity of signs for basis elements of every arity and degree and all linear combinations; a wrong sign can be invisible in low degree.", "anchors": ["comch/cubical/cubical.py:CubicalElement.boundary"]}
{"id": "C28", "title": "Koszul action on cubical elements", "statement": "Left action axioms and commutation with boundary for CubicalElement.", "quantifier": "all cubical elements, ring elements of equal arity", "why_tests_cant": "The Koszul sign of a permutation of graded factors has to be multiplicative for all permutations and all degree sequences.", "anchors": ["comch/cubical/cubical.py:CubicalElement.__rmul__"]}
{"id": "C29", "title": "Serre diagonal is a chain map", "statement": "For a non-zero homogeneous cubical element, iterated_diagonal(times, coord) is the iterated Serre diagonal of factor coord, extended linearly, and commutes with boundary (extended by zero).", "quantifier": "all homogeneous cubical elements, times, coord", "why_tests_cant": "Sign identity for cubes of every dimension.", "anchors": ["comch/cubical/cubical.py:CubicalElement.iterated_diagonal"]}
{"id": "C30", "title": "Coassociativity (cubical)", "statement": "Applying the iterated Serre diagonal to any of the factors it produced gives the iterated diagonal with the sum of the times.", "quantifier": "all homogeneous cubical elements", "why_tests_cant": "Infinite family of identities indexed by dimensions, times and factors.", "anchors": ["comch/cubical/cubical.py:CubicalElement.iterated_diagonal"]}
{"id": "C31", "title": "Join boundary formula", "statement": "On arity 2 elements whose basis elements are pairs of cubes of equal length: boundary(join(x)) + join(boundary(x)) is the sum of the second factors of the terms whose first factor is a vertex minus the sum of the first factors of the terms whose second factor is a vertex: the join is a chain homotopy between the two projections.", "quantifier": "all pairs of cubes of equal length and their linear combinations of one degree", "why_tests_cant": "The identity involves augmentations at special vertices and signs in every dimension.", "anchors": ["comch/cubical/cubical.py:CubicalElement.join"]}
{"id": "C32", "title": "Iterated join", "statement": "The join of a homogeneous element of arity n, on cubes of equal lengths in each basis element, is the left-iterated binary join, of arity 1 and degree raised by n - 1.", "quantifier": "all cubes of equal length, all k", "why_tests_cant": "Iteration for every n; the number of terms grows exponentially.", "anchors": ["comch/cubical/cubical.py:CubicalElement.join"]}
{"id": "C33", "title": "Cartan-Serre map is a chain map", "statement": "x.boundary().cartan_serre_map() == x.cartan_serre_map().boundary().", "quantifier": "all cubical elements of any arity", "why_tests_cant": "The Cartan-Serre map sums over permutations; the chain map identity needs cancellation of all interior faces in every dimension.", "anchors": ["comch/cubical/cubical.py:CubicalElement.cartan_serre_map", "comch/cubical/cubical.py:Cube.cartan_serre_map"]}
{"id": "C34", "title": "Barratt-Eccles boundary squares to zero", "statement": "x.boundary().boundary() == x.zero() for BarrattEcclesElement; additive, preserves arity, lowers degree by one.", "quantifier": "all Barratt-Eccles elements", "why_tests_cant": "d(d(x)) = 0 is an identity of signs for basis elements of every arity and degree and all linear combinations; a wrong sign can be invisible in low degree.", "anchors": ["comch/barratt_eccles/barratt_eccles.py:BarrattEcclesElement.boundary"]}
{"id": "C35", "title": "Barratt-Eccles symmetric action", "statement": "The group ring acts on BarrattEcclesElement by (a*b)*x == a*(b*x), unit, bilinear and commuting with boundary, where a product a*b has to be re-created first: the direct result of * is rejected with TypeError (C35_products_rejected); identities are between the operations extended by zero.", "quantifier": "all elements of equal arity and torsion", "why_tests_cant": "Identities between all ring elements and all chains; the rejection depends on the hidden type of keys.", "anchors": ["comch/barratt_eccles/barratt_eccles.py:BarrattEcclesElement.__rmul__"]}
{"id": "C36", "title": "Barratt-Eccles orbit", "statement": "orbit() replaces every basis element by the element of its orbit that starts with the identity (times the sign of its first entry for 'sign'; any other string acts as 'trivial'); it is idempotent, orbit(a*x) is the (twisted) augmentation of a times orbit(x), and the boundary is defined on orbits.", "quantifier": "all elements", "why_tests_cant": "Constancy on orbits quantifies over all permutations acting on all chains.", "anchors": ["comch/barratt_eccles/barratt_eccles.py:BarrattEcclesElement.orbit"]}
{"id": "C37", "title": "Barratt-Eccles composition is a chain map", "statement": "For homogeneous x (arity n1, degree p) and y (arity n2, degree q): x.compose(y, i) is the bilinear extension of the signed sum over lattice paths, has arity n1+n2-1 and degree p+q, is bilinear, and d(x o_i y) == dx o_i y + (-1)^p x o_i dy, with compositions extended by zero (the code raises TypeError on zero operands, C58).", "quantifier": "all homogeneous elements and positions", "why_tests_cant": "Signed sums over lattice paths / decompositions, whose number grows without bound; the Leibniz rule is a sign identity in all bidegrees and positions.", "anchors": ["comch/barratt_eccles/barratt_eccles.py:BarrattEcclesElement.compose"]}
{"id": "C38", "title": "Barratt-Eccles operad associativity", "statement": "Sequential and parallel associativity (with the Koszul sign) and unit laws of compose.", "quantifier": "all homogeneous elements and positions", "why_tests_cant": "Operad axioms for all triples, degrees and positions; the Koszul sign of parallel composition only matters in odd degrees.", "anchors": ["comch/barratt_eccles/barratt_eccles.py:BarrattEcclesElement.compose"]}
{"id": "C39", "title": "Table reduction is a chain map", "statement": "x.boundary().table_reduction() == x.table_reduction().boundary().", "quantifier": "all Barratt-Eccles elements", "why_tests_cant": "The chain map identity compares two exponentially large sums, for all arities and degrees.", "anchors": ["comch/barratt_eccles/barratt_eccles.py:BarrattEcclesElement.table_reduction"]}
{"id": "C40", "title": "Table reduction is equivariant", "statement": "(a*x).table_reduction() == a*(x.table_reduction()).", "quantifier": "all ring elements and Barratt-Eccles elements of equal arity", "why_tests_cant": "All permutations acting on all sequences of permutations.", "anchors": ["comch/barratt_eccles/barratt_eccles.py:BarrattEcclesElement.table_reduction"]}
{"id": "C41", "title": "Table reduction is an operad morphism", "statement": "(x o_i y).table_reduction() == x.table_reduction() o_i y.table_reduction().", "quantifier": "all homogeneous elements and positions", "why_tests_cant": "Two quite different sums (over paths and tables, over words) must agree in all bidegrees.", "anchors": ["comch/barratt_eccles/barratt_eccles.py:BarrattEcclesElement.table_reduction"]}
{"id": "C42", "title": "Alexander-Whitney diagonal of Barratt-Eccles", "statement": "diagonal(r) is the sum over all front/middle/back splittings, each with the coefficient of the basis element; it is coassociative.", "quantifier": "all elements and r", "why_tests_cant": "Sum over all splittings for every degree and every r.", "anchors": ["comch/barratt_eccles/barratt_eccles.py:BarrattEcclesElement.diagonal"]}
{"id": "C43", "title": "Barratt-Eccles complexity: what is returned", "statement": "complexity of a Barratt-Eccles element returns 0 for arity 1 or zero, and otherwise the largest degree of a basis element; this is an upper bound of the documented value (max over i<j of the number of changes of the order of i and j) and agrees with it in arity two. The documented value is FALSE in general (C43_complexity_refuted: ((1,2,3),(1,3,2),(3,1,2)) gives 2 instead of 1), because filter objects are compared by identity.", "quantifier": "all elements", "why_tests_cant": "Comparison with a maximum over all pairs, for all elements; agreement holds only in arity two.", "anchors": ["comch/barratt_eccles/barratt_eccles.py:BarrattEcclesElement.complexity"]}
{"id": "C44", "title": "May-Steenrod structure (Barratt-Eccles)", "statement": "may_steenrod_structure(r,0) is the identity; for r >= 2, n >= 1 the boundary of may_steenrod_structure(r,n) equals T (n odd) or N (n even) times may_steenrod_structure(r,n-1), and the element is non-zero of arity r and degree n. In arity one degree 2 raises TypeError; negative degrees never return.", "quantifier": "all r >= 2, all n >= 1, all torsions", "why_tests_cant": "Recursion over n, with intermediate elements that grow exponentially.", "anchors": ["comch/barratt_eccles/barratt_eccles.py:BarrattEccles.may_steenrod_structure"]}
{"id": "C45", "title": "Surjection boundary squares to zero", "statement": "x.boundary() is the signed sum of the words with one repeated entry deleted (Berger-Fresse or McClure-Smith sign), linear, squares to zero in both conventions (and for torsion 2 in any), lowers degree by one and preserves arity; with an unknown convention string and torsion other than 2 it is silently zero.", "quantifier": "all surjection elements, both conventions", "why_tests_cant": "Sign identity over all words of all lengths.", "anchors": ["comch/surjection/surjection.py:SurjectionElement.boundary"]}
{"id": "C46", "title": "Surjection symmetric action", "statement": "Left action axioms and commutation with boundary in both conventions.", "quantifier": "all surjection elements, ring elements of equal arity", "why_tests_cant": "All permutations acting on all words; in the McClure-Smith convention the sign depends on all multiplicities.", "anchors": ["comch/surjection/surjection.py:SurjectionElement.__rmul__"]}
{"id": "C47", "title": "Surjection orbit", "statement": "orbit() is constant on orbits (twisted by sign for 'sign'), idempotent, first occurrences increasing.", "quantifier": "all elements", "why_tests_cant": "Constancy on orbits quantifies over all permutations.", "anchors": ["comch/surjection/surjection.py:SurjectionElement.orbit"]}
{"id": "C48", "title": "Surjection composition is a chain map", "statement": "For x, y in the Berger-Fresse convention, or with torsion 2 in any convention: x.compose(y, i) is the bilinear extension of the composition of words (x and y may mix degrees, x may mix arities); if y mixes arities this still holds at the last position and TypeError is raised at the others; for homogeneous x, y it has arity n1+n2-1 and degree p+q, and d(x o_i y) == dx o_i y + (-1)^p x o_i dy; it is bilinear; in the McClure-Smith convention with other torsion it raises NotImplementedError on non-zero operands.", "quantifier": "all surjection elements and positions (homogeneous ones for the degree and the Leibniz rule)", "why_tests_cant": "Signed sums over lattice paths / decompositions, whose number grows without bound; the Leibniz rule is a sign identity in all bidegrees and positions.", "anchors": ["comch/surjection/surjection.py:SurjectionElement.compose"]}
{"id": "C49", "title": "Surjection operad associativity", "statement": "Sequential and parallel associativity (with Koszul sign) and unit laws of compose.", "quantifier": "all surjection elements of fixed arity and all positions (homogeneous ones for parallel associativity)", "why_tests_cant": "Operad axioms for all triples, degrees and positions; the Koszul sign of parallel composition only matters in odd degrees.", "anchors": ["comch/surjection/surjection.py:SurjectionElement.compose"]}
{"id": "C50", "title": "Simplicial action of surjections is a chain map", "statement": "For homogeneous s of arity r and degree d in the McClure-Smith convention and homogeneous x: s(x, coord) is the bilinear extension of cutting the factor coord into overlapping pieces, one per letter, and joining pieces with equal letters; it has arity n+r-1 and degree e+d; d(s(x)) == (ds)(x) + (-1)^d s(dx). Zero operands give zero; wrong coord or torsions raise TypeError; other conventions raise NotImplementedError.", "quantifier": "all homogeneous surjections, all simplicial elements, all coord", "why_tests_cant": "The operad action involves all decompositions of all simplices for all words; its sign is a quadratic expression in the dimensions of the pieces.", "anchors": ["comch/surjection/surjection.py:SurjectionElement.__call__"]}
{"id": "C51", "title": "Cubical action of surjections: formula, chain map mod 2", "statement": "s(x, coord) on cubical elements is, in every convention, the bilinear extension of the iterated Serre diagonal followed by the joins of the pieces with equal letters; it has arity n+r-1 and degree e+d and is bilinear; with torsion 2, d(s(x)) == (ds)(x) + s(dx) for every arity and degree. Over the integers the chain map identity is FALSE for the code (C51_refuted: (1,2,1,2,1) on the 3-cube, (2,1,2,1) in the McClure-Smith convention on the square, arity 3 on the interval).", "quantifier": "all homogeneous surjections, all cubical elements, all coord", "why_tests_cant": "The signs are right for all small cases a test would try (arity 2, degrees 0..2) and wrong later; mod 2 the identity has to be proved for all words and cubes.", "anchors": ["comch/surjection/surjection.py:SurjectionElement.__call__"]}
{"id": "C52", "title": "Suspension: formula, and where it fails", "statement": "In the Berger-Fresse convention suspension() is linear, is the documented signed truncation of words, lowers the length by arity - 1, and agrees with the boundary up to (-1)^(r-1) on the terms of full arity; nonhomogeneous elements raise TypeError, other conventions NotImplementedError, zero is returned. It does not preserve arity (C52_arity_refuted: (2,1) is sent to -(1)) and does not commute with composition (C52_compose_refuted).", "quantifier": "all homogeneous surjections", "why_tests_cant": "Formula for all words; the failure shows only for words whose truncation loses a letter.", "anchors": ["comch/surjection/surjection.py:SurjectionElement.suspension"]}
{"id": "C53", "title": "May-Steenrod structure (surjections)", "statement": "Surjection.may_steenrod_structure(r,0) is the identity; for r >= 2, n >= 1 its boundary is T (n odd) or N (n even) times that of n-1, in both conventions, and the element is non-zero of arity r and degree n. In arity one degree 2 raises TypeError; negative degrees never return.", "quantifier": "all r >= 2, n >= 1, torsions", "why_tests_cant": "Recursion over n, with intermediate elements that grow exponentially.", "anchors": ["comch/surjection/surjection.py:Surjection.may_steenrod_structure"]}
{"id": "C54", "title": "Complexity filtration of surjections", "statement": "complexity is the max over i<j of the number of alternations; boundary and the symmetric action do not increase it; it is at most degree+1.", "quantifier": "all surjection elements", "why_tests_cant": "Monotonicity of a maximum over all pairs of letters, for all words.", "anchors": ["comch/surjection/surjection.py:SurjectionElement.complexity", "comch/surjection/surjection.py:SurjectionElement.filtration"]}
{"id": "C55", "title": "Basis of the surjection complex", "statement": "For r >= 1, d >= 0 Surjection.basis(r,d) lists exactly once each non-degenerate surjection of arity r and degree d, with a complexity bound exactly those within it; arity + degree <= 0 fails; if default_torsion is 1 the list is empty.", "quantifier": "all r >= 1, d >= 0", "why_tests_cant": "Completeness and absence of repetitions for all arities and degrees.", "anchors": ["comch/surjection/surjection.py:Surjection.basis"]}
{"id": "C56", "title": "Partitions and decompositions", "statement": "partitions(n,k,a,b) yields exactly once each non-decreasing tuple (all tuples if ordered) of k integers in [a,b] summing to n; decompositions(x,k) yields exactly the splittings x[:i1+1],...,x[ik:] with i1<=..<=ik.", "quantifier": "all n, k>=1, bounds, all sequences", "why_tests_cant": "Completeness of recursive generators; for k <= 0 the recursion never ends, which cannot be observed.", "anchors": ["comch/utils/utils.py:partitions", "comch/utils/utils.py:decompositions"]}
{"id": "C57", "title": "Steenrod operation coefficients and degrees", "statement": "steenrod_operation(p,s,q,b) rejects bockstein at p = 2; is the zero element mod p below the documented range; for p = 2 is the element of degree s-q; for odd p, if q is even or q//2 + s >= 0 or m = (p-1)/2 <= 22, it is (-1)^s nu(q) mod p, with nu(q) as documented, times the May-Steenrod element of degree (2s-q)(p-1)-b, non-zero of arity p. In the remaining cases the coefficient goes through a float: for m <= 170 it is (-1)^(q//2+s) times the double nearest to m! (ties to even), which makes the documented formula FALSE (C57_float_refuted: p = 47); for m >= 171 it raises OverflowError, even below the range (C57_overflow: p = 347).", "quantifier": "all primes p, all ints s, q within the stated range", "why_tests_cant": "Modular arithmetic for all primes; the float error appears only for p >= 47.", "anchors": ["comch/surjection/surjection.py:Surjection.steenrod_operation", "comch/barratt_eccles/barratt_eccles.py:BarrattEccles.steenrod_operation"]}
{"id": "C58", "title": "Behaviour of operations on the zero element", "statement": "Unary operations send zero to zero; ring products and compositions, surjection composition and the surjection actions return zero when an operand is zero; symmetric actions accept two zeros. The naive expectation for the rest is FALSE: acting with or on one zero (C58_act_zero_refuted), Barratt-Eccles composition with zero (C58_compose_zero_refuted) and diagonals of zero (C58_diagonal_zero_refuted) raise TypeError.", "quantifier": "all operations, all torsions, all non-zero partners", "why_tests_cant": "All non-zero partners of the zero element; which branch runs depends on None arities.", "anchors": ["comch/barratt_eccles/barratt_eccles.py:BarrattEcclesElement.compose", "comch/simplicial/simplicial.py:SimplicialElement.iterated_diagonal", "comch/surjection/surjection.py:SurjectionElement.__rmul__"]}
{"id": "C59", "title": "One-reduction", "statement": "one_reduced is linear and idempotent and keeps exactly the terms without a factor of dimension 1. It is not compatible with the boundary (C59_boundary_compatible_refuted: the edge (0,1) is sent to zero but its boundary is kept).", "quantifier": "all simplicial elements", "why_tests_cant": "Linear identities for all chains.", "anchors": ["comch/simplicial/simplicial.py:SimplicialElement.one_reduced"]}
{"id": "C60", "title": "Distinct permutations", "statement": "distinct_permutations(it, r) terminates and yields every distinct r-permutation of the items exactly once (all permutations if r is not given), in increasing order.", "quantifier": "all finite sequences of comparable items", "why_tests_cant": "In-place next-permutation algorithm with while loops: termination and completeness for every multiset.", "anchors": ["comch/utils/utils.py:distinct_permutations"]}
{"id": "C61", "title": "Steenrod chains", "statement": "steenrod_chain(p,s,q,b,'simplex') is exactly the part of op(standard simplex) on the products of p simplices of dimension -q, where op = steenrod_operation(p,s,q,b) and the simplex has dimension -q-s (p=2) or -q-2s(p-1)+b (p odd); the coefficients are unchanged, everything else is dropped, negative dimension and below-range operations give zero; every cochain of degree -q takes the same value on it and on op(standard simplex). shape='cube' gives likewise the part of op(standard cube) on products of p cubes of dimension -q, when the dimension of the cube is not negative.", "quantifier": "p = 2 or any odd p >= 3, all ints s, q, all cochains of degree -q", "why_tests_cant": "The filter only looks at equality of dimensions inside a term; that it keeps exactly the terms of dimension -q depends on the degrees of all terms for all p, s, q.", "anchors": ["comch/surjection/surjection.py:Surjection.steenrod_chain"]}
{"id": "C62", "title": "Equivariance of the simplicial action", "statement": "(a*s)(x) == a*(s(x)): acting with an element a of the symmetric group ring on a surjection element s (McClure-Smith convention, any torsion) and then on chains is the same as permuting the tensor factors of s(x) with Koszul signs.", "quantifier": "all a in the group ring of arity r, all homogeneous s of arity r, all homogeneous chains x with one tensor factor, every torsion", "why_tests_cant": "Compares the sign of the action on words, the sign of the action on simplices and the Koszul sign for all permutations, words and decompositions.", "anchors": ["comch/surjection/surjection.py:SurjectionElement.__rmul__", "comch/surjection/surjection.py:SurjectionElement.__call__", "comch/simplicial/simplicial.py:SimplicialElement.__rmul__"]}
{"id": "C66", "title": "Steenrod operations send cocycles to cocycles", "statement": "For a cocycle alpha modulo p of degree m on a simplicial set and S = may_steenrod_structure(p,d) (or steenrod_operation(p,s,q,b)) the cochain c -> alpha^{(x)p}(S(c)) is a cocycle: its value on the boundary of every chain is 0 modulo p.", "quantifier": "p = 2 or any odd p >= 3, all degrees d, all simplicial sets, all cocycles, all chains", "why_tests_cant": "A statement about all cocycles on all simplicial sets; it combines the chain map property, the T/N relations and equivariance.", "anchors": ["comch/surjection/surjection.py:Surjection.may_steenrod_structure", "comch/surjection/surjection.py:Surjection.steenrod_operation", "comch/surjection/surjection.py:SurjectionElement.__call__"]}
{"id": "C64", "title": "Equivariance of operadic composition", "statement": "(sigma*x).compose(tau*y, sigma(i)) == (sigma.compose(tau, sigma(i))) * (x.compose(y, i)), for permutations, for surjection elements and for Barratt-Eccles elements.", "quantifier": "all permutations sigma, tau, all homogeneous x, y (surjections: Berger-Fresse convention, or torsion 2), all positions i, all torsions", "why_tests_cant": "An identity between sums over all ways of cutting words or over all lattice paths, for every arity and degree.", "anchors": ["comch/surjection/surjection.py:SurjectionElement.compose", "comch/surjection/surjection.py:SurjectionElement.__rmul__", "comch/barratt_eccles/barratt_eccles.py:BarrattEcclesElement.compose", "comch/barratt_eccles/barratt_eccles.py:BarrattEcclesElement.__rmul__", "comch/symmetric/symmetric.py:SymmetricGroupElement.compose", "comch/symmetric/symmetric.py:SymmetricGroupElement.__mul__"]}
{"id": "C65", "title": "Complexity filtration is a suboperad", "statement": "The complexity of x.compose(y, i) is at most the larger of the complexities of x and y, so the elements of complexity at most n are closed under composition (as the documentation of complexity claims).", "quantifier": "all homogeneous x, y (Berger-Fresse convention, or torsion 2), all positions, all n", "why_tests_cant": "A bound on a maximum over all pairs of letters of all terms of all composites.", "anchors": ["comch/surjection/surjection.py:SurjectionElement.complexity", "comch/surjection/surjection.py:SurjectionElement.compose"]}
{"id": "C63", "title": "The simplicial action is an operad action", "statement": "With torsion 2 (where both composition and the action work in the McClure-Smith convention): (x.compose(y, i))(c, coord) == y(x(c, coord), coord + i - 1). The same identity is FALSE for cubical chains, even with torsion 2 (C63_cubical_refuted: x = (1,2,1), y = (1,2), i = 1 on the square).", "quantifier": "all homogeneous surjection elements x, y of any arity and degree, all positions i, all homogeneous chains c with any number of factors, all coord", "why_tests_cant": "Two different families of decompositions of all simplices have to be matched, for all words and all positions.", "anchors": ["comch/surjection/surjection.py:SurjectionElement.compose", "comch/surjection/surjection.py:SurjectionElement.__call__"]}
{"id": "C67", "title": "Printing is faithful", "statement": "str(x) prints the terms of x in order, coefficient first, units not written, tuples without spaces, and never fails; two elements of a class print the same exactly if they have the same terms in the same order (so equal strings mean equal elements up to torsion), and only zero prints as 0.", "quantifier": "all elements of SimplicialElement, CubicalElement, SymmetricRingElement, SurjectionElement, BarrattEcclesElement, with any keys and coefficients", "why_tests_cant": "Injectivity of a function on all elements, through decimal expansion and string replacement.", "anchors": ["comch/free_module/free_module.py:FreeModuleElement.__str__", "comch/simplicial/simplicial.py:SimplicialElement.__str__", "comch/cubical/cubical.py:CubicalElement.__str__", "comch/symmetric/symmetric.py:SymmetricRingElement.__str__", "comch/surjection/surjection.py:SurjectionElement.__str__", "comch/barratt_eccles/barratt_eccles.py:BarrattEcclesElement.__str__", "comch/symmetric/symmetric.py:SymmetricGroupElement.__str__", "comch/simplicial/simplicial.py:Simplex.__str__", "comch/cubical/cubical.py:Cube.__str__"]}
{"id": "C68", "title": "LaTeX output", "statement": "x._latex_() prints every term with simplices as [0,1] and cubes as products of [0], [1], [01], factors joined by \\otimes: for simplicial elements whenever no key is a single vertex (a single vertex prints as [0,], which is a bug), for cubical elements whenever no printed coefficient contains the digits 0 or 1 (10 prints as the cube [1][0], which is a bug).", "quantifier": "all simplicial and cubical elements, any number of factors and any coefficients", "why_tests_cant": "The output of six to eleven string replacements on all strings of a given shape.", "anchors": ["comch/simplicial/simplicial.py:SimplicialElement._latex_", "comch/cubical/cubical.py:CubicalElement._latex_"]}
{"id": "C69", "title": "Both E-infinity complexes are acyclic", "statement": "If x is a homogeneous element of positive degree of the Barratt-Eccles or of the surjection complex (any arity, torsion, and either convention) with x.boundary() == 0, then there is an element y with y.boundary() == x; an element of degree 0 is a boundary if and only if the sum of its coefficients is 0 modulo the torsion.", "quantifier": "all arities, degrees, torsions and elements with boundary zero", "why_tests_cant": "Existence of a bounding element for every cycle; the space of cycles is infinite.", "anchors": ["comch/barratt_eccles/barratt_eccles.py:BarrattEcclesElement.boundary", "comch/surjection/surjection.py:SurjectionElement.boundary", "comch/surjection/surjection.py:Surjection.may_steenrod_structure"]}
{"id": "C70", "title": "Both E-infinity complexes are free over the group ring", "statement": "For a basis element x of arity n of the Barratt-Eccles or surjection complex, a * x == b * x implies a == b, for all elements a, b of the group ring: no permutation other than the identity fixes a basis element, and no two terms of a * x cancel.", "quantifier": "all arities, all basis elements, all pairs of group ring elements", "why_tests_cant": "Injectivity over all elements of the group ring.", "anchors": ["comch/barratt_eccles/barratt_eccles.py:BarrattEcclesElement.__rmul__", "comch/surjection/surjection.py:SurjectionElement.__rmul__"]}
{"id": "C71", "title": "Single cubes: intervals, faces, collapse", "statement": "intervals lists in increasing order exactly the positions of the entries 2, and dimension counts them; face(i, epsilon) replaces exactly the i-th interval (by 1 for epsilon 0 and 0 for epsilon 1), accepts exactly the indices -d..d-1 and raises IndexError otherwise; faces satisfy the cubical identities face(j,f).face(i,e) == face(i,e).face(j-1,f) for i<j; cartan_serre_map returns the positions of the intervals before the first 0 followed by the position of the first 0 (or the length).", "quantifier": "all cubes of every length, all indices, all epsilon", "why_tests_cant": "All lengths and positions; a boundary error only shows for some interval patterns.", "anchors": ["comch/cubical/cubical.py:Cube.intervals", "comch/cubical/cubical.py:Cube.face", "comch/cubical/cubical.py:Cube.cartan_serre_map"]}
{"id": "C72", "title": "arity and degree are exact", "statement": "x.arity is n exactly when x is not zero and every basis element has arity n, and None otherwise (the same for degree) for group ring, surjection and Barratt-Eccles elements; basis elements of x+y, x-y, -x, n*x occur in the operands, so sums and multiples of homogeneous elements are homogeneous.", "quantifier": "all elements with any number of terms, homogeneous or not", "why_tests_cant": "Elements have arbitrary many terms; an early return or set error shows only on mixed elements.", "anchors": ["comch/symmetric/symmetric.py:SymmetricRingElement.arity", "comch/surjection/surjection.py:SurjectionElement.arity", "comch/surjection/surjection.py:SurjectionElement.degree", "comch/barratt_eccles/barratt_eccles.py:BarrattEcclesElement.arity", "comch/barratt_eccles/barratt_eccles.py:BarrattEcclesElement.degree"]}
{"id": "C73", "title": "Permutations act on every class of elements", "statement": "For a permutation g and an element x of arity n (simplicial, cubical, surjection in both conventions, Barratt-Eccles), g * x is the signed relabelling of every term, (g*h)*x == g*(h*x) and identity*x == x; on the zero element it raises TypeError (unless torsion is 1).", "quantifier": "all arities n >= 1, all permutations, all elements of arity n, all torsions", "why_tests_cant": "The set of elements (supports, integer coefficients, torsions) is infinite; tests sample a handful.", "anchors": ["comch/symmetric/symmetric.py:SymmetricGroupElement.__mul__"]}
{"id": "C74", "title": "Steenrod operations are linear maps on cohomology", "statement": "For a prime p, a cycle c modulo p and S = steenrod_operation(p,s,q,b) (or may_steenrod_structure(p,d)), the value of alpha^{(x)p} on S(c) modulo p is additive in the cocycle alpha, multiplies by n when alpha is multiplied by n, and does not change when a coboundary is added to alpha; together with C66 the code computes a well-defined linear operation on cohomology.", "quantifier": "all primes p, all degrees, all simplicial sets, all cocycles and cochains on them, all cycles", "why_tests_cant": "A statement about all cocycles and cycles of all simplicial sets; the tensor power itself is not additive, so it holds only because of the equivariance and the T/N relations of the coded elements.", "anchors": ["comch/surjection/surjection.py:Surjection.may_steenrod_structure", "comch/surjection/surjection.py:Surjection.steenrod_operation", "comch/surjection/surjection.py:SurjectionElement.__call__"]}
{"id": "C75", "title": "Cup-i products: first Steenrod operations", "statement": "The word (1,...,r) acts on simplicial chains as iterated_diagonal(r-1, coord). may_steenrod_structure(2,d) is +- the alternating word 1212... of length d+2 (exact sign given), which sends a d-simplex s to (-1)^(d(d-1)/2) s (x) s and every simplex of smaller dimension to 0. Hence steenrod_operation(2,0,-m) does not change the value of an m-cochain mod 2 (Sq^0 = id), operations that lower the degree vanish, and the top operation (s=q for p=2, 2s=q for odd p) is the p-fold cup power.", "quantifier": "every r, d, m, every chain of single simplices of the dimension, every cochain, both conventions where stated, every default torsion dividing the torsion", "why_tests_cant": "the closed form holds for every degree; tests compute a few small degrees only", "anchors": ["comch/surjection/surjection.py:SurjectionElement.__call__", "comch/surjection/surjection.py:Surjection.may_steenrod_structure", "comch/surjection/surjection.py:Surjection.steenrod_operation", "comch/simplicial/simplicial.py:SimplicialElement.iterated_diagonal"]}
{"id": "C76", "title": "Cartan-Serre map: compatible with diagonals and with the operad action", "statement": "CubicalElement.cartan_serre_map commutes with iterated_diagonal(times, coord) on both sides, with the exact signs. With coefficients mod 2 it commutes with the action x(y, coord) of every McClure-Smith surjection element. For every torsion the image of x(y) is (eps x)(image of y), where eps is the constant comparison sign of the words of x, for words of arity at least three and for words of arity at most two without a letter that occurs three times; (1,2,1,2,1) on the 4-cube shows that the restriction is needed.", "quantifier": "every cubical chain of cubes of every length, arity and degree, every number of times, every coord, every homogeneous surjection element, every torsion and admissible default torsion", "why_tests_cant": "the comparison involves all cubes and all words; tests check no compatibility between the cubical and the simplicial side", "anchors": ["comch/cubical/cubical.py:CubicalElement.cartan_serre_map", "comch/cubical/cubical.py:CubicalElement.iterated_diagonal", "comch/simplicial/simplicial.py:SimplicialElement.iterated_diagonal", "comch/surjection/surjection.py:SurjectionElement.__call__"]}
{"id": "C77", "title": "Cubical cup-i products: coboundary formula, equivariance, closed forms, no operad action", "statement": "On cubical chains the word (1,...,r) acts as iterated_diagonal(r-1, coord). The action stays inside every face-closed set of cubes. Mod 2 it is equivariant: (a*s)(x) == a*s(x) for every group ring element a. may_steenrod_structure(2,d) kills cubes of dimension less than d and sends a cube s of dimension d to s (x) s mod 2. Mod 2, for all cochains a, b and chains c of cubes, Steenrod's formula holds: (a u_d b)(boundary c) = (da u_d b)(c) + (a u_d db)(c) + (a u_(d-1) b)(c) + (b u_(d-1) a)(c), and the Leibniz rule for d = 0. The action is not an operad action, not even mod 2: for (1,2,1), (1,2) and the square, (x o_1 w)(y) is not w acting on the first factor of x(y).", "quantifier": "every chain of cubes of every length and dimension, every pair of cochains, every d, both conventions, every default torsion admissible for 2, every face-closed set of cubes", "why_tests_cant": "the formula quantifies over all cochains and all cubes; tests compute single products", "anchors": ["comch/surjection/surjection.py:SurjectionElement.__call__", "comch/surjection/surjection.py:Surjection.may_steenrod_structure", "comch/cubical/cubical.py:CubicalElement.boundary", "comch/cubical/cubical.py:CubicalElement.iterated_diagonal"]}
{"id": "C78", "title": "Steenrod squares and cup products on cubical cochains mod 2", "statement": "Let X be a set of cubes closed under faces and S = steenrod_operation(2, s, q) with s >= q. For a cochain a that is a cocycle mod 2 on X, a (x) a vanishes on S(boundary c) for every chain c of X; on cycles the value of a (x) a on S(c) is additive in a and unchanged when a is changed by a coboundary. steenrod_operation(2,0,-m) is the identity on m-cochains (Sq^0), operations with s-q larger than the dimension vanish and s = q gives the cup square. The cup product of cocycles (value on iterated_diagonal) depends on a cycle only on the classes and is commutative.", "quantifier": "every face-closed set of cubes, every cocycle and coboundary, every chain and cycle of every dimension, every s, q with s >= q, every default torsion admissible for 2", "why_tests_cant": "cohomology operations are statements about all cocycles, coboundaries and cycles; tests evaluate single cochains", "anchors": ["comch/surjection/surjection.py:Surjection.steenrod_operation", "comch/surjection/surjection.py:SurjectionElement.__call__", "comch/cubical/cubical.py:CubicalElement.boundary", "comch/cubical/cubical.py:CubicalElement.iterated_diagonal"]}
{"id": "C79", "title": "The attribute dimension, and attributes in every history", "statement": "SimplicialElement(data, dimension, torsion) sets the attribute dimension to the argument when there are no data or the argument is given and non-zero; otherwise to the largest vertex occurring in the data, and to -1 when no vertex occurs. No later sequence of operations changes an attribute other than the torsion of an existing element, and every element produced from x (create, zero, +, -, *, /, in-place operations, set_torsion) carries the attributes of x, whatever its data.", "quantifier": "every data argument, every dimension argument, every heap and every history of operations of every length", "why_tests_cant": "a test checks the attribute of a few objects after a few operations; stability is about all histories and all aliasing patterns", "anchors": ["comch/simplicial/simplicial.py:SimplicialElement.__init__", "comch/free_module/free_module.py:FreeModuleElement.create"]}
{"id": "C80", "title": "Signed cup-i products of simplicial cochains over every ring", "statement": "Let S_d = may_steenrod_structure(2, d) and write (a u_d b)(c) for the value of a (x) b on S_d(c). For all normalised cochains a, b of degrees m, n and all chains c over Z or Z/t: (da u_d b)(c) + (-1)^m (a u_d db)(c) = (-1)^d (a u_d b)(boundary c) + (-1)^d (a u_(d-1) b)(c) + (-1)^(mn) (b u_(d-1) a)(c). The cup product given by iterated_diagonal satisfies the graded Leibniz rule; on cycles its value for cocycles is graded commutative and depends only on the cohomology classes, and the cup-d product of cocycles is symmetric up to sign.", "quantifier": "all cochains, all chains of all dimensions on all simplicial sets, every d, every torsion including 0, every default torsion and convention", "why_tests_cant": "the identities quantify over all cochains and chains and over all coefficient rings; tests fix small examples, mostly mod 2", "anchors": ["comch/surjection/surjection.py:Surjection.may_steenrod_structure", "comch/surjection/surjection.py:SurjectionElement.__call__", "comch/simplicial/simplicial.py:SimplicialElement.boundary", "comch/simplicial/simplicial.py:SimplicialElement.iterated_diagonal"]}
{"id": "C81", "title": "Table reduction compares the two May-Steenrod structures", "statement": "The table reduction of may_steenrod_structure(n, d) of the Barratt-Eccles operad is may_steenrod_structure(n, d) of the surjection operad in the Berger-Fresse convention, and the table reduction of steenrod_operation(p, s, q) is steenrod_operation(p, s, q) of the surjection operad.", "quantifier": "every arity n, every degree d, every prime p, all s, q, with and without Bockstein, every torsion and default convention", "why_tests_cant": "both sides are recursively built elements whose number of terms grows exponentially with n and d; tests compare a few small cases", "anchors": ["comch/barratt_eccles/barratt_eccles.py:BarrattEcclesElement.table_reduction", "comch/barratt_eccles/barratt_eccles.py:BarrattEccles.may_steenrod_structure", "comch/surjection/surjection.py:Surjection.may_steenrod_structure", "comch/barratt_eccles/barratt_eccles.py:BarrattEccles.steenrod_operation"]}
{"id": "C82", "title": "The complexity filtration of the Barratt-Eccles operad", "statement": "Count for a basis element how often the relative order of two letters changes. The boundary produces only basis elements in which no pair of letters changes its order more often than in one of the basis elements of the argument; the action renames the letters; for every m the elements in which no pair changes its order more than m times are closed under composition; in the words of the table reduction two letters alternate at most once more than they change their order, so the complexity of the table reduction is at most the complexity of the argument plus one.", "quantifier": "all elements of all arities and degrees, all permutations, all composition indices, every m, every torsion", "why_tests_cant": "filtration statements bound every basis element of every result; tests look at a few results", "anchors": ["comch/barratt_eccles/barratt_eccles.py:BarrattEcclesElement.complexity", "comch/barratt_eccles/barratt_eccles.py:BarrattEcclesElement.compose", "comch/barratt_eccles/barratt_eccles.py:BarrattEcclesElement.table_reduction", "comch/surjection/surjection.py:SurjectionElement.complexity"]}
{"id": "C83", "title": "Cartan formula for Steenrod squares", "statement": "Let Sq^k(a) be the cochain s -> value of a (x) a on steenrod_operation(2, -k, -m)(s) for a cochain a of degree m, and a u b the cochain s -> value of a (x) b on the diagonal of s, both modulo 2. Both are defined for all cochains and are cochains of degree m+k and m+n. For cocycles a, b modulo 2 on a simplicial set X, Sq^k(a u b) and the sum of Sq^i(a) u Sq^(k-i)(b) over 0 <= i <= k have the same value on every cycle of X: the Cartan formula holds for the operations that the code computes.", "quantifier": "all simplicial sets, all cocycles of all degrees modulo 2, all k, all cycles", "why_tests_cant": "The two sides differ by a non-zero coboundary on chains; equality on all cycles of all simplicial sets needs a homotopy between two compositions of surjections", "anchors": ["comch/surjection/surjection.py:Surjection.steenrod_operation", "comch/surjection/surjection.py:Surjection.may_steenrod_structure", "comch/surjection/surjection.py:SurjectionElement.__call__", "comch/simplicial/simplicial.py:SimplicialElement.iterated_diagonal"]}
{"id": "C84", "title": "Cochain algebra of the cup product", "statement": "Let a u b be the cochain s -> value of a (x) b on the diagonal that iterated_diagonal computes for s, with coefficients in Z or Z/t. For cochains of degrees m, n it is the cochain of degree m+n with value a(v_0..v_m) b(v_m..v_(m+n)) on v_0..v_(m+n). The product is associative on cochains, not only on cohomology; the cochain with value 1 on each vertex is a two-sided unit; and the coboundary is a derivation: d(a u b) = da u b + (-1)^m a u db.", "quantifier": "all coefficients, all cochains of all degrees, all simplices", "why_tests_cant": "Associativity and the derivation rule are identities between cochains on all simplices of every dimension, with arbitrary values", "anchors": ["comch/simplicial/simplicial.py:SimplicialElement.iterated_diagonal", "comch/simplicial/simplicial.py:SimplicialElement.boundary"]}
{"id": "C85", "title": "Naturality under maps of the vertices", "statement": "Every map f of vertices takes chains of tensors of simplices to chains (relabel, add up coinciding terms, drop terms that become degenerate). The image is unique up to ==, functorial and linear, and it commutes with boundary, iterated_diagonal, the action of the symmetric ring, one_reduced and the action x(y) of every element of the surjection operad, hence with every cup-i product and Steenrod operation computed by the code. On cochains f^* commutes with the coboundary, the cup product over every coefficient ring and the Steenrod squares on the nose.", "quantifier": "all maps Z -> Z of vertices, all chains, all surjection elements, all coefficients, all cochains", "why_tests_cant": "Quantifies over all maps of vertices, including those that collapse simplices, and all chains", "anchors": ["comch/simplicial/simplicial.py:SimplicialElement.boundary", "comch/simplicial/simplicial.py:SimplicialElement.iterated_diagonal", "comch/simplicial/simplicial.py:SimplicialElement.__rmul__", "comch/simplicial/simplicial.py:SimplicialElement.one_reduced", "comch/surjection/surjection.py:SurjectionElement.__call__", "comch/surjection/surjection.py:Surjection.steenrod_operation"]}
{"id": "C86", "title": "Bocksteins and top powers", "statement": "The operations with bockstein=True are Bocksteins: for an odd prime p, if c is the reduction modulo p of an integral chain C with boundary(C) == p * C', then the value of the tensor power of a cocycle on steenrod_operation(p, s, q, True)(c) is minus its value on steenrod_operation(p, s, q)(c'), c' the reduction of C', and the Bockstein of steenrod_operation(p, s, q, True) is zero. For p = 2, Sq^1 Sq^(2k) = Sq^(2k+1) and Sq^1 Sq^(2k+1) = 0 in this sense. The operation with q = 2s (p odd) or q = s (p = 2) acts as iterated_diagonal(p - 1): it is the p-th cup power, with coefficient exactly 1.", "quantifier": "all primes, all subscripts and degrees, all simplicial sets, all cocycles modulo p, all integral chains", "why_tests_cant": "Quantifies over all simplicial sets, cocycles, cycles and their integral lifts and over all primes and degrees", "anchors": ["comch/surjection/surjection.py:Surjection.steenrod_operation", "comch/surjection/surjection.py:Surjection.may_steenrod_structure", "comch/surjection/surjection.py:SurjectionElement.__call__", "comch/simplicial/simplicial.py:SimplicialElement.boundary", "comch/simplicial/simplicial.py:SimplicialElement.iterated_diagonal"]}
{"id": "C87", "title": "P^0 is the identity", "statement": "For an odd prime p and m >= 0, steenrod_operation(p, 0, -m) sends every chain of m-simplices modulo p to the sum of the p-th tensor powers of its simplices, with the same coefficients up to the sign (-1)^(m(p-1)/2); so the value of an m-cochain is multiplied by this sign only, which says that the factor nu(q) in the code is the right normalisation. may_steenrod_structure(p, d) itself sends an e-simplex to its tensor power with coefficient (-1)^((p-1)/2 * (e//2)) * ((p-1)/2)!^e when d = e(p-1), and to zero when d > e(p-1); operations that lower the degree are zero.", "quantifier": "all odd primes p, all degrees m, e, d, all chains of single simplices modulo p, all cochains; for the first claim the coefficient must be computed exactly (see C57)", "why_tests_cant": "The coefficient is a sum over all summands of the structure element, whose number grows exponentially with p and m; it must be right for every prime and degree", "anchors": ["comch/surjection/surjection.py:Surjection.steenrod_operation", "comch/surjection/surjection.py:Surjection.may_steenrod_structure", "comch/surjection/surjection.py:SurjectionElement.__call__"]}
{"id": "C88", "title": "Steenrod operations commute with connecting homomorphisms (stability)", "statement": "Let A be a simplicial set, alpha an m-cochain whose coboundary is zero mod p on A, and c a chain mod p whose boundary lies in A (a relative cycle). With P = steenrod_operation(p, s, -m) and P' = steenrod_operation(p, s, -m-1), the value of P' on the coboundary of alpha at c equals the value of P on alpha at boundary(c), up to the sign (-1)^((p-1)/2) when p is odd. For p = 2 the same holds for cubical cochains and chains. For may_steenrod_structure itself, p odd and d even, S_(d+p-1) on the coboundary of alpha at c is (-1)^(m(p-1)/2) ((p-1)/2)! times S_d on alpha at boundary(c).", "quantifier": "all primes p, all s and m, all simplicial (for p = 2 also cubical) sets A, all cochains alpha that are cocycles on A, all relative cycles c; for odd p the two coefficients must be computed exactly (see C57)", "why_tests_cant": "It relates two different operations through an arbitrary cochain and an arbitrary relative cycle, and has to hold for every prime and degree", "anchors": ["comch/surjection/surjection.py:Surjection.steenrod_operation", "comch/surjection/surjection.py:Surjection.may_steenrod_structure", "comch/surjection/surjection.py:SurjectionElement.__call__", "comch/simplicial/simplicial.py:SimplicialElement.boundary", "comch/cubical/cubical.py:CubicalElement.boundary"]}
{"id": "C89", "title": "Copies and the other operations inherited from Counter", "statement": "x.copy(), copy.copy(x), copy.deepcopy(x) and a pickle round trip return the element with the same coefficients in the ring of the class default: they are reduced modulo default_torsion if that is not 0, and the torsion (and the convention of surjections) is reset to the default. With default torsion 0 the copy is equal (==) to x, but x + copy raises TypeError exactly when the torsion of x is not the default. x.update(y) and x.subtract(y) change the counts by exact integer addition and subtraction without normalising; a normalisation afterwards gives the results of += and -=. +x, x | y and x & y are the positive part, maximum and minimum (cut at 0) of the integer coefficients; over Z/n, +x has the items of x. x |= y and x &= y do the same in place and keep normal forms. x <= y, x < y, x >= y, x > y compare all coefficients as integers, and over Z (not over Z/n) the order is kept by addition. x.elements() lists each key as often as its coefficient if that is positive; x.total() is the sum of the coefficients, additive modulo the torsion.", "quantifier": "all classes of elements, all well-formed elements, all torsions and class defaults", "why_tests_cant": "The inherited methods accept every element of every class, ring and class default", "anchors": ["comch/free_module/free_module.py:FreeModuleElement", "comch/free_module/free_module.py:FreeModuleElement.__init__", "comch/surjection/surjection.py:SurjectionElement.__init__"]}
{"id": "C90", "title": "repr of elements: order, faithfulness and round trip", "statement": "repr(x) (what an interactive session shows) is ClassName() for zero and otherwise ClassName({key: coefficient, ...}) with the items sorted from the highest to the lowest coefficient and ties in insertion order; this order is unique. Two elements of a class have the same repr exactly when for every integer v the items with coefficient v are the same in the same order, so elements with the same repr are equal (the converse fails, and the torsion is not shown). Evaluating the repr gives an element equal to x if the class default torsion is 0 or the torsion of x, in general an element equal to x.copy().", "quantifier": "all well-formed elements of the five classes", "why_tests_cant": "It is about the text and the re-evaluation for every element, including all coefficients, orders and key lengths", "anchors": ["comch/free_module/free_module.py:FreeModuleElement", "comch/symmetric/symmetric.py:SymmetricRingElement", "comch/simplicial/simplicial.py:SimplicialElement", "comch/cubical/cubical.py:CubicalElement", "comch/surjection/surjection.py:SurjectionElement", "comch/barratt_eccles/barratt_eccles.py:BarrattEcclesElement"]}
{"id": "C91", "title": "Adem relations for Steenrod squares", "statement": "Let Sq^k(a) be the cochain s -> value of a (x) a on steenrod_operation(2, -k, -m)(s) for a cochain a of degree m modulo 2. For a cocycle a modulo 2 on a simplicial set X and 0 <= r < 2 s, Sq^r(Sq^s(a)) and the sum over 0 <= i <= r/2 of C(s - i - 1, r - 2 i) Sq^(r+s-i)(Sq^i(a)) have the same value on every cycle of X: the Adem relations hold for the operations that the code computes. In particular Sq^(2s-1) Sq^s = 0. The value of a square of a square is always defined and does not depend, modulo 2, on the representative of the inner square.", "quantifier": "all simplicial sets, all cocycles of all degrees modulo 2, all 0 <= r < 2 s, all cycles", "why_tests_cant": "The two sides differ by a non-zero coboundary on chains; equality on all cycles of all simplicial sets needs a homotopy, for all r and s, between iterated compositions of surjections", "anchors": ["comch/surjection/surjection.py:Surjection.steenrod_operation", "comch/surjection/surjection.py:Surjection.may_steenrod_structure", "comch/surjection/surjection.py:SurjectionElement.__call__", "comch/simplicial/simplicial.py:SimplicialElement.boundary"]}
{"id": "C92", "title": "Objects in a program using the whole API", "statement": "A program makes objects of the element classes (symmetric ring, simplicial, cubical, surjection, Barratt-Eccles, tensor) and calls their methods in any order, catching exceptions. (1) A call on existing objects returns an object with exactly the value computed from the operands' values, or raises the same exception: no result depends on which objects were built before, on sharing, or on temporaries. (2) No call changes an existing object except += and -= (their left operand) and set_torsion. (3) The answer is a new object, except for +=, -=, set_torsion and for join(), suspension() and Barratt-Eccles orbit() of a zero element, which return the operand itself. (4) Answers of most methods share the attribute dictionary of one operand (given by a table): q.set_torsion(t) changes the torsion of p exactly when p and q inherited their attributes, call by call, from the same constructor call; the answers of constructors, table_reduction, diagonal, cartan_serre_map, orbit of a non-zero Barratt-Eccles element and ** 0 have attributes of their own.", "quantifier": "all histories of calls, including those that raise; all operands of all classes; every method that returns an element", "why_tests_cant": "Aliasing shows only in long histories: an answer that shares state with an operand behaves correctly until one of them is changed in place", "anchors": ["comch/free_module/free_module.py:FreeModuleElement.__init__", "comch/free_module/free_module.py:FreeModuleElement.create", "comch/free_module/free_module.py:FreeModuleElement.zero", "comch/free_module/free_module.py:FreeModuleElement.set_torsion", "comch/symmetric/symmetric.py:SymmetricRingElement.__mul__", "comch/simplicial/simplicial.py:SimplicialElement.boundary", "comch/cubical/cubical.py:CubicalElement.join", "comch/surjection/surjection.py:SurjectionElement.__call__", "comch/surjection/surjection.py:SurjectionElement.suspension", "comch/barratt_eccles/barratt_eccles.py:BarrattEcclesElement.orbit", "comch/barratt_eccles/barratt_eccles.py:BarrattEcclesElement.table_reduction"]}
{"id": "C93", "title": "Hopf structure of the Barratt-Eccles operad", "statement": "The diagonal, as its documentation claims, defines a Hopf structure. (1) It is a chain map to the tensor power: the boundary of diagonal(r) of x equals the diagonal(r) of the boundary of x in the normalised tensor power. (2) It is a map of operads: (x.compose(y, i)).diagonal() is the composition, factor by factor and with the Koszul sign, of x.diagonal() and y.diagonal(). (3) It is equivariant: (g * x).diagonal(r) is g acting on all the factors of x.diagonal(r). (4) It is counital: the augmentation of the first or of the second factor of x.diagonal() gives back x. (Coassociativity is C42.)", "quantifier": "all elements of all arities and degrees, all torsions, all positions of composition, all permutations; all r for (1) and (3)", "why_tests_cant": "The diagonal and the composition are separate loops over splittings and over lattice paths; their compatibility is the statement that the shuffle map is a map of coalgebras, an identity of signed sums in all degrees", "anchors": ["comch/barratt_eccles/barratt_eccles.py:BarrattEcclesElement.diagonal", "comch/barratt_eccles/barratt_eccles.py:BarrattEcclesElement.compose", "comch/barratt_eccles/barratt_eccles.py:BarrattEcclesElement.boundary", "comch/barratt_eccles/barratt_eccles.py:BarrattEcclesElement.__rmul__"]}
{"id": "C94", "title": "Table reduction is onto, on every stage of the filtration, and a quasi-isomorphism", "statement": "Every Berger-Fresse surjection element y of arity n and degree d, over Z or Z/t, is x.table_reduction() for a Barratt-Eccles element x of the same arity, degree and torsion; x can be chosen so that every basis element of x belongs to a basis element of y that has, for every pair of letters, one switch more than the number of times the pair changes its order in x: every stage of the complexity filtration is mapped onto the corresponding stage, and a basis element is the reduction of one basis element. If y.boundary() == 0 then x can be chosen with x.boundary() == 0; and a cycle x of the Barratt-Eccles operad is a boundary if and only if x.table_reduction() is one. So the table reduction is a surjective quasi-isomorphism in every arity (it is not injective: an example is given).", "quantifier": "every arity n >= 1, every degree, every torsion, all elements", "why_tests_cant": "Tests apply the table reduction to a few elements; the existence of preimages, for words of every length, is a claim about all elements", "anchors": ["comch/barratt_eccles/barratt_eccles.py:BarrattEcclesElement.table_reduction", "comch/barratt_eccles/barratt_eccles.py:BarrattEcclesElement.boundary", "comch/surjection/surjection.py:SurjectionElement.boundary"]}
{"id": "C95", "title": "Equal elements are interchangeable, and insertion order is irrelevant", "statement": "Two well-formed elements are equal (==) exactly when they have the same terms, in any order. If x == x', y == y' (with the same torsion and convention) then every operation gives equal results: sums, differences, multiples, quotients, set_torsion, comparison; products and compositions in the group ring; boundary, iterated_diagonal, one_reduced, join, cartan_serre_map, orbit, suspension, diagonal, table_reduction; the action of the group ring on all classes; compositions in both operads; the action of surjections on simplicial and cubical elements; and the attributes arity, degree, complexity and filtration agree. The exceptions are the known ones of C18: a product p of group ring elements is equal to an element b of the constructor, but compose and the action on Barratt-Eccles elements accept b and raise for p.", "quantifier": "all pairs of equal elements in the domain of the operation (stated for each), all torsions and insertion orders", "why_tests_cant": "Elements are dictionaries that remember the insertion order and the methods loop over them; a test fixes one order of insertion", "anchors": ["comch/free_module/free_module.py:FreeModuleElement.__add__", "comch/symmetric/symmetric.py:SymmetricRingElement.__mul__", "comch/simplicial/simplicial.py:SimplicialElement.boundary", "comch/cubical/cubical.py:CubicalElement.join", "comch/surjection/surjection.py:SurjectionElement.compose", "comch/barratt_eccles/barratt_eccles.py:BarrattEcclesElement.table_reduction"]}
{"id": "C96", "title": "Which integer arguments are accepted, and what out-of-range arguments do", "statement": "x.iterated_diagonal(times, coord) on an element of arity n and one degree raises TypeError if coord > n, IndexError if coord < 1 - n, and accepts 1 - n <= coord <= n; an element without a single arity and degree is rejected with TypeError. Negative coordinates count from the end: coord is coord + n. coord = 0 is not rejected: the last factor is split and the whole tensor is appended, so the answer has arity 2 n + times and degree 2 d. A negative times raises ValueError for simplicial elements; for cubical elements it applies the counit to the factor. Applying a surjection element to an element without a single arity and degree raises TypeError and to one of arity n with coord < 1 - n raises IndexError. x.compose(y, i) of non-zero group ring or surjection elements raises ValueError unless 1 <= i <= arity of x, and is zero for every i if x or y is zero. simplex.face(i) and degeneracy(i) never raise: for 0 <= i <= dim they are the face and degeneracy, for -dim-1 <= i <= -2 they count from the end, for i = -1 they return a wrong simplex (s without its last vertex followed by s; the last vertex), otherwise s itself.", "quantifier": "all integers times, coord, position and index; all elements", "why_tests_cant": "The behaviour depends on negative slices and on loops that may not run; a test tries some integers", "anchors": ["comch/simplicial/simplicial.py:SimplicialElement.iterated_diagonal", "comch/cubical/cubical.py:CubicalElement.iterated_diagonal", "comch/surjection/surjection.py:SurjectionElement.__call__", "comch/surjection/surjection.py:SurjectionElement.compose", "comch/symmetric/symmetric.py:SymmetricRingElement.compose", "comch/simplicial/simplicial.py:Simplex.face", "comch/simplicial/simplicial.py:Simplex.degeneracy"]}
{"id": "C97", "title": "Arity two: the stages of the complexity filtration are spheres", "statement": "In arity 2 and degree d the nonzero basis elements of both operads are two: the alternating words of length d + 2 (the alternating simplices with d + 1 vertices). A nonzero surjection element of arity 2 and degree d has complexity d + 1, a Barratt-Eccles one has complexity d. The cycles of degree d >= 1 are exactly the integer multiples of the boundary of may_steenrod_structure(2, d + 1), and the multiple by c is zero exactly if the torsion divides c. So the elements of complexity at most m have the homology of a sphere of dimension m - 1 (surjection) or m (Barratt-Eccles): nothing above, cycles strictly between bottom and top degree bound inside the stage, degree 0 detects the sum of coefficients, and in the top degree nothing but zero bounds inside the stage.", "quantifier": "every stage m, every degree, every torsion other than 1, both sign conventions, every element", "why_tests_cant": "A wrong complexity, a wrong sign or a missing term of the boundary changes the homology of some stage; tests compute a few boundaries, not all cycles.", "anchors": ["comch/surjection/surjection.py:SurjectionElement.complexity", "comch/surjection/surjection.py:SurjectionElement.boundary", "comch/surjection/surjection.py:Surjection.may_steenrod_structure", "comch/barratt_eccles/barratt_eccles.py:BarrattEcclesElement.complexity", "comch/barratt_eccles/barratt_eccles.py:BarrattEcclesElement.boundary", "comch/barratt_eccles/barratt_eccles.py:BarrattEccles.may_steenrod_structure"]}
{"id": "C98", "title": "Tensor powers of simplices and cubes have the homology of a point", "statement": "In the tensor powers of the chains of the standard simplex of every dimension, of every cone (a set of simplices with all faces to which a vertex v can be added in front), and of the standard cube of every dimension, the method boundary has the homology of a point: an element of positive degree whose boundary is zero is the boundary of an element of the same complex, and an element of degree 0 is a boundary exactly if the torsion divides the sum of its coefficients.", "quantifier": "every dimension, number of factors, degree, torsion and element; every cone", "why_tests_cant": "A wrong sign or face in boundary for tensor products changes the homology for some number of factors or dimension although the square may still be zero; tests see a few boundaries only.", "anchors": ["comch/simplicial/simplicial.py:SimplicialElement.boundary", "comch/cubical/cubical.py:CubicalElement.boundary"]}
{"id": "C99", "title": "The cup-1 product: Steenrod's formula, the Hirsch formula and the pre-Lie identity", "statement": "Write a u_1 c for the cochain that the code computes from cochains a and c through Surjection.may_steenrod_structure(2, 1, convention='McClure-Smith') acting on simplices. On a simplex of dimension m + n - 1 it is the signed sum over i < m of a(v_0...v_i v_(i+n)...) c(v_i...v_(i+n)), and nothing else. It satisfies, on the nose and not only up to homotopy, the Hirsch formula (a u b) u_1 c = (-1)^m a u (b u_1 c) + (-1)^(np) (a u_1 c) u b, and its associator (a u_1 b) u_1 c + (-1)^m a u_1 (b u_1 c) is symmetric in b and c up to the sign -(-1)^(np): a graded pre-Lie product. may_steenrod_structure(2, 0) gives the cup product of the diagonal.", "quantifier": "all normalised cochains of all degrees on all simplices, every torsion except 1, every default torsion compatible with it, every default convention", "why_tests_cant": "The identities quantify over all cochains of all degrees; they depend on the signs of the action of the word (1, 2, 1) and of may_steenrod_structure at once, and one wrong sign cancels in low degrees.", "anchors": ["comch/surjection/surjection.py:SurjectionElement.__call__", "comch/surjection/surjection.py:Surjection.may_steenrod_structure", "comch/simplicial/simplicial.py:SimplicialElement.iterated_diagonal"]}
{"id": "C100", "title": "All cup-i products of simplicial cochains: Steenrod's formula, degree, vanishing and coboundary", "statement": "For every i >= 0 the cochain a u_i b that the code computes through Surjection.may_steenrod_structure(2, i, convention='McClure-Smith') acting on simplices is Steenrod's signed sum over the cuts of a simplex into i + 2 pieces; it is a normalised cochain of degree m + n - i; it is 0 if i exceeds the degree of a or of b; for m = n = i it is the product of the values up to a sign that depends only on n; and (-1)^i d(a u_i b) = da u_i b + (-1)^m a u_i db - (-1)^i a u_(i-1) b - (-1)^(mn) b u_(i-1) a as cochains.", "quantifier": "all i, all normalised cochains of all degrees on all simplices, every torsion except 1, every default torsion compatible with it, every default convention", "why_tests_cant": "The formula has a number of terms and signs that grows with i and the degrees; vanishing for large i is a statement about infinitely many i that no finite set of calls can settle.", "anchors": ["comch/surjection/surjection.py:Surjection.may_steenrod_structure", "comch/surjection/surjection.py:SurjectionElement.__call__", "comch/simplicial/simplicial.py:SimplicialElement.iterated_diagonal"]}
{"id": "C101", "title": "The Cartan-Serre map is onto and a quasi-isomorphism", "statement": "For every m, r and d the method cartan_serre_map sends the tensor products of r faces of the cube of dimension m, of total degree d, to combinations of tensor products of r faces of the simplex of dimension m, of total degree d. It is onto: every element there is the image of a cubical element with the same coefficients; every cycle is the image of a cycle; a cubical cycle is a boundary if and only if its image is a boundary; the standard element of the cube goes to the standard element of the simplex.", "quantifier": "every dimension, number of factors, degree, torsion, compatible default torsion, and element", "why_tests_cant": "A chain map can pass every test on small cubes and still miss some faces of simplices or kill a homology class in higher dimension; surjectivity and quasi-isomorphism are statements about all elements at once.", "anchors": ["comch/cubical/cubical.py:Cube.cartan_serre_map", "comch/cubical/cubical.py:CubicalElement.cartan_serre_map", "comch/cubical/cubical.py:CubicalElement.boundary", "comch/simplicial/simplicial.py:SimplicialElement.boundary"]}
{"id": "C102", "title": "The surjection operad contains the brace operations", "statement": "For every n the surjection 1 2 1 3 1 ... (n+1) 1 is a basis element of arity n + 1, degree n and complexity 2. In the Berger-Fresse convention: its boundary deletes its letters 1 with alternating signs; the faces are, up to renumbering arguments, the brace of one argument less composed with the product (1, 2): inner faces multiply neighbouring arguments, outer faces multiply from the left and the right (so an algebra over the operad is a homotopy G-algebra). compose(y, 1) applied to the brace distributes the new letters, in order, over all letters of y in all ways, with the sign of the caesuras they jump over. The brace of a product is the sum of the products of braces.", "quantifier": "every arity, every torsion, every element y of a fixed arity", "why_tests_cant": "the number of terms grows without bound with the arity; tests evaluate a few small arities", "anchors": ["comch/surjection/surjection.py:SurjectionElement.compose", "comch/surjection/surjection.py:SurjectionElement.boundary", "comch/surjection/surjection.py:SurjectionElement.complexity", "comch/symmetric/symmetric.py:SymmetricGroupElement.__mul__"]}
{"id": "C103", "title": "Reduction of coefficients commutes with every operation", "statement": "Computing over the integers (or modulo n) and reducing the answer modulo m with set_torsion gives an element equal to the one computed from the reduced arguments, for every m dividing the torsion: the constructor and create; boundary, iterated_diagonal, one_reduced, join, cartan_serre_map; orbit, suspension, diagonal, table_reduction; products, compositions and actions of group ring elements; compositions in the surjection and Barratt-Eccles operads; the action of surjection elements on simplicial and cubical elements. An operation that needs a non-zero argument needs its reduction to be non-zero.", "quantifier": "all elements, every m dividing the torsion (every m for integral elements), every compatible default torsion, the domain of each operation", "why_tests_cant": "A torsion dropped in one branch, or a coefficient reduced too early or by the wrong number, is invisible whenever the coefficients of the test are 1 or -1; the statement needs all coefficients and all moduli.", "anchors": ["comch/free_module/free_module.py:FreeModuleElement.set_torsion", "comch/simplicial/simplicial.py:SimplicialElement.boundary", "comch/simplicial/simplicial.py:SimplicialElement.iterated_diagonal", "comch/simplicial/simplicial.py:SimplicialElement.one_reduced", "comch/cubical/cubical.py:CubicalElement.boundary", "comch/cubical/cubical.py:CubicalElement.join", "comch/cubical/cubical.py:CubicalElement.cartan_serre_map", "comch/surjection/surjection.py:SurjectionElement.boundary", "comch/surjection/surjection.py:SurjectionElement.__call__", "comch/surjection/surjection.py:SurjectionElement.compose", "comch/surjection/surjection.py:SurjectionElement.suspension", "comch/barratt_eccles/barratt_eccles.py:BarrattEcclesElement.table_reduction", "comch/barratt_eccles/barratt_eccles.py:BarrattEcclesElement.compose", "comch/symmetric/symmetric.py:SymmetricRingElement.compose"]}
{"id": "C104", "title": "Operations at different tensor factors are independent", "statement": "For factors i < j of a tensor: applying an operation at factor i and then one at factor j (whose number is now larger by the number of factors added) gives the same as applying them in the other order, with the sign (-1)^(d d') for operations of degrees d and d'. The operations are iterated_diagonal(times, coord), extended by zero, and s(x, coord) for surjection elements s, in all combinations, on simplicial elements (McClure-Smith convention) and on cubical elements (every convention).", "quantifier": "all factors i < j <= arity, all times, all homogeneous surjection elements of all arities and degrees, all homogeneous simplicial and cubical elements, every torsion, every compatible default torsion", "why_tests_cant": "Tests apply operations to single simplices or at coord 1; a wrong sign from the factors in front, or a wrong slice of the factors behind, shows only for operations of odd degree behind factors of odd degree, for which there are infinitely many shapes.", "anchors": ["comch/simplicial/simplicial.py:SimplicialElement.iterated_diagonal", "comch/cubical/cubical.py:CubicalElement.iterated_diagonal", "comch/surjection/surjection.py:SurjectionElement.__call__"]}
{"id": "C105", "title": "Tensor products of elements", "statement": "For simplicial (and likewise cubical) elements x of arity n and degree e and y of arity m, let x (x) y be the element built by passing the pairwise concatenated keys with the products of the coefficients to the constructor. Then boundary(x (x) y) = boundary(x) (x) y + (-1)^e x (x) boundary(y); iterated_diagonal and a surjection element s of degree d applied at a factor of x act on x, and at factor n + i they act on y at factor i, with the sign (-1)^(e d); the permutation exchanging the two blocks of factors sends x (x) y to (-1)^(|x||y|) y (x) x; the product is associative; and cartan_serre_map(x (x) y) = cartan_serre_map(x) (x) cartan_serre_map(y).", "quantifier": "all homogeneous elements x, y (z) of all arities and degrees, every torsion, every compatible default torsion, all factors, all times, all homogeneous surjection elements", "why_tests_cant": "Tests use keys with one or two factors; the sign of the factors in front and the slices of the factors behind have to be right for every number of factors, which examples of small arity cannot show.", "anchors": ["comch/simplicial/simplicial.py:SimplicialElement.boundary", "comch/simplicial/simplicial.py:SimplicialElement.iterated_diagonal", "comch/simplicial/simplicial.py:SimplicialElement.__rmul__", "comch/cubical/cubical.py:CubicalElement.boundary", "comch/cubical/cubical.py:CubicalElement.iterated_diagonal", "comch/cubical/cubical.py:CubicalElement.cartan_serre_map", "comch/surjection/surjection.py:SurjectionElement.__call__"]}
{"id": "C106", "title": "The join is associative", "statement": "For cubical elements x of arity n and degree d and y of arity m, all of whose cubes have the same length, join(x (x) y) = (-1)^((m - 1)(d + n)) join(join(x) (x) join(y)), where (x) is the tensor product built with the constructor. For elements x, y, z of arity 1, join(join(x (x) y) (x) z) = -(-1)^|x| join(x (x) join(y (x) z)).", "quantifier": "all cube lengths, all arities n, m >= 1, all homogeneous elements on cubes of that length, every torsion, every compatible default torsion", "why_tests_cant": "The join of three and more cubes runs over increasing tuples of positions with several vanishing conditions and an accumulated sign; associativity is a statement about all tuples of cubes of all lengths.", "anchors": ["comch/cubical/cubical.py:CubicalElement.join"]}
{"id": "C107", "title": "Naturality under maps of cubes", "statement": "Inserting a fixed coordinate 0 or 1 at a place into every cube of a chain (the inclusion of a face), and deleting a coordinate from every cube (a projection; tensors in which the deleted entry is an interval go to 0), are linear maps that commute with the boundary, with every iterated diagonal, with the action of the symmetric ring, with the join and with the action of every element of the surjection operad under either sign convention: so the cubical cup-i products and Steenrod operations computed by the code do not depend on the cube in which a chain is placed. The projection undoes the face inclusion at the same place, and on cochains the pull back commutes with the coboundary and with the products of pairs of cochains defined by elements of arity two.", "quantifier": "every place, both end points, every projection, all homogeneous cubical elements of every arity, degree and dimension, all elements of the surjection operad, every torsion, every compatible default torsion", "why_tests_cant": "Naturality compares runs of the code on different cubes, for all cubes, all operations and all maps; a test covers one cube and one map.", "anchors": ["comch/cubical/cubical.py:CubicalElement.boundary", "comch/cubical/cubical.py:CubicalElement.iterated_diagonal", "comch/cubical/cubical.py:CubicalElement.join", "comch/cubical/cubical.py:CubicalElement.__rmul__", "comch/surjection/surjection.py:SurjectionElement.__call__"]}
{"id": "C108", "title": "Homologous elements of the surjection operad act homotopically", "statement": "Let u and u' be elements of the surjection operad of the same arity and degree d, with zero boundary, and in degree 0 with the same sum of coefficients modulo the torsion. Then there is one element h of degree d+1, which does not depend on the chain, such that for every simplicial element x, of every arity and degree, and every coordinate, d(h(x)) + (-1)^d h(dx) == u(x) - u'(x). The same holds for cubical elements with coefficients modulo 2 in every sign convention. In particular all elements of degree 0 with the same sum of coefficients (all permutations of the iterated diagonal) agree up to a boundary on cycles, by a boundary that one element of the operad computes.", "quantifier": "all arities, all degrees, all pairs of elements with these properties, all chains, coordinates, torsions and compatible default torsions", "why_tests_cant": "The homotopy is one element that has to work for all chains at once, for every pair of elements.", "anchors": ["comch/surjection/surjection.py:SurjectionElement.__call__", "comch/surjection/surjection.py:SurjectionElement.boundary"]}
{"id": "C109", "title": "Diagonals are counital and detect boundaries", "statement": "(1) Counit laws. Augmenting any one of the times + 1 factors that iterated_diagonal(times, coord) makes of the factor coord of a simplicial element (a vertex in that place is dropped, every term with a simplex of positive dimension there goes to zero) gives iterated_diagonal(times - 1, coord) of the element; in particular, for one cut, the augmentation of either of the two factors gives the element back. The same holds for cubical elements, where the augmentation of factor i is also what the call iterated_diagonal(-1, i) computes (C96). (2) Hence diagonals lose nothing on homology: over every simplicial complex, an element of a tensor power of its chains is a boundary (of an element over the complex) if and only if its iterated diagonal is a boundary over the complex; the same over every cubical complex.", "quantifier": "all simplicial and cubical elements of every arity and degree, all torsions, all numbers of cuts, all factors; (2) all simplicial complexes and all cubical complexes with decidable sets of cells, finite or not", "why_tests_cant": "The counit laws involve the cancellation of all the other terms of the diagonal of an arbitrary element; the second part quantifies over all elements, all complexes and all possible bounding elements.", "anchors": ["comch/simplicial/simplicial.py:SimplicialElement.iterated_diagonal", "comch/cubical/cubical.py:CubicalElement.iterated_diagonal", "comch/simplicial/simplicial.py:SimplicialElement.boundary", "comch/cubical/cubical.py:CubicalElement.boundary"]}
{"id": "C110", "title": "Exactness of the periodic resolution", "statement": "For n at least 2 and torsion other than 1, let T and N be transposition_element(n) and norm_element(n). In the group ring (products T * x, N * x), and in every degree of the Barratt-Eccles complex and of the surjection complex in both conventions (actions T * x, N * x), the periodic sequence ... T, N, T, N ... that SymmetricRing builds for May-Steenrod structures is exact, over every torsion: T * x is zero if and only if x == N * y for an element y of the same arity, degree, torsion and convention, and N * x is zero if and only if x == T * y for such an element y. Consequently x is invariant under rotation_element(n) (rho * x == x) if and only if it is a norm, x == N * y. In arity 1 this fails, because transposition_element(1) is minus the identity.", "quantifier": "all arities n >= 2, all degrees, all torsions other than 1 (prime or not), both conventions, all elements x", "why_tests_cant": "That the products vanish can be sampled; that nothing else is killed is a statement about all elements, with y to be found in an infinite set.", "anchors": ["comch/symmetric/symmetric.py:SymmetricRing.transposition_element", "comch/symmetric/symmetric.py:SymmetricRing.norm_element", "comch/symmetric/symmetric.py:SymmetricRingElement.__mul__", "comch/surjection/surjection.py:SurjectionElement.__rmul__", "comch/barratt_eccles/barratt_eccles.py:BarrattEcclesElement.__rmul__"]}
{"id": "C111", "title": "Equivariant sequences (May-Steenrod structures) exist and are unique up to equivariant homotopy", "statement": "Let n be at least 2 and the torsion not 1. Call psi(0), ..., psi(N) an equivariant sequence up to N when psi(d) is an element of arity n and degree d of the surjection operad (either convention) or of the Barratt-Eccles operad and the boundary of psi(d+1) is N * psi(d) (d+1 even) or T * psi(d) (d+1 odd), N = norm_element(n), T = transposition_element(n). Existence: every element of degree 0 is psi(0) of an equivariant sequence up to N, for every N. Uniqueness: for two equivariant sequences psi, psi' up to N of the same operad, torsion and convention there are elements h(0), ..., h(N), h(d) of degree d+1, with psi(0) - psi'(0) == d(h(0)) and psi(d+1) - psi'(d+1) == d(h(d+1)) + (N or T) * h(d), if and only if psi(0) and psi'(0) have the same sum of coefficients modulo the torsion. In particular may_steenrod_structure(n, d), d = 0, 1, ..., is an equivariant sequence up to every N, and an equivariant sequence is homotopic to it if and only if the coefficients of psi(0) sum to 1 modulo the torsion.", "quantifier": "all arities n >= 2, all torsions other than 1 and compatible default torsions, both conventions, all equivariant sequences, all N", "why_tests_cant": "The theorem compares what the code computes with every other sequence with the same property; the homotopies have to be constructed in every degree.", "anchors": ["comch/surjection/surjection.py:Surjection.may_steenrod_structure", "comch/barratt_eccles/barratt_eccles.py:BarrattEccles.may_steenrod_structure", "comch/symmetric/symmetric.py:SymmetricRing.transposition_element", "comch/symmetric/symmetric.py:SymmetricRing.norm_element"]}
