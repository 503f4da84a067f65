# Formal model of ammedmar/comch in Coq 8.16.1

This file is generated by `tools/mkdesign.py` from `tools/design_head.md`, `tools/how.py` and `MANIFEST.json`
(the first version was written before the proofs). Build: `cd rocq && coq_makefile -f _CoqProject -o Makefile && make -j4`.

## 1. Files

| kind | files |
|---|---|
| model (definitions only, each with a comment citing file and lines) | `PyBase`, `Dict`, `FreeModule`, `Symmetric`, `Simplicial`, `Cubical`, `Utils`, `Surjection`, `BarrattEccles`, `Heap`, `Printing`, `GroupMul`, `SimpDim`, `Repr`, `HeapApi`, `World`, `Inherited` (methods of `collections.Counter` that comch inherits) |
| validation of the model | `DocExamples`: the docstring examples and unit tests of /repo, computed by the kernel |
| specifications (definitions only, independent of the model's helpers) | `Spec`, `SpecChain`, `SpecCube`, `SpecOperad`, `SpecSurj`, `SpecAction`, `SpecCubAction`, `SpecSusp`, `SpecSteenrod`, `SpecCochain`, `SpecUtils`, `SpecPrint`, `SpecRepr`, `SpecAttr`, `SpecCup`, `SpecCone`, `SpecCartan`, `SpecCubCup`, `SpecSimpCup`, `SpecSquares`, `SpecAdem`, `SpecObjects`, `SpecHopf`, `SpecCupAlg`, `SpecNat`, `SpecUniq`, `SpecBock`, `SpecMixed`, `SpecCong`, `SpecArgs`, `SpecHirsch`, `SpecCupi`, `SpecBrace`, `SpecTensor`, `SpecCubNat`, `SpecCounit` |
| proof libraries | `*Facts`, `Eqm`, `Tensor*`, `AW`, `EZ`, `SurjCompose*`, `TableFacts*`, `*Act*`, ... |
| proofs of the properties | `*Laws*.v`: tagged lemmas `CNN_..._l` |
| property theorems | `P_*.v`, generated by `tools/mkprop.py`: `Theorem CNN_name : statement. Proof. exact @CNN_name_l. Qed. Print Assumptions CNN_name.`; examples next to them show that concrete non-trivial inputs meet the hypotheses |

## 2. How the code is modelled

* Exceptions are values: `res A := Ok a | Err e`, one constructor per Python exception class that the modelled code can
  raise (explicitly or implicitly, e.g. IndexError, `max(())` -> ValueError, `None` arithmetic -> TypeError).
  `Diverges` is the value returned when the fuel of a `while` loop is exhausted; theorems about these functions either show
  that it is not returned, or that it is returned for every amount of fuel.
* `for` loops are `for_` (state threaded through, exception aborts), generators are the lists of the values they yield.
* `int` is `Z`; tuples and lists are lists; negative indices, slices, `insert`, `index`, `count` follow Python (`py_get`, `slice`, ...).
* `Counter`/`dict` is the association list of its items in insertion order; `==` of counters compares items, not order.
* Elements: `mkElt data torsion attr` (`attr` is the convention of surjection elements, `tt` otherwise). The four overridden
  `preferred_rep` methods are one generic function with the class-specific degeneracy test.
* The class attributes `default_torsion` (`dt`) and `default_convention` (`dc`) are explicit arguments of every function.
* `SymmetricGroupElement` is a subclass of `tuple`; keys of ring elements are tagged `SGE`/`Tup`, because products have plain
  tuples as keys and methods are looked up on the class (C18).
* Object identity and sharing of `__dict__` are modelled in `Heap.v` (C08: the free module), `HeapApi.v` and `World.v` (C92:
  every method of every class that returns an element); elsewhere an element is its value. `C92_answers` connects both: calls
  on objects give what the value model computes, in every history.
* Floats occur once (`(-1) ** negative` in the Steenrod coefficient): IEEE double, round half to even, overflow (`float_of_int`).

### Simplifications (also stated in the comments of the definitions)
* Arguments have the documented types: ints where ints are expected, tuples of ints as keys. What happens for floats, strings
  or user-defined objects as coefficients is not modelled.
* A Python `set` is iterated in an unspecified order; the model uses the order of first insertion (affects only the order of
  items of dictionaries, which `==` ignores).
* `hash` is an arbitrary function of the set of keys.
* Recursion limits and memory are unbounded.
* `combinations_with_replacement`, `permutations`, `product`, `combinations` of itertools and `math.factorial` are modelled by
  their documented result lists.

### Not modelled
Module-level imports, type annotations and docstrings, the notebooks and the test-suite (docstring examples and tests are used to
validate the model), `__init__` of the tuple subclasses (they do nothing),
and `FreeModuleElement.__str__` for keys other than tuples of ints.
Every other function of comch/ is modelled (110 functions; a script comparing `ast` line ranges with the citations was used).

## 3. Proof method

An element is a finite formal sum; a functional `g : key -> Z` that vanishes on degenerate keys evaluates it (`ev g x`). Every
loop "answer += create({k: v})" is shown to add `v * g k` modulo the torsion for every such `g`; so each API function is
characterised by a dual operator `F* g k`. Identities such as d(d x) = 0 become identities between dual operators on a
single basis element, proved by induction on the tuple with `g` generalised. Two canonical elements with equal evaluation for
all `g` are `==` (`same`). For formulas, `gives` says that the result is canonical and has, on every non-degenerate key, the coefficient
of a specification list modulo the torsion.

`dt_ok dt t` (the hypothesis on default_torsion) is 0, the initial value, or a multiple of t; C09 explains why it is needed.

## 4. Trusted base

* Coq's kernel (8.16.1), including `vm_compute` in examples and refutations.
* `Print Assumptions` of every theorem in MANIFEST.json prints "Closed under the global context": no axioms are used. (The
  standard library files loaded transitively by Coq contain seven axioms, all in `Coq.ssr.ssrunder.Under_rel`: `Under_rel`,
  `Under_rel_from_rel`, `Under_relE`, `under_rel_done`, `Over_rel`, `over_rel`, `over_rel_done`; no theorem uses them.)
* No admitted proofs, no own axioms, no functors or module types, no plugins.
* The reading of the Python source in the model files, checked only by the examples in `DocExamples.v` and by the citations.
* The reading of the English properties in the Spec files.

## 5. Findings about the code

Theorems named `*_refuted` prove the negation of an expectation that the documentation or mathematics suggests:

1. `set_torsion` also changes the torsion of other objects: results share `__dict__` with their first operand (C08).
2. `create` reduces with `default_torsion` before the element's torsion: elements of other torsion are wrong if it is set (C09).
3. `SymmetricRing.transposition_element(1)` is not 0 but -(1); `norm_element` needs torsion other than 1 (C16).
4. `SymmetricRingElement.__pow__` is only right for single permutations (C17); products have plain tuples as keys and cannot be
   used as factors of some later operations (C18); `__mul__` does not check arities; `to_cycles` loops forever on non-permutations (C12).
5. Barratt-Eccles `complexity` compares filter objects by identity and returns the degree (C43).
6. Actions on or by zero, Barratt-Eccles composition with zero, and diagonals of zero raise TypeError (C58).
7. `suspension` changes the arity and is not compatible with composition (C52).
8. The cubical action is a chain map modulo 2 only: over the integers it fails for (1,2,1,2,1) on the 3-cube in the Berger-Fresse
   convention, for (2,1,2,1) in the McClure-Smith convention on the square and in arity 3 on the interval (C51). It ignores the
   convention, and is not compatible with composition even modulo 2 (C63).
9. The coefficient of `steenrod_operation` passes through a float: wrong for p >= 47, OverflowError for (p-1)/2 >= 171 (C57).
10. `may_steenrod_structure(1, n)` raises TypeError for n >= 2; negative degrees never return (C44, C53).
11. `Surjection.compose` checks neither torsion nor arity; position > arity is a ValueError; McClure-Smith composition is
    NotImplemented except for torsion 2; an unknown convention gives UnboundLocalError; the boundary with an unknown convention is
    silently zero (C45, C48).
12. `orbit` of Barratt-Eccles accepts any representation string (treated as sign); the surjection version raises TypeError (C47).
13. `basis` is empty when `default_torsion` is 1 (C55).
14. The simplicial action in the Berger-Fresse convention raises NotImplementedError even for torsion 2, but not on zero operands (C50).
15. `one_reduced` is not compatible with the boundary (C59).
16. `_latex_` of a simplicial element prints a single vertex with a stray comma (`[0,]`); of a cubical element it turns the digits 0
    and 1 of coefficients into cubes (10 prints as `[1][0]`), and prints zero as the vertex `[0]` (C68).
17. `Cube.face(i, epsilon)` substitutes 1 - epsilon, not epsilon as its docstring says (C71).
18. `steenrod_chain(..., shape='cube')` uses the 0-cube when the dimension would be negative, so `steenrod_chain(2, 1, 1, shape='cube')`
    is not zero while the simplicial one is (C61).
19. The signs of the cubical action of words of arity two with a letter that occurs three times, e.g. `(1,2,1,2,1)`, do not match those of
    the simplicial action along the Cartan-Serre map, not even up to a constant sign (C76); mod 2, and in arity at least three up to a constant
    sign, they match.
20. The action of surjection elements on cubical chains is not an operad action, not even mod 2 (C77): for `x = (1,2,1)`, `w = (1,2)` and the
    square, `x.compose(w, 1)(y)` differs from `w(x(y), coord=1)`. It is a chain map and (mod 2) equivariant, which is what the squares need.
21. `SimplicialElement.dimension` is the largest vertex of the data, not a dimension, is set by the constructor only and shared by `create`, so
    the boundary, sums and multiples of `x` show the `dimension` of `x` even when it is wrong for their data (C79).
