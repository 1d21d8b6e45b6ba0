# Formal model of CTL in Rocq (Coq 8.16.1)

The model is in `rocq/theories`. `properties.jsonl` lists the claims, `MANIFEST.json`
maps each claim to theorems, `seeded/LOG.jsonl` records wrong-program experiments.

## 1. Trusted base

* Coq's kernel (type checker, `vm_compute`).
* `Print Assumptions` is run below every property theorem.  Section 5 lists the result.
* The reading of the Python source that the model encodes.  Every model definition cites
  the file and lines it models and states its simplifications.
* numpy: `copy`, `reshape`, `moveaxis`, `matmul`, `multiply.outer`, `einsum` (only the
  diagonal-view and axis-sum strings CTL builds), `sum`, `zeros`, `ones`, `trace`,
  `diag_indices` are modelled by their documented meaning on row-major arrays.
* Numbers: array entries live in an arbitrary commutative semiring (proved once, for all of
  them).  Floating point rounding, dtypes and overflow are **not** modelled.
* Randomness (`random_sample`, `random.choice`) is an arbitrary stream; theorems hold for all.

### Modelled
| source | model file | left out |
|---|---|---|
| `funcs/funcs.py` 36-267, 312-326, 575-750, 822-863, 1079-1361 (the pure helpers used by modelled code) | FuncsModel, StringSetModel, IsingModel, SvdModel | see "Not modelled" |
| `funcs/graph.py`, `funcs/graphFuncs.py` | GraphModel | DirectedGraph, drawing |
| `funcs/stringSet.py` | StringSetModel | |
| `tensor/leg.py`, `bond.py`, `tensor.py`, `diagonalTensor.py` | HeapModel, TensorModel | `norm`, `complementIndices` variants not called elsewhere, dtype handling, `__str__` |
| `tensor/contract/link.py`, `contract.py` | ContractModel, SvdModel (merge) | |
| `tensor/contract/tensorGraph.py` | SearchModel, GraphModel, NetGraphModel, TextModel | networkx drawing |
| `tensor/contract/optimalContract.py` | NetGraphModel, ContractModel | |
| `tensornetwork/*.py` | FtnModel | |
| `models/Ising.py` 11-139 | SquareIsingModel | a weight that is neither a float nor a sequence |
| `models/Ising.py` 141-162 | ExactMModel | rounding and overflow; numpy numbers as arguments |
| `models/Ising.py` 163-310 | IsingModel | |
| `examples/Schimdt.py` | SvdModel | |
| `examples/MPS.py` 1-252 | MpsModel, CanonModel | `inplace=False` |
| `examples/MPS.py` 487-544 | MpsCreateModel | a negative chi |
| `examples/MPS.py` 325-485, 546-580 | MpsContractModel | a chi that is not a natural number |
| `tensor/contract/contractExp.py` 1-315, `tensor/tensorFactory.py` | NetsModel | |
| `tensor/contract/contractExp.py` 317-330 (selfTrace) | SelfTraceModel | |
| `examples/MPS.py` 255-259 (copyOfTensors) | MpsCopyModel | |
| `examples/MPS.py` 261-323 (makeRandomMPS) | RandomMpsModel | n is a natural number (a negative n raises like 0); dimensions are an int or a list; the random numbers come from the stream of the heap |
| `examples/TNR.py` 20-74 | TnrModel | |
| `funcs/funcs.py` 801-820, 865-898, 923-1016 | HelperModel (floatEqual, floatRelativeEqual: FuncsModel) | floats are exact rationals; a zero in partialInverse raises, as for Python floats (numpy gives inf); partialInverse only for cutoff >= 0 |
| `funcs/funcs.py` 328-482, 713-727, 1127-1148, 1263-1313 | MeasureModel | exact real matrices, so conjugation is the identity; diagError and symmetricError of square matrices only; dtypes are a kind and an item size; the warning of getDiffError is left out |
| `funcs/decompose.py` 5-53, `examples/TRG.py` 109-206 (SquareTRG) | TrgModel | `returnSV=True`, a negative chi; the object after an exception; singular values, root, norm, division, conjugation and logarithm are arbitrary functions |
| `examples/TRG.py` 16-107 (TriangleTRG) | TriTrgModel | a negative chi; the object after an exception; alpha is not stored; numerical functions as in TrgModel |
| `funcs/linalg.py` 4-29, `examples/HOTRG.py` 17-187 | HotrgModel | a negative chi or index; the object after an exception; eigh, threshold test, subtraction and comparison of floating point numbers are arbitrary functions |
| `examples/impurity.py` 10-98 | ImpurityModel | a negative highestOrder; the object after an exception; the RG is a HOTRG object and is stored as it is when setRG is called |
| `tensor/tensorFunc.py` 1-39 | CanonModel | the norm in checkIdentity is an arbitrary test, conjugation an arbitrary map |
| `tensor/tensorFunc.py` 41-114, `examples/CTMRG.py` | CtmrgModel | a negative chi, order or L; `preserveLegs`, which the code sets to False itself; the object after an exception; singular values, norm, division, logarithm and exponential are arbitrary functions |

Files without "Model" in their name hold no model code: `*Spec.v` is the vocabulary of the
property statements, `*Proofs.v` (and Sums, Lists, Strings, Enc, Num, ...) are proofs, `*Props.v` hold the
property theorems only, each with `Print Assumptions` and an example that meets its hypotheses.

### Not modelled
Warnings and printing (`__str__`, `__repr__`, `typeName`, `errorMessage`, `warningMessage`,
`deprecatedFuncWarning`), dtypes of tensors (`deduceDataType`, `isFloatTensor`; only `priorDataType`
is modelled), `None` leg dimensions outside the text parser, the cupy back end (`setXP`),
`tensorNetworkGraph` (networkx), the numerics of `TNR.py` (`doTNR`, `TensorUpdateSVD`),
`FullCTMRG.py` (commented out), `toVector`, `shapeOfIndex`, `shapeOfIndices`, `labelInTensor`,
`TensorDict.deleteTensor`, `tensorCount`, and of `funcs.py` `triangleWeight`, `loadData`,
`getNewString`, `randomArray`, `isRealNumber`.  The tests are not modelled.

## 2. Model shape

* **Objects.**  Legs, bonds and tensors are heap records addressed by numbers (object
  identity).  A method is a function `heap -> heap * result`, where a result is a value or an
  exception; the heap survives an exception, so partial mutation is visible.
* **Arrays.**  shape (list of nat) plus row-major list of entries.
* **Meaning.**  The specification never mentions toMatrix/moveaxis: a tensor denotes a function
  from *leg assignments* (leg -> index) to numbers, a network denotes the sum over its internal
  bonds of the product of its tensors.
* **Search.**  Bit masks are Python integers (Z); memo tables are state; loops are fuelled and the
  fuel is proved sufficient (or, for non-termination, proved insufficient whatever it is).

## 3. Plan per property

| id | modelled | proof |
|----|----------|-------|
| C01 | moveLegsToFront, moveLabelsToFront, reArrange, numpy.moveaxis | entry equality through an index bijection for any permutation |
| C02 | toMatrix, listDifference, compareLists | ravel/unravel arithmetic on concatenated shapes |
| C03 | outProduct (Tensor and TensorLike) | same, plus reshape lemma |
| C04 | sumOutLeg dense/diagonal, sumOnAxis | finite sums |
| C05 | trace | C02 plus sums |
| C06 | Tensor constructor (deduction) | case analysis; invariant of the result |
| C07 | DiagonalTensor constructor | invariant holds outside one branch; refutation on that branch |
| C08 | copy, toTensorLike | frame theorem over operation lists |
| C09 | renameLabel(s) | list induction, refutation for swaps |
| C10 | addTensorTag/removeTensorTag | string induction |
| C11 | getLegsByLabel, generateIndices | loop invariant on last index per label |
| C12 | makeLink, Bond, anotherSide | invariant over lists of link operations |
| C13 | makeLink | direct universal statement |
| C14-C16 | contractTwoTensors, shareBonds | array level lemmas, then leg-assignment semantics |
| C17 | contractTwoTensors on a heap with other tensors | sums commute, distributivity |
| C18 | contractAndCostWithSequence | induction over the sequence from C17 |
| C19 | contractTwoTensors on TensorLike | simulation |
| C20 | contractTwoTensors | case analysis plus frame |
| C21 | mergeLink | C03 plus re-indexing of sums |
| C22 | contractCost | arithmetic |
| C23, C24 | copyTensorList | isomorphism and frame |
| C25 | solveSet/bruteForce | memo invariant; minimum over inductively defined trees |
| C26, C27 | capping | pass invariant; existence of an unbanned tree |
| C28 | all searches, execution | subset/slot invariant |
| C29 | greedySearch | invariant on components |
| C30 | subsetIterator | bit arithmetic |
| C31 | getCost vs contractCost | from C28 by induction on the sequence |
| C32 | bruteForce + execution | evaluation of a concrete network; default search from C18/C26 |
| C33-C37 | FiniteTensorNetwork | operation-history invariants and refutations |
| C38 | text parser | induction over the grammar |
| C39, C40 | Graph, generators | invariants, counting |
| C41, C42 | divideIntoKParts, myComb, calculateDivisionTimes | induction, multinomial theorem |
| C43, C44 | list and digit helpers | induction |
| C45 | StringSet | history invariant for all random streams |
| C46 | Ising.py | network value over Coq reals |
| C47, C50 | MPS site moves, getChi | list induction |
| C48 | merge with chi | SVD as an oracle with its defining equation as hypothesis |
| C49 | binarySearch | rationals, fuel from interval length |
| C51 | Schmidt decomposition | as C48; three tensors as two replacements |
| C52, C53 | canonicalize, checkCanonical | induction over the chain; conjugation and identity test as parameters |
| C54 | createMPSFromTensor | induction over the legs left |
| C55 | commonLegs, contractMPS | C47 moves, two contractions (C17), constructor on the result |
| C56 | doubleMerge, doubleMergeByBond, mergeMPS | C47 moves, contraction of the pairs, mergeLink (C21), merge with chi (C48); induction over the common bonds |
| C57 | contractWithMPS | C54 for every tensor, C56 for every pair, then induction over the sequence with C55 and C56; the collection of MPSes and the number of bonds between them as invariant; C32 at the end |
| C58 | contractExp | C35 restated by names only (NamedProofs), then every network by computation on names; the sums are explicit in the statements |
| C59 | SquareTRG, SVDDecomposition | a torus is a list of sites with four neighbour functions; one exact step is an exchange of sums over any torus (TorusProofs); twice refined grids are grids (TorusIsoProofs); induction over the steps |
| C60 | HOTRG, solveEnv | a step in any direction is the step in direction l of the turned tensor; fusing two rows is an exchange of sums over any torus (DoubleProofs); doubled grids are grids (DoubleGridProofs); exact eigenvectors of X X^T with value 0 are orthogonal to X if sums of squares vanish only trivially (HotrgRealProofs); induction over the steps |
| C61 | ImpurityTensorNetwork | sums over tuples of sites of a doubled lattice are split by the half every member lies in, which gives the binomial weights (MomentStepProofs); the loop over the partitions of i is the sum over j (ImpurityProofs); induction over the steps for all orders at once (ImpurityRunProofs) |
| C62 | square lattice Ising tensors | the array after the loop is a table, whatever is written; the sums of the squares' energies and spins over a torus are regrouped by bonds |
| C63 | tensorSVDDecomposition | C02 for the matrix, the constructors of u, s, v; sums of diagonal tensors |
| C64 | CTMRG | each network is a sum of products (as in C34, with diagonal tensors read on the diagonal); invariant over runs: the corner and the edges, seen through isometries, are those of the lattice without truncation; that lattice is cut along its middle lines, two functions agree when all their columns do |
| C65 | TriangleTRG, triangleTensorTrace | one step is a contraction of two tensors along a link made by hand (UnlinkProofs, PairLinkProofs, TriPairProofs) and two networks of three copies; a lattice of triangles is a list of bonds with two kinds of cells, refined by an exchange of sums (TriLatProofs); induction over the run for the archive and the norms |
| C66 | selfTrace | two copies linked leg by leg (PairLinkProofs), C17 for all four kinds of pairs; the Einstein sum over all legs as a sum over multi-indices and then over the data |
| C67 | infiniteIsingExactM | sinh is increasing; arcsinh 1 is the critical coupling; eighth powers are increasing |
| C68 | copyOfTensors | the copies of C23 before linking; the legs found by name are the images of the bonds of the chain; then a network of fresh tensors (FreshNetProofs) and the value of a copied network (C23) |
| C69 | makeRandomMPS | the constructor of tensors (C01), one tensor after the other; the calls of makeLink as a list whose legs are found by name; then a network of fresh tensors (FreshNetProofs) to which the constructor of FreeBoundaryMPS applies (C47) |
| C70 | the networks of TNR.py | the general theorem about networks of dense tensors (C57) with the conditions on names checked by computation, as for C58 |
| C71 | small helpers of funcs.py | induction over the keys (from the right) and over the positions inverted; comparisons by the order of Q |
| C72 | error measures, ndEye, priorDataType | a sum of squares is zero only if all terms are; case analysis on the seven types |

No claim was found that cannot be expressed at all; where only a part is proved the theorem
name ends in `_partial` and section 4 says what is missing.

## 4. Status and findings

Every property of `properties.jsonl` has theorems.  One is partial:

* **C07** is false as first stated.  `C07_refuted` gives the input: one-dimensional data whose
  length is the product of the whole shape is stored as it is.  `C07_..._partial` proves the rest.

Behaviour of the code found while proving.  Each line is a theorem or a witness in the Props file of the property.

| property | finding |
|---|---|
| C03 | `outProduct` raises ValueError when a remaining leg has dimension 0 (reshape with -1) |
| C07 | 0-dimensional data overrides a given diagonal shape |
| C08 | `copy()` of a diagonal tensor without legs raises IndexError |
| C09 | renaming is one leg after the other: `renameLabels(['a','b'],['b','a'])` does not exchange two names |
| C10 | a tag with a dash in it is not removed completely |
| C13 | relinking leaves the old partner pointing at the replaced bond |
| C15, C16 | the outer product of two diagonal tensors is evaluated wrongly; a legless diagonal times a dense tensor raises ValueError although the TensorLikes succeed; two legless diagonals raise IndexError |
| C21 | `mergeLink` with a diagonal partner stops half-way and leaves the first tensor merged; with one bond and a tuple name both ends get the tuple |
| C22 | a bond of dimension 0 makes `contractCost` raise ZeroDivisionError |
| C25 | in exact mode a closed group of diagonal tensors raises IndexError |
| C27 | the capped search runs forever for some networks of diagonals and raises ValueError for legless tensors |
| C28 | the pairs of a sequence are not ordered |
| C29 | greedy search raises IndexError when a legless diagonal comes last |
| C32 | brute force chooses a diagonal outer product that evaluates wrongly; links that leave the list raise KeyError |
| C33 | names of a locked network change through a list shared with another network |
| C35 | a link of a tensor with itself is not traced |
| C36 | the cached sequence is used after tensors were removed, also with realCost=True |
| C37 | the default name list is shared by all networks |
| C38 | `i45` without braces is misread; a missing `}` is accepted; an unmatched `}` is an AssertionError; a tensor without legs is rejected; a braced name that starts with a digit is read as a size |
| C39 | free edges do not invalidate the cached list; edges added after addEdgeIndex have no index |
| C40 | periodic lattices of width 2 have double edges |
| C45 | add/remove change the length of the strings drawn; with length 0 newString never returns |
| C46 | an isolated vertex raises ValueError; a self-loop leaves two free legs |
| C48, C51 | negative chi raises ValueError; Schmidt then leaves the tagged names; TensorLike merge over a bond of dimension 0 raises ZeroDivisionError |
| C50 | `getChi` answers -1 whatever the bonds are when chi is None; every later swap then raises ValueError |
| C47 | `checkMPSProperty` accepts links between sites that are not neighbours |
| C53 | a TensorLike counts as an isometry; the branch of checkCanonical for an empty MPS cannot be reached |
| C54 | a tensor of zeros with three or more legs raises ValueError (reshape of an empty matrix); with two legs it becomes a bond of dimension 0 |
| C55 | the tensor returned by a complete contraction is refused as an argument of the next one (AttributeError); a negative bound fails in the first exchange |
| C56 | the value claims for mergeMPS assume a decomposition that is exact and finds the rank, and a network that is not zero: a zero network yields bonds of dimension 0, which the constructor accepts but which later steps are not shown to |
| C57 | contractWithMPS fails the assertion of contractMPS for every pair of the sequence without a common bond; the default (not greedy) search may choose such an outer product, e.g. for two vectors and a tensor with four legs (C57_default_refuted). A network that falls apart is refused with AttributeError after the first part has become a number (C57_scalar_refuted). The exact theorems exclude zero networks and truncation; all legs of the MPSes are renamed 'o', so the legs of the result are not told apart by name |
| C59 | SquareTRG with two tensors always raises AttributeError (iterate() runs before the lists exist); SVDDecomposition returns the conjugate of its second factor, so the documented a = u v fails for complex numbers, and an exact run of SquareTRG on a complex tensor yields a wrong value (C59_complex_refuted) |
| C60 | the loop over the directions treats a negative error as "none yet": a direction whose error is rounded below zero is replaced by the next one, whatever its error (C60_choice_refuted); solveEnv returns all columns if no eigenvalue is above the threshold, because `[-0:]` is everything (C60_bound_refuted); the environment is built without a conjugate, so for a complex tensor a part can be lost although no nonzero eigenvalue is dropped (C60_complex_refuted) |
| C61 | with highestOrder above the number of tensors the object can never be initialized: the missing orders are None and None has no attribute a (C61_padded); the tensors before the first None have been divided by then |
| C63 | rows and cols have the default None, with which the function always raises TypeError (C63_none); preserveLegs is overwritten by False |
| C64 | a tensor without mirror symmetry is accepted and the partition function of a lattice with mirrored halves is returned (C64_lattice_refuted); a corner that loses nothing does not make the edges exact, and the errors recorded only tell about corners (C64_corners_refuted); the isometries are used without a conjugate, so the hypotheses fail for complex tensors; getZ(0) raises IndexError on a new object and later returns the value of the last record (C64_zero_first, C64_zero) |
| C65 | logZDensity() divides by the product of the degrees of freedom of a and b, 9^i after i steps, although the number of pairs of cells is 3^i (C65_density, C65_true_density, C65_density_refuted); the trace closes legs of the same name, so the lattice is a refined theta graph and not a torus |
| C67 | for negative V the test for the critical temperature never holds, so nan is returned at high temperatures (C67_negative); T = 0 raises although the magnetization is 1 there (C67_raises) |
| C70 | createSCEnvSFTN links ql, yl to the legs `or`, `ir` of u and qr, yr to `ol`, `il`; the comment beside it (and the ncon calls that compute the environments of y and u) have them the other way round (C70_ncon_refuted). As long as u is mirror symmetric (the initial u is, and its environment is symmetrized) the results agree (C70_ncon) |
| C71 | floatRelativeEqual(a, a) is False for every a <= 0: the tolerance is multiplied by a + b instead of abs(a) + abs(b) (C71_relative_refuted, C71_relative_negative). mapToDict gives every key the whole list, its docstring speaks of the value in x (C71_pairing_refuted) |
| C72 | getDiffError(1, -1) is 0: the norms of a**2, b**2 and a*b forget signs (C72_diff_refuted). ndEye(1, l) sets only the first element (C72_eye_refuted). priorDataType takes integers for complex numbers: int64 and float64 give complex128 (C72_dtype_int_refuted) |

## 5. Assumptions per theorem

`Print Assumptions` answers "Closed under the global context" for every theorem of `MANIFEST.json`
except those of C46, C62, C67 and C72, which use Coq's real numbers:

* `C46_enumeration`, `C46_isolated_vertex`, `C46_self_loop_refuted`:
  `ClassicalDedekindReals.sig_not_dec`, `ClassicalDedekindReals.sig_forall_dec`,
  `FunctionalExtensionality.functional_extensionality_dep`.
* `C62_measure`, `C62_measure_error`: the last two of these; all other theorems of C62: all three.
* `C67_unique`: all three.
* `C72_measures`, `C72_values`, `C72_projector_value`, `C72_check`, `C72_check_value`, `C72_diff`,
  `C72_diff_refuted`: all three; `C72_normalize`: the last
  two of these; `C72_products`: only
  `ClassicalDedekindReals.sig_forall_dec`; the other theorems of C72 are closed.
* `C46_network`, `C46_contraction`, all other theorems of C67: the same and `Classical_Prop.classic`.

These are axioms of the standard library.  The development declares none.
