{
"C41": {
"note": "k = 0 never terminates in Python (RecursionError); covered by C41_no_parts_raises."
},
"C42": {
"note": "Binomials by Pascal's triangle, multinomials by factorials, total k^n by the binomial theorem."
},
"C43": {
"note": "Order of listSymmetricDifference (a Python set) is not part of the statement."
},
"C44": {
"note": "All integers including negative ones; sizes positive."
},
"C49": {
"note": "Floats are exact rationals."
},
"C01": {
"note": "Dense, diagonal and TensorLike; error branches included. Passing t.legs itself (list aliasing) is outside the model."
},
"C02": {
"note": "Ok exactly when rows and cols split the legs; entries by mixed-radix position."
},
"C03": {
"note": "The order-of-arguments hypothesis 'no remaining leg of dimension 0' is needed: otherwise reshape((-1,...)) raises (C03_zero_dim_raises)."
},
"C04": {
"note": "Weights of the leg's length; np.einsum letters limit weighted sums to 25 legs in the code."
},
"C05": {
"note": "Dense: any split with equal total dimension; diagonal: sum of the diagonal."
},
"C06": {
"note": "Ok exactly when the arguments agree. labels alone (no shape, legs, data) is outside the model: it makes legs of dimension None."
},
"C07": {
"note": "Refuted in full by C07_refuted: 1-D data of full product length is stored as is. Proved when the data has one entry per diagonal position or one axis per leg."
},
"C08": {
"note": "All interleavings of the in-place operations, returning or raising. copy() of a diagonal tensor without legs raises IndexError (C08_scalar_diagonal_raises)."
},
"C09": {
"note": "Sequential semantics, simultaneous under the stated condition, swap refuted in general."
},
"C10": {
"note": "Restored iff the tag has no dash; raising leaves the earlier legs tagged."
},
"C11": {
"note": "k-th request resolves to the k-th leg with that name."
},
"C12": {
"note": "Leg arguments may be leg objects or names; success, length mismatch, unequal dimensions, missing names, partial effect of a failing list, and closure under call sequences."
},
"C13": {
"note": "The old partner keeps the replaced bond object, whose other end is still the relinked leg."
},
"C14": {
"note": "Also states the frame: only the two tensors (second one reordered) and the taken legs change."
},
"C15": {
"note": "Leg order as returned by the code for either argument order."
},
"C16": {
"note": "Two diagonal tensors: exact description of the result and a refutation of the outer-product reading; scalar diagonal tensors raise (finding)."
},
"C17": {
"note": "contractible excludes exactly: two diagonals without bond and a scalar diagonal with a dense tensor."
},
"C18": {
"note": "Sequences given by the inductive predicate complete; every internal bond has positive dimension, otherwise contractCost divides by zero (C22_zero_dimension_raises). Both inplace=True and inplace=False (C18_out_of_place)."
},
"C20": {
"note": "The bond's ends may be swapped in the bond object; partners are unchanged."
},
"C22": {
"note": "Shared bonds of positive dimension; a zero dimension raises ZeroDivisionError (C22_zero_dimension_raises)."
},
"C23": {
"note": "Excludes copying a scalar diagonal tensor with like=False, which raises IndexError (C09 finding). Frame part holds for every list, also when the call raises."
},
"C24": {
"note": "Any list of tensors, any sequence, any outcome; everything allocated before the call is unchanged. Arrays are values in the model: sharing of numpy buffers between a tensor and its copy is not modelled."
},
"C25": {
"note": "All networks and both cost models; the returned sequence is shown to be complete with exactly the minimal cost. The order of Python sets is an arbitrary parameter."
},
"C26": {
"note": "Optimal over all trees without outer products of diagonal tensors; positive dimensions imply the positivity hypothesis (C26_positive_dimensions)."
},
"C27": {
"note": "Termination: enough passes give a result that no longer changes with more passes. Non-termination: every number of passes runs out."
},
"C28": {
"note": "Completeness is the relation used for executing sequences (C17, C18). C28_order_refuted gives a network where both optimal searches return a step (1, 0)."
},
"C29": {
"note": "Both directions; the exception for a legless diagonal tensor in the last place is a separate theorem."
},
"C30": {
"note": "All non-negative integers."
},
"C39": {
"note": "All histories of addEdge, addFreeEdge, getEdges and addEdgeIndex calls, including calls that raise. Also the vertex edge lists and the edge indices."
},
"C40": {
"note": "All sizes; width 2 of a periodic lattice joins neighbours twice (C40_narrow_periodic_refuted), so once holds for widths of at least 3."
},
"C31": {
"note": "Greedy, capped and (with all diagonal tensors of one dimension and no closed diagonal group) brute-force search; lists whose links stay inside the list. C31_cheapest adds that no other sequence runs cheaper."
},
"C32": {
"note": "The default half for every list, every typicalDim, in place or not, also with greedy=True; the brute-force half by a witness, for exact dimensions and for typicalDim=10. A link leading out of the list raises KeyError."
},
"C19": {
"note": "Pair: TensorLikes that stand for two tensors contract to a TensorLike with the same names, dimensions and diagonal flag, same order unless exactly one tensor is diagonal. Sequence: every complete sequence whose real execution (in place or not) returns, also returns on the shadows made by copyTensorList, with the same cost and signature. Finding: the converse fails for a diagonal tensor without legs against a dense one (real run raises ValueError).",
"status": "proved"
},
"C21": {
"note": "Any network (list with allocated, mutual links) containing the two tensors, over any commutative semiring. Proviso: the remaining legs have positive dimension, since reshape(..., -1) fails otherwise (C09). The names argument is None, a string or a pair of strings."
},
"C33": {
"note": "Proved for every operation sequence over any number of networks. Names are kept in a list object that can be shared, so a locked network's names can still change through another unlocked network holding the same list (C33_names, C37_add)."
},
"C34": {
"note": "Every leg, bond and tensor object that existed before the call is unchanged, for all dictionaries and also when the call raises; no well-formedness is assumed."
},
"C37": {
"note": "List objects have identities in the model; the default argument is object 0."
},
"C35": {
"note": "Proved for every network in which each leg is in at most one link and no link joins two legs of one tensor; with such a self-link the claim is false (C35_self_link_refuted: the two legs are not traced). A sequence kept from an earlier call is shown to fit later calls with the same names and diagonal flags.",
"status": "proved"
},
"C36": {
"note": "With realCost=False: the sequence never changes again; added tensors are left out of the result; with fewer names the call never returns. C36_real_cost shows the same reuse with realCost=True once all leg names are known.",
"status": "proved"
},
"C38": {
"note": "Texts are generated by a grammar given separately (TextSpec): names of one letter or in braces, sizes absent, one digit, or in braces. Every text of the grammar is read back; the links, copied sizes and the rejected descriptions are characterised exactly. C38_bare_number_refuted records that several digits without braces are not a size."
},
"C45": {
"note": "Histories of newString, add and remove over an arbitrary random source. C45_stuck: with the length drifting down to zero newString can run forever; stated as non-return for every number of draws."
},
"C46": {
"note": "The coupling's square roots are modelled over Coq's real numbers; floating point is not modelled. Value stated for the network (sum over all bond values) and for contractWithSeq along any complete sequence. Also: isolated vertex gives ValueError (C46_isolated_vertex); a self-loop leaves two free legs (C46_self_loop_refuted)."
},
"C48": {
"note": "For every pair sharing at least one bond inside any network: the pair is replaced by two tensors with one bond of dimension k <= chi; the value of every network containing it is unchanged when the decomposition is exact and the discarded singular values are zero. numpy.linalg.svd is an argument; its exactness is a hypothesis on the matrix of the pair."
},
"C51": {
"note": "SchimdtDecomposition on two dense tensors with string names without '-', with square roots (two tensors) and without (u, s, v with the entries of the decomposition): result legs, names, links, bonds and value (exact decomposition, discarded values zero); ValueError for negative chi; rejected inputs leave everything but the order of bond ends unchanged."
},
"C47": {
"note": "Holds. moveTensor takes the outgoing leg at i out and puts it back at j (C47_positions spells out every position); makeAdjacent moves the smaller position next to the larger one and returns (j-1, j). All outgoing legs are the same objects, only the bonds passed are new, each at most chi; the value of the whole network is unchanged when no step discards a nonzero singular value, in particular for exact decompositions and chi at least the product of the moved dimension with each bond. Positions out of range raise AssertionError; negative chi raises ValueError. The constructor is shown to produce such chains."
},
"C50": {
"note": "Holds for every list whose neighbours share a bond: chi=None gives -1. The warning does fire for a requested chi below -1 (and only then). An MPS made with chi=None therefore has the bound -1 and every moveTensor with i <> j raises ValueError."
},
"C52": {
"note": "canonicalize on every chain (MPS of any length, any tensors attached outside): outgoing legs are the same objects in the same order, the canonical form holds if the u's have orthonormal columns, bond bounds, value unchanged if no step discards a nonzero value - in particular for decompositions that multiply back and chi at least the exact bond dimensions. Errors: AssertionError for positions outside, ValueError for negative chi. inplace=False is not modelled."
},
"C53": {
"note": "isIsometry computes the Gram matrix of the labelled split and hands it to the identity test (a parameter); checkCanonical is complete for tests that accept identity matrices and sound for exact tests; after canonicalize it answers True. Errors covered."
},
"C54": {
"note": "The SVD is a parameter with the right shapes; exactness is a hypothesis of the value part only and is derived for perfect libraries with room (C54_lossless). Error cases and the zero tensor are covered. Negative chi not modelled; legs of dimension 0 and tensors with a link to themselves are excluded by hypotheses."
},
"C55": {
"note": "Closed network: free legs carry no links. SVD is an oracle with recorded shape and exactness assumptions. The statement also bounds the bonds of the result by sizes of the outgoing legs."
},
"C56": {
"note": "Closed network: free legs carry no links. The exact theorems need an SVD oracle that is exact and finds the rank (met together by libB, an exhaustive search over the Boolean semiring) and a network that is not zero; C56_double holds for any library of the right shapes and positive bonds."
},
"C57": {
"note": "Exact mode only: no truncation, nonzero network, SVD oracle exact and rank-finding (met by libB). The legs of the result are given by an injective renaming of the free legs; the code loses their names. The failure of the default search is C57_default_refuted, the one on disconnected networks C57_scalar_refuted (for a concrete library and network).",
"status": "proved"
},
"C58": {
"note": "One theorem per network plus the general C58_named for any network given by names. Partial correctness: the value is stated for calls that return; every theorem has an example whose call returns."
},
"C59": {
"note": "The exactness theorems assume calls that return, an exact decomposition without loss, trivial conjugation and invertible norms (hypotheses exact_run, faithful, invertible); examples show such runs with and without a truncation. C59_complex_refuted shows that the claim fails for complex numbers."
},
"C60": {
"note": "HOTRG and solveEnv on a heap with the real constructors and networks; eigh, norm, division and logarithm are arbitrary functions with the properties used listed as hypotheses. Refuted: choice with negative errors, dimension bound if no value is above the threshold, complex tensors.",
"status": "proved"
},
"C61": {
"note": "A run without loss; the sums over tuples of sites on both sides are defined in MomentSpec. The examples are over the rational numbers."
},
"C62": {
"note": "Real numbers stand for floating point. The combination with the exact theorems of C59-C61 is by their hypotheses: partition and moment are the same definitions."
},
"C63": {
"note": "Tensors, legs, entries, error, frame; product under exactness; None rows or columns. Negative chi is not modelled."
},
"C64": {
"note": "Value of getZ under exactness of the reductions (C64_full gives a sufficient condition); C64_lattice_refuted and C64_corners_refuted show that mirror symmetry and the hypothesis on the edges are needed. Negative chi or L and the object after an exception are not modelled."
},
"C65": {
"note": "C65_density_refuted: the number returned by logZDensity() is not the logarithm of the lattice per pair of cells. C65_value and C65_true_density assume that the decompositions lose nothing (faithful) and real numbers (conj = id); the other theorems do not."
},
"C69": {
"note": "C69_random gives the chain, its dimensions and axes, the entries (the next numbers of the stream, divided by the norm), the bound and the frame; C69_raises the errors."
},
"C70": {
"note": "The value theorems are about calls of contract that return (as C57, C58). C70_ncon_refuted: the environment network differs from the formula in the comment when u is not mirror symmetric."
},
"C71": {
"note": "Exact rationals instead of floats. Findings: C71_relative_refuted (relative comparison of non-positive numbers) and C71_pairing_refuted (mapToDict does not pair).",
"status": "proved"
},
"C72": {
"note": "Exact real matrices. C72_values, C72_projector_value and C72_check_value give the values themselves. Findings: C72_diff_refuted, C72_eye_refuted, C72_dtype_int_refuted.",
"status": "proved"
}
}