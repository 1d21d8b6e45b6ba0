{
 "claims": [
  {
   "property": "C01",
   "status": "proved",
   "theorems": [
    "C01_moveLegsToFront",
    "C01_moveLegsToFront_raises",
    "C01_moveLabelsToFront",
    "C01_moveLabelsToFront_raises",
    "C01_reArrange",
    "C01_reArrange_raises"
   ],
   "note": "Dense, diagonal and TensorLike; error branches included. Passing t.legs itself (list aliasing) is outside the model."
  },
  {
   "property": "C02",
   "status": "proved",
   "theorems": [
    "C02_toMatrix",
    "C02_split_unique",
    "C02_digits",
    "C02_toMatrix_like_raises"
   ],
   "note": "Ok exactly when rows and cols split the legs; entries by mixed-radix position."
  },
  {
   "property": "C03",
   "status": "proved",
   "theorems": [
    "C03_outProduct",
    "C03_zero_dim_raises",
    "C03_diagonal_raises",
    "C03_empty_raises",
    "C03_foreign_legs_raise"
   ],
   "note": "The order-of-arguments hypothesis 'no remaining leg of dimension 0' is needed: otherwise reshape((-1,...)) raises (C03_zero_dim_raises)."
  },
  {
   "property": "C04",
   "status": "proved",
   "theorems": [
    "C04_sumOutLeg",
    "C04_absent_leg"
   ],
   "note": "Weights of the leg's length; np.einsum letters limit weighted sums to 25 legs in the code."
  },
  {
   "property": "C05",
   "status": "proved",
   "theorems": [
    "C05_trace_dense",
    "C05_trace_pairs",
    "C05_no_split_raises",
    "C05_trace_diagonal",
    "C05_trace_diagonal_pair"
   ],
   "note": "Dense: any split with equal total dimension; diagonal: sum of the diagonal."
  },
  {
   "property": "C06",
   "status": "proved",
   "theorems": [
    "C06_constructor"
   ],
   "note": "Ok exactly when the arguments agree. labels alone (no shape, legs, data) is outside the model: it makes legs of dimension None."
  },
  {
   "property": "C07",
   "status": "partial",
   "theorems": [
    "C07_constructor_partial",
    "C07_refuted",
    "C07_shape_ignored"
   ],
   "note": "Refuted in full by C07_refuted: 1-D data of full product length is stored as is. Proved when the data has one entry per diagonal position or one axis per leg."
  },
  {
   "property": "C08",
   "status": "proved",
   "theorems": [
    "C08_copy",
    "C08_original_unchanged",
    "C08_independent",
    "C08_same_state_entry",
    "C08_scalar_diagonal_raises",
    "C08_toTensorLike"
   ],
   "note": "All interleavings of the in-place operations, returning or raising. copy() of a diagonal tensor without legs raises IndexError (C08_scalar_diagonal_raises)."
  },
  {
   "property": "C09",
   "status": "proved",
   "theorems": [
    "C09_renameLabel",
    "C09_getLeg_is_first",
    "C09_renameLabels",
    "C09_renameLabels_raises",
    "C09_simultaneous",
    "C09_swap_does_not_swap"
   ],
   "note": "Sequential semantics, simultaneous under the stated condition, swap refuted in general."
  },
  {
   "property": "C10",
   "status": "proved",
   "theorems": [
    "C10_roundtrip",
    "C10_already_tagged"
   ],
   "note": "Restored iff the tag has no dash; raising leaves the earlier legs tagged."
  },
  {
   "property": "C11",
   "status": "proved",
   "theorems": [
    "C11_getLegsByLabel"
   ],
   "note": "k-th request resolves to the k-th leg with that name."
  },
  {
   "property": "C12",
   "status": "proved",
   "theorems": [
    "C12_makeLink",
    "C12_anotherSide",
    "C12_other_links_kept",
    "C12_length_mismatch_raises",
    "C12_bad_pair_raises",
    "C12_links_stay_symmetric",
    "C12_any_call_sequence"
   ],
   "note": "Leg arguments may be leg objects or names; success, length mismatch, unequal dimensions, missing names, partial effect of a failing list, and closure under call sequences."
  },
  {
   "property": "C13",
   "status": "proved",
   "theorems": [
    "C13_relink_dangling"
   ],
   "note": "The old partner keeps the replaced bond object, whose other end is still the relinked leg."
  },
  {
   "property": "C14",
   "status": "proved",
   "theorems": [
    "C14_dense_contraction"
   ],
   "note": "Also states the frame: only the two tensors (second one reordered) and the taken legs change."
  },
  {
   "property": "C15",
   "status": "proved",
   "theorems": [
    "C15_two_diagonals",
    "C15_diagonal_first",
    "C15_diagonal_second"
   ],
   "note": "Leg order as returned by the code for either argument order."
  },
  {
   "property": "C16",
   "status": "proved",
   "theorems": [
    "C16_dense_outer",
    "C16_diagonal_dense_outer",
    "C16_scalar_diagonal_raises",
    "C16_two_diagonals",
    "C16_two_diagonals_lengths_raise",
    "C16_two_scalar_diagonals_raise",
    "C16_two_diagonals_refuted",
    "C16_diagonal_scalar"
   ],
   "note": "Two diagonal tensors: exact description of the result and a refutation of the outer-product reading; scalar diagonal tensors raise (finding)."
  },
  {
   "property": "C17",
   "status": "proved",
   "theorems": [
    "C17_contraction_succeeds",
    "C17_step_preserves_network",
    "C17_order_of_list_irrelevant"
   ],
   "note": "contractible excludes exactly: two diagonals without bond and a scalar diagonal with a dense tensor."
  },
  {
   "property": "C18",
   "status": "proved",
   "theorems": [
    "C18_sequence_value",
    "C18_dense_any_sequence",
    "C18_order_independent",
    "C18_out_of_place"
   ],
   "note": "Sequences given by the inductive predicate complete; every internal bond has positive dimension, otherwise contractCost divides by zero (C22_zero_dimension_raises). Both inplace=True and inplace=False (C18_out_of_place)."
  },
  {
   "property": "C19",
   "status": "proved",
   "theorems": [
    "C19_pair",
    "C19_needs_no_data",
    "C19_sequence",
    "C19_converse_refuted"
   ],
   "note": "Pair: TensorLikes that stand for two tensors contract to a TensorLike with the same names, dimensions and diagonal flag, same order unless exactly one tensor is diagonal. Sequence: every complete sequence whose real execution (in place or not) returns, also returns on the shadows made by copyTensorList, with the same cost and signature. Finding: the converse fails for a diagonal tensor without legs against a dense one (real run raises ValueError)."
  },
  {
   "property": "C20",
   "status": "proved",
   "theorems": [
    "C20_mixed_raises"
   ],
   "note": "The bond's ends may be swapped in the bond object; partners are unchanged."
  },
  {
   "property": "C21",
   "status": "proved",
   "theorems": [
    "C21_merge",
    "C21_none",
    "C21_one",
    "C21_diagonal_first",
    "C21_diagonal_second"
   ],
   "note": "Any network (list with allocated, mutual links) containing the two tensors, over any commutative semiring. Proviso: the remaining legs have positive dimension, since reshape(..., -1) fails otherwise (C09). The names argument is None, a string or a pair of strings."
  },
  {
   "property": "C22",
   "status": "proved",
   "theorems": [
    "C22_dense_cost",
    "C22_one_diagonal_cost",
    "C22_two_diagonals_cost",
    "C22_zero_dimension_raises"
   ],
   "note": "Shared bonds of positive dimension; a zero dimension raises ZeroDivisionError (C22_zero_dimension_raises)."
  },
  {
   "property": "C23",
   "status": "proved",
   "theorems": [
    "C23_copy",
    "C23_same_value",
    "C23_originals_unchanged"
   ],
   "note": "Excludes copying a scalar diagonal tensor with like=False, which raises IndexError (C09 finding). Frame part holds for every list, also when the call raises."
  },
  {
   "property": "C24",
   "status": "proved",
   "theorems": [
    "C24_inputs_untouched"
   ],
   "note": "Any list of tensors, any sequence, any outcome; everything allocated before the call is unchanged. Arrays are values in the model: sharing of numpy buffers between a tensor and its copy is not modelled."
  },
  {
   "property": "C25",
   "status": "proved",
   "theorems": [
    "C25_optimal",
    "C25_without_open_edge_refuted"
   ],
   "note": "All networks and both cost models; the returned sequence is shown to be complete with exactly the minimal cost. The order of Python sets is an arbitrary parameter."
  },
  {
   "property": "C26",
   "status": "proved",
   "theorems": [
    "C26_optimal",
    "C26_positive_dimensions"
   ],
   "note": "Optimal over all trees without outer products of diagonal tensors; positive dimensions imply the positivity hypothesis (C26_positive_dimensions)."
  },
  {
   "property": "C27",
   "status": "proved",
   "theorems": [
    "C27_terminates",
    "C27_no_legs_raises",
    "C27_runs_forever",
    "C27_zero_costs_run_forever"
   ],
   "note": "Termination: enough passes give a result that no longer changes with more passes. Non-termination: every number of passes runs out."
  },
  {
   "property": "C28",
   "status": "proved",
   "theorems": [
    "C28_bruteForce",
    "C28_capping",
    "C28_greedy",
    "C28_order_refuted"
   ],
   "note": "Completeness is the relation used for executing sequences (C17, C18). C28_order_refuted gives a network where both optimal searches return a step (1, 0)."
  },
  {
   "property": "C29",
   "status": "proved",
   "theorems": [
    "C29_connected",
    "C29_disconnected",
    "C29_disconnected_scalar_last"
   ],
   "note": "Both directions; the exception for a legless diagonal tensor in the last place is a separate theorem."
  },
  {
   "property": "C30",
   "status": "proved",
   "theorems": [
    "C30_splits_once"
   ],
   "note": "All non-negative integers."
  },
  {
   "property": "C31",
   "status": "proved",
   "theorems": [
    "C31_greedy",
    "C31_capping",
    "C31_bruteForce",
    "C31_connected",
    "C31_greedy_connected",
    "C31_cheapest",
    "C31_bruteForce_cheapest"
   ],
   "note": "Greedy, capped and (with all diagonal tensors of one dimension and no closed diagonal group) brute-force search; lists whose links stay inside the list. C31_cheapest adds that no other sequence runs cheaper."
  },
  {
   "property": "C32",
   "status": "proved",
   "theorems": [
    "C32_default_value",
    "C32_contractTensorList",
    "C32_open_link_raises",
    "C32_brute_force_wrong"
   ],
   "note": "The default half for every list, every typicalDim, in place or not, also with greedy=True; the brute-force half by a witness, for exact dimensions and for typicalDim=10. A link leading out of the list raises KeyError."
  },
  {
   "property": "C33",
   "status": "proved",
   "theorems": [
    "C33_refused",
    "C33_contract_locks",
    "C33_contract_keeps",
    "C33_until_unlock",
    "C33_names",
    "C33_unlocked",
    "C33_unlock"
   ],
   "note": "Proved for every operation sequence over any number of networks. Names are kept in a list object that can be shared, so a locked network's names can still change through another unlocked network holding the same list (C33_names, C37_add)."
  },
  {
   "property": "C34",
   "status": "proved",
   "theorems": [
    "C34_frame"
   ],
   "note": "Every leg, bond and tensor object that existed before the call is unchanged, for all dictionaries and also when the call raises; no well-formedness is assumed."
  },
  {
   "property": "C35",
   "status": "proved",
   "theorems": [
    "C35_contract_value",
    "C35_links_found",
    "C35_reused_sequence",
    "C35_self_link_refuted"
   ],
   "note": "Proved for every network in which each leg is in at most one link and no link joins two legs of one tensor; with such a self-link the claim is false (C35_self_link_refuted: the two legs are not traced). A sequence kept from an earlier call is shown to fit later calls with the same names and diagonal flags."
  },
  {
   "property": "C36",
   "status": "proved",
   "theorems": [
    "C36_sequence_kept",
    "C36_added_left_out",
    "C36_removed_raises",
    "C36_real_cost"
   ],
   "note": "With realCost=False: the sequence never changes again; added tensors are left out of the result; with fewer names the call never returns. C36_real_cost shows the same reuse with realCost=True once all leg names are known."
  },
  {
   "property": "C37",
   "status": "proved",
   "theorems": [
    "C37_shared",
    "C37_add",
    "C37_contract_raises"
   ],
   "note": "List objects have identities in the model; the default argument is object 0."
  },
  {
   "property": "C38",
   "status": "proved",
   "theorems": [
    "C38_decode",
    "C38_graph",
    "C38_bare_number_refuted"
   ],
   "note": "Texts are generated by a grammar given separately (TextSpec): names of one letter or in braces, sizes absent, one digit, or in braces. Every text of the grammar is read back; the links, copied sizes and the rejected descriptions are characterised exactly. C38_bare_number_refuted records that several digits without braces are not a size."
  },
  {
   "property": "C39",
   "status": "proved",
   "theorems": [
    "C39_complete",
    "C39_never_twice",
    "C39_stale",
    "C39_free_edge_missing",
    "C39_vertex_lists",
    "C39_indices"
   ],
   "note": "All histories of addEdge, addFreeEdge, getEdges and addEdgeIndex calls, including calls that raise. Also the vertex edge lists and the edge indices."
  },
  {
   "property": "C40",
   "status": "proved",
   "theorems": [
    "C40_periodic",
    "C40_narrow_periodic_refuted",
    "C40_open",
    "C40_double",
    "C40_complete_graph"
   ],
   "note": "All sizes; width 2 of a periodic lattice joins neighbours twice (C40_narrow_periodic_refuted), so once holds for widths of at least 3."
  },
  {
   "property": "C41",
   "status": "proved",
   "theorems": [
    "C41_divideIntoKParts",
    "C41_no_parts_raises"
   ],
   "note": "k = 0 never terminates in Python (RecursionError); covered by C41_no_parts_raises."
  },
  {
   "property": "C42",
   "status": "proved",
   "theorems": [
    "C42_myComb",
    "C42_multinomial",
    "C42_total"
   ],
   "note": "Binomials by Pascal's triangle, multinomials by factorials, total k^n by the binomial theorem."
  },
  {
   "property": "C43",
   "status": "proved",
   "theorems": [
    "C43_compareLists",
    "C43_listDifference",
    "C43_commonElements",
    "C43_listSymmetricDifference"
   ],
   "note": "Order of listSymmetricDifference (a Python set) is not part of the statement."
  },
  {
   "property": "C44",
   "status": "proved",
   "theorems": [
    "C44_intToBitList",
    "C44_intToDBaseTuple",
    "C44_intToDBaseTuple_injective",
    "C44_getIndexDict",
    "C44_getIndexDict_injective"
   ],
   "note": "All integers including negative ones; sizes positive."
  },
  {
   "property": "C45",
   "status": "proved",
   "theorems": [
    "C45_never_twice",
    "C45_history",
    "C45_returns",
    "C45_stuck"
   ],
   "note": "Histories of newString, add and remove over an arbitrary random source. C45_stuck: with the length drifting down to zero newString can run forever; stated as non-return for every number of draws."
  },
  {
   "property": "C46",
   "status": "proved",
   "theorems": [
    "C46_enumeration",
    "C46_network",
    "C46_contraction",
    "C46_isolated_vertex",
    "C46_self_loop_refuted"
   ],
   "note": "The coupling's square roots are modelled over Coq's real numbers; floating point is not modelled. Value stated for the network (sum over all bond values) and for contractWithSeq along any complete sequence. Also: isolated vertex gives ValueError (C46_isolated_vertex); a self-loop leaves two free legs (C46_self_loop_refuted)."
  },
  {
   "property": "C47",
   "status": "proved",
   "theorems": [
    "C47_move",
    "C47_positions",
    "C47_adjacent",
    "C47_rejected",
    "C47_negative",
    "C47_constructor",
    "C47_shape"
   ],
   "note": "Holds. moveTensor takes the outgoing leg at i out and puts it back at j (C47_positions spells out every position); makeAdjacent moves the smaller position next to the larger one and returns (j-1, j). All outgoing legs are the same objects, only the bonds passed are new, each at most chi; the value of the whole network is unchanged when no step discards a nonzero singular value, in particular for exact decompositions and chi at least the product of the moved dimension with each bond. Positions out of range raise AssertionError; negative chi raises ValueError. The constructor is shown to produce such chains."
  },
  {
   "property": "C48",
   "status": "proved",
   "theorems": [
    "C48_truncated",
    "C48_tensorlike",
    "C48_untruncated",
    "C48_unshared",
    "C48_mixed"
   ],
   "note": "For every pair sharing at least one bond inside any network: the pair is replaced by two tensors with one bond of dimension k <= chi; the value of every network containing it is unchanged when the decomposition is exact and the discarded singular values are zero. numpy.linalg.svd is an argument; its exactness is a hypothesis on the matrix of the pair."
  },
  {
   "property": "C49",
   "status": "proved",
   "theorems": [
    "C49_binarySearch",
    "C49_bad_interval"
   ],
   "note": "Floats are exact rationals."
  },
  {
   "property": "C50",
   "status": "proved",
   "theorems": [
    "C50_chi",
    "C50_default"
   ],
   "note": "Holds for every list whose neighbours share a bond: chi=None gives -1. The warning does fire for a requested chi below -1 (and only then). An MPS made with chi=None therefore has the bound -1 and every moveTensor with i <> j raises ValueError."
  },
  {
   "property": "C51",
   "status": "proved",
   "theorems": [
    "C51_schmidt",
    "C51_rejected",
    "C51_usv"
   ],
   "note": "SchimdtDecomposition on two dense tensors with string names without '-', with square roots (two tensors) and without (u, s, v with the entries of the decomposition): result legs, names, links, bonds and value (exact decomposition, discarded values zero); ValueError for negative chi; rejected inputs leave everything but the order of bond ends unchanged."
  },
  {
   "property": "C52",
   "status": "proved",
   "theorems": [
    "C52_canonicalize",
    "C52_rejected",
    "C52_negative",
    "C52_single"
   ],
   "note": "canonicalize on every chain (MPS of any length, any tensors attached outside): outgoing legs are the same objects in the same order, the canonical form holds if the u's have orthonormal columns, bond bounds, value unchanged if no step discards a nonzero value - in particular for decompositions that multiply back and chi at least the exact bond dimensions. Errors: AssertionError for positions outside, ValueError for negative chi. inplace=False is not modelled."
  },
  {
   "property": "C53",
   "status": "proved",
   "theorems": [
    "C53_isIsometry",
    "C53_missing_label",
    "C53_bad_labels",
    "C53_like",
    "C53_checkCanonical",
    "C53_after",
    "C53_rejected"
   ],
   "note": "isIsometry computes the Gram matrix of the labelled split and hands it to the identity test (a parameter); checkCanonical is complete for tests that accept identity matrices and sound for exact tests; after canonicalize it answers True. Errors covered."
  },
  {
   "property": "C54",
   "status": "proved",
   "theorems": [
    "C54_create",
    "C54_entries",
    "C54_lossless",
    "C54_zero",
    "C54_rejected",
    "C54_one_leg"
   ],
   "note": "The SVD is a parameter with the right shapes; exactness is a hypothesis of the value part only and is derived for perfect libraries with room (C54_lossless). Error cases and the zero tensor are covered. Negative chi not modelled; legs of dimension 0 and tensors with a link to themselves are excluded by hypotheses."
  },
  {
   "property": "C55",
   "status": "proved",
   "theorems": [
    "C55_common",
    "C55_contract",
    "C55_refused",
    "C55_negative",
    "C55_tensor"
   ],
   "note": "Closed network: free legs carry no links. SVD is an oracle with recorded shape and exactness assumptions. The statement also bounds the bonds of the result by sizes of the outgoing legs."
  },
  {
   "property": "C56",
   "status": "proved",
   "theorems": [
    "C56_double",
    "C56_bond",
    "C56_stray",
    "C56_merge",
    "C56_few",
    "C56_refused"
   ],
   "note": "Closed network: free legs carry no links. The exact theorems need an SVD oracle that is exact and finds the rank (met together by libB, an exhaustive search over the Boolean semiring) and a network that is not zero; C56_double holds for any library of the right shapes and positive bonds."
  },
  {
   "property": "C57",
   "status": "proved",
   "theorems": [
    "C57_contract",
    "C57_greedy",
    "C57_generates",
    "C57_no_sequence",
    "C57_unlinked",
    "C57_default_refuted",
    "C57_scalar_refuted"
   ],
   "note": "Exact mode only: no truncation, nonzero network, SVD oracle exact and rank-finding (met by libB). The legs of the result are given by an injective renaming of the free legs; the code loses their names. The failure of the default search is C57_default_refuted, the one on disconnected networks C57_scalar_refuted (for a concrete library and network)."
  },
  {
   "property": "C58",
   "status": "proved",
   "theorems": [
    "C58_networks",
    "C58_triangle",
    "C58_square",
    "C58_square_out",
    "C58_hEdge_extend",
    "C58_vEdge_extend",
    "C58_corner_extend",
    "C58_hEdge_build",
    "C58_vEdge_build",
    "C58_evenZ",
    "C58_oddZ",
    "C58_horizontal_l",
    "C58_horizontal_r",
    "C58_vertical_u",
    "C58_vertical_d",
    "C58_hotrg_h",
    "C58_hotrg_v",
    "C58_tnr_env",
    "C58_named",
    "C58_kept",
    "C58_directions"
   ],
   "note": "One theorem per network plus the general C58_named for any network given by names. Partial correctness: the value is stated for calls that return; every theorem has an example whose call returns."
  },
  {
   "property": "C59",
   "status": "proved",
   "theorems": [
    "C59_decomposition",
    "C59_init",
    "C59_two_tensors_refuted",
    "C59_iterate",
    "C59_step",
    "C59_run",
    "C59_value",
    "C59_torus",
    "C59_archive",
    "C59_density",
    "C59_lattices",
    "C59_complex_refuted"
   ],
   "note": "The exactness theorems assume calls that return, an exact decomposition without loss, trivial conjugation and invertible norms (hypotheses exact_run, faithful, invertible); examples show such runs with and without a truncation. C59_complex_refuted shows that the claim fails for complex numbers."
  },
  {
   "property": "C60",
   "status": "proved",
   "theorems": [
    "C60_solveEnv",
    "C60_solveEnv_error",
    "C60_bound",
    "C60_bound_refuted",
    "C60_init",
    "C60_init_none",
    "C60_iterate",
    "C60_choice",
    "C60_projector",
    "C60_no_loss",
    "C60_step",
    "C60_run",
    "C60_value",
    "C60_torus",
    "C60_archive",
    "C60_density",
    "C60_impurity",
    "C60_impurity_error",
    "C60_direction_error",
    "C60_lattices",
    "C60_choice_refuted",
    "C60_complex_refuted"
   ],
   "note": "HOTRG and solveEnv on a heap with the real constructors and networks; eigh, norm, division and logarithm are arbitrary functions with the properties used listed as hypotheses. Refuted: choice with negative errors, dimension bound if no value is above the threshold, complex tensors."
  },
  {
   "property": "C61",
   "status": "proved",
   "theorems": [
    "C61_init",
    "C61_initialize",
    "C61_first",
    "C61_iterate",
    "C61_weights",
    "C61_step",
    "C61_run",
    "C61_archive",
    "C61_measure",
    "C61_moments",
    "C61_padded",
    "C61_no_rg",
    "C61_behind",
    "C61_no_orders",
    "C61_no_dof"
   ],
   "note": "A run without loss; the sums over tuples of sites on both sides are defined in MomentSpec. The examples are over the rational numbers."
  },
  {
   "property": "C62",
   "status": "proved",
   "theorems": [
    "C62_measure",
    "C62_measure_error",
    "C62_tensor",
    "C62_tensor_error",
    "C62_partition",
    "C62_moment",
    "C62_plaquette",
    "C62_plaquette_error",
    "C62_diamond"
   ],
   "note": "Real numbers stand for floating point. The combination with the exact theorems of C59-C61 is by their hypotheses: partition and moment are the same definitions."
  },
  {
   "property": "C63",
   "status": "proved",
   "theorems": [
    "C63_factors",
    "C63_product",
    "C63_none"
   ],
   "note": "Tensors, legs, entries, error, frame; product under exactness; None rows or columns. Negative chi is not modelled."
  },
  {
   "property": "C64",
   "status": "proved",
   "theorems": [
    "C64_init",
    "C64_iterate",
    "C64_value",
    "C64_iterates",
    "C64_lattice",
    "C64_full",
    "C64_zero_first",
    "C64_zero",
    "C64_lattice_refuted",
    "C64_corners_refuted"
   ],
   "note": "Value of getZ under exactness of the reductions (C64_full gives a sufficient condition); C64_lattice_refuted and C64_corners_refuted show that mirror symmetry and the hypothesis on the edges are needed. Negative chi or L and the object after an exception are not modelled."
  },
  {
   "property": "C65",
   "status": "proved",
   "theorems": [
    "C65_init",
    "C65_iterate",
    "C65_trace",
    "C65_archive",
    "C65_lattice_step",
    "C65_refined",
    "C65_value",
    "C65_density",
    "C65_true_density",
    "C65_density_refuted"
   ],
   "note": "C65_density_refuted: the number returned by logZDensity() is not the logarithm of the lattice per pair of cells. C65_value and C65_true_density assume that the decompositions lose nothing (faithful) and real numbers (conj = id); the other theorems do not."
  },
  {
   "property": "C66",
   "status": "proved",
   "theorems": [
    "C66_value",
    "C66_scalar_diagonal_raises"
   ],
   "note": ""
  },
  {
   "property": "C67",
   "status": "proved",
   "theorems": [
    "C67_value",
    "C67_unique",
    "C67_critical",
    "C67_zero",
    "C67_decreasing",
    "C67_scale",
    "C67_negative",
    "C67_raises"
   ],
   "note": ""
  },
  {
   "property": "C68",
   "status": "proved",
   "theorems": [
    "C68_copy",
    "C68_unnamed"
   ],
   "note": ""
  },
  {
   "property": "C69",
   "status": "proved",
   "theorems": [
    "C69_random",
    "C69_raises"
   ],
   "note": "C69_random gives the chain, its dimensions and axes, the entries (the next numbers of the stream, divided by the norm), the bound and the frame; C69_raises the errors."
  },
  {
   "property": "C70",
   "status": "proved",
   "theorems": [
    "C70_networks",
    "C70_qa",
    "C70_cc4",
    "C70_dub",
    "C70_senv",
    "C70_ncon",
    "C70_ncon_refuted"
   ],
   "note": "The value theorems are about calls of contract that return (as C57, C58). C70_ncon_refuted: the environment network differs from the formula in the comment when u is not mirror symmetric."
  },
  {
   "property": "C71",
   "status": "proved",
   "theorems": [
    "C71_dicts",
    "C71_pairing_refuted",
    "C71_swap",
    "C71_compare",
    "C71_arrays",
    "C71_relative_negative",
    "C71_relative_refuted",
    "C71_inverse",
    "C71_cutoff"
   ],
   "note": "Exact rationals instead of floats. Findings: C71_relative_refuted (relative comparison of non-positive numbers) and C71_pairing_refuted (mapToDict does not pair)."
  },
  {
   "property": "C72",
   "status": "proved",
   "theorems": [
    "C72_measures",
    "C72_values",
    "C72_projector_value",
    "C72_check_value",
    "C72_products",
    "C72_check",
    "C72_diff",
    "C72_diff_refuted",
    "C72_normalize",
    "C72_eye",
    "C72_eye_one",
    "C72_eye_refuted",
    "C72_dtype",
    "C72_dtype_int_refuted"
   ],
   "note": "Exact real matrices. C72_values, C72_projector_value and C72_check_value give the values themselves. Findings: C72_diff_refuted, C72_eye_refuted, C72_dtype_int_refuted."
  }
 ]
}