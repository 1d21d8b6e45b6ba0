{"id": "C01", "title": "Reordering legs never changes the tensor", "statement": "After moveLegsToFront, moveLabelsToFront or reArrange succeeds, the legs appear in the requested order followed by the untouched legs in their old order, and the entry found by giving each leg its index is the same as before the call.", "quantifier": "all tensors (any rank, any dimensions, any data), all duplicate-free lists of its legs, all index assignments", "why_tests_cant": "The claim ranges over every rank, shape, permutation and data array; a test fixes one.", "anchors": ["src/CTL/tensor/tensor.py:moveLegsToFront", "src/CTL/tensor/tensor.py:moveLabelsToFront", "src/CTL/tensor/tensor.py:reArrange"]}
{"id": "C02", "title": "toMatrix is the mixed-radix flattening of rows and columns", "statement": "toMatrix(rows, cols) returns the matrix whose (r, c) entry is the tensor entry whose row legs carry the digits of r and whose column legs carry the digits of c; the tensor itself is not changed; rows and cols that do not partition the legs raise an error.", "quantifier": "all tensors, all splits of the legs into rows and columns in any order, all matrix positions", "why_tests_cant": "Every split and order of legs is a different case; tests exercise a handful.", "anchors": ["src/CTL/tensor/tensor.py:toMatrix", "src/CTL/funcs/funcs.py:listDifference", "src/CTL/funcs/funcs.py:compareLists"]}
{"id": "C03", "title": "outProduct merges legs without losing or moving an entry", "statement": "outProduct(legs, label) replaces the listed legs by one front leg whose dimension is the product of their dimensions, and the entry at the combined index equals the old entry at the mixed-radix digits. A TensorLike gets the same legs and dimensions as the Tensor would.", "quantifier": "all tensors, all non-empty duplicate-free leg lists, all index assignments", "why_tests_cant": "Unbounded rank and dimensions.", "anchors": ["src/CTL/tensor/tensor.py:outProduct"]}
{"id": "C04", "title": "sumOutLeg sums exactly one index", "statement": "sumOutLeg(leg, weights) on a dense tensor removes that leg and replaces each entry by the (weighted) sum over that index; on a diagonal tensor the represented dense tensor changes in the same way.", "quantifier": "all tensors, all legs, all weight vectors, all remaining indices; dense and diagonal", "why_tests_cant": "All shapes and all leg positions; the diagonal case changes representation at the last leg.", "anchors": ["src/CTL/tensor/tensor.py:sumOutLeg", "src/CTL/tensor/diagonalTensor.py:sumOutLeg", "src/CTL/funcs/funcs.py:sumOnAxis"]}
{"id": "C05", "title": "trace is the sum of equal row and column indices", "statement": "trace(rows, cols) returns the sum over matching row/column indices of the tensor entries, and raises if the two sides have different total dimension; for a diagonal tensor it returns the sum of the diagonal, which agrees with the matrix trace whenever rows and columns split the legs of a 2-leg diagonal tensor.", "quantifier": "all tensors and all leg splits", "why_tests_cant": "Unbounded shapes.", "anchors": ["src/CTL/tensor/tensor.py:trace", "src/CTL/tensor/diagonalTensor.py:trace"]}
{"id": "C06", "title": "Constructor arguments are either rejected or deduced consistently", "statement": "Tensor(...) with any combination of legs, shape, labels and data either raises or yields a tensor whose shape equals its leg dimensions, whose labels equal its leg names, whose data has exactly that shape and is the row-major reshape of the given data, and whose legs all belong to it.", "quantifier": "all combinations of present/absent legs, shape, labels and data with arbitrary values", "why_tests_cant": "The deduction rules form a case analysis over all argument combinations with unbounded contents.", "anchors": ["src/CTL/tensor/tensor.py:deduction", "src/CTL/tensor/tensor.py:generateData", "src/CTL/tensor/tensor.py:generateLabels"]}
{"id": "C07", "title": "Diagonal constructor keeps one entry per diagonal position", "statement": "DiagonalTensor(...) either raises or yields a tensor whose legs share one dimension and which stores exactly that many diagonal entries.", "quantifier": "all combinations of legs, shape, labels, data", "why_tests_cant": "Tests cover chosen combinations; the claim fails on an untested one (1-D data whose length is the full product).", "anchors": ["src/CTL/tensor/diagonalTensor.py:deduction", "src/CTL/tensor/diagonalTensor.py:checkShapeDataCompatible", "src/CTL/tensor/diagonalTensor.py:generateData"]}
{"id": "C08", "title": "copy is independent of the original", "statement": "t.copy() yields a tensor with the same labels, shape and entries, on new unlinked legs, leaves the original and its links unchanged, and no later rename, reorder, merge or sum on either one changes the other.", "quantifier": "all tensors and all later sequences of in-place operations on one of the two", "why_tests_cant": "Quantifies over arbitrary operation histories.", "anchors": ["src/CTL/tensor/tensor.py:copy", "src/CTL/tensor/tensor.py:toTensorLike", "src/CTL/tensor/diagonalTensor.py:copy"]}
{"id": "C09", "title": "Label operations touch the intended leg only", "statement": "renameLabel renames the first leg carrying the label and nothing else (no-op when absent); renameLabels applies the pairs one after another; it is a simultaneous substitution whenever no new name occurs among the later old names, and swapping two labels in one call does not swap them.", "quantifier": "all tensors, all label lists", "why_tests_cant": "Quantifies over arbitrary label lists including collisions.", "anchors": ["src/CTL/tensor/tensor.py:renameLabel", "src/CTL/tensor/tensor.py:renameLabels", "src/CTL/tensor/tensor.py:indexOfLabel"]}
{"id": "C10", "title": "Tensor tags round-trip", "statement": "addTensorTag(name) followed by removeTensorTag() restores every leg name when the tag has no '-'; a tag containing '-' is not restored; addTensorTag raises when a leg is already tagged, and then the legs before the offending one stay tagged.", "quantifier": "all tensors, all leg names and tags", "why_tests_cant": "All strings.", "anchors": ["src/CTL/tensor/tensor.py:addTensorTag", "src/CTL/tensor/tensor.py:removeTensorTag"]}
{"id": "C11", "title": "Duplicate labels resolve to distinct legs in order", "statement": "getLegsByLabel(labels) returns for the k-th request of a label the k-th leg carrying it, never the same leg twice, and raises exactly when some label is requested more often than it occurs.", "quantifier": "all label lists and all request lists", "why_tests_cant": "All multiplicities and interleavings.", "anchors": ["src/CTL/tensor/tensor.py:getLegsByLabel", "src/CTL/funcs/funcs.py:generateIndices"]}
{"id": "C12", "title": "makeLink builds symmetric bonds or raises", "statement": "Linking free legs of equal dimension makes each the other's anotherSide() and keeps every other link; unequal dimensions, missing names or list-length mismatch raise; a failure in the middle of a list leaves the earlier pairs linked. Any sequence of successful links of free legs keeps all links symmetric.", "quantifier": "all networks, all leg lists, all call sequences", "why_tests_cant": "Quantifies over histories of links and over failure positions.", "anchors": ["src/CTL/tensor/contract/link.py:makeLink", "src/CTL/tensor/bond.py:Bond", "src/CTL/tensor/leg.py:anotherSide"]}
{"id": "C13", "title": "Relinking a linked leg leaves a dangling partner", "statement": "Linking an already linked leg to a third leg leaves the old partner pointing at a bond that no longer points back, so anotherSide() is not symmetric afterwards.", "quantifier": "all networks with a linked leg and any third leg of equal dimension", "why_tests_cant": "Universal statement about every network state in which a leg is relinked.", "anchors": ["src/CTL/tensor/contract/link.py:makeLink", "src/CTL/tensor/bond.py:Bond"]}
{"id": "C14", "title": "Contracting two dense tensors is the Einstein sum", "statement": "contractTwoTensors(ta, tb) of dense tensors returns the tensor whose legs are the unshared legs of ta then those of tb and whose entries are the sum over all shared bonds of the products of entries.", "quantifier": "all pairs of dense tensors with any number of shared bonds, any leg order, any dimensions, any data in a commutative semiring", "why_tests_cant": "Unbounded ranks, orders and dimensions.", "anchors": ["src/CTL/tensor/contract/contract.py:contractTwoTensors", "src/CTL/tensor/contract/contract.py:shareBonds", "src/CTL/tensor/tensor.py:toMatrix"]}
{"id": "C15", "title": "Contracting with diagonal tensors equals contracting the dense tensors they represent", "statement": "When one or both tensors are diagonal and they share at least one bond, contractTwoTensors returns a tensor representing the same Einstein sum as if the diagonals were written out as dense tensors, in either argument order.", "quantifier": "all pairs with at least one diagonal tensor, any number of shared bonds and remaining legs", "why_tests_cant": "Different code paths per rank and per number of remaining legs.", "anchors": ["src/CTL/tensor/contract/contract.py:contractTwoTensors", "src/CTL/tensor/diagonalTensor.py:DiagonalTensor"]}
{"id": "C16", "title": "Outer products", "statement": "With no shared bond, contracting dense/dense or diagonal/dense returns the outer product of the represented tensors; for two diagonal tensors the returned tensor is not the outer product.", "quantifier": "all pairs of tensors without shared bonds", "why_tests_cant": "The diagonal/diagonal failure holds for all non-trivial data, which tests do not examine.", "anchors": ["src/CTL/tensor/contract/contract.py:contractTwoTensors"]}
{"id": "C17", "title": "One contraction step preserves the value of the whole network", "statement": "Replacing two tensors of a network by their contraction leaves the value of the network (sum over all internal bonds of the product of all entries) unchanged for every assignment of the free legs, and keeps the network well formed.", "quantifier": "all well-formed networks of any size, all pairs in it (not two diagonal tensors without a shared bond)", "why_tests_cant": "Quantifies over all networks and all pairs.", "anchors": ["src/CTL/tensor/contract/contract.py:contractTwoTensors", "src/CTL/tensor/contract/contract.py:shareBonds"]}
{"id": "C18", "title": "The contraction order does not matter", "statement": "Contracting a list of tensors along any complete sequence returns a tensor with the same free legs whose entries are the network value; any two complete sequences agree entry by entry.", "quantifier": "all well-formed networks and all complete contraction sequences (without diagonal/diagonal outer products)", "why_tests_cant": "The number of sequences grows super-exponentially.", "anchors": ["src/CTL/tensor/contract/optimalContract.py:contractAndCostWithSequence", "src/CTL/tensor/contract/optimalContract.py:contractWithSequence"]}
{"id": "C19", "title": "Shape-only contraction predicts the real result", "statement": "Running the same contraction on TensorLikes yields a result with exactly the labels, dimensions and diagonal flag of the real contraction (up to leg order when one tensor is diagonal), and never needs data.", "quantifier": "all pairs of tensors and their TensorLike shadows; all sequences", "why_tests_cant": "All shapes; all paths of the case analysis.", "anchors": ["src/CTL/tensor/contract/contract.py:contractTwoTensors", "src/CTL/tensor/tensor.py:toTensorLike"]}
{"id": "C20", "title": "Mixing Tensor and TensorLike is refused", "statement": "contractTwoTensors raises TypeError when exactly one argument is a TensorLike, whatever the arguments, and no leg, bond partner or entry is changed by the failed call.", "quantifier": "all pairs of a Tensor and a TensorLike (dense or diagonal), in either order", "why_tests_cant": "All inputs; also an absence-of-effect claim.", "anchors": ["src/CTL/tensor/contract/contract.py:contractTwoTensors"]}
{"id": "C21", "title": "mergeLink fuses parallel bonds and preserves the network", "statement": "When two dense tensors share two or more bonds, mergeLink leaves exactly one bond between them, with dimension the product of the old ones, and the value of every network containing them is unchanged; sharing none is a no-op and sharing one only renames.", "quantifier": "all networks and all pairs of dense tensors in it, any number of shared bonds", "why_tests_cant": "Unbounded number of bonds; statement about every surrounding network.", "anchors": ["src/CTL/tensor/contract/link.py:mergeLink", "src/CTL/tensor/tensor.py:outProduct"]}
{"id": "C22", "title": "contractCost counts the multiplications", "statement": "For dense tensors contractCost equals the number of index assignments of all distinct bonds involved (the size of the sum); with one diagonal tensor it equals the size of the result of the contraction.", "quantifier": "all pairs of tensors", "why_tests_cant": "Unbounded shapes.", "anchors": ["src/CTL/tensor/contract/optimalContract.py:contractCost"]}
{"id": "C23", "title": "copyTensorList reproduces the network", "statement": "copyTensorList returns fresh tensors whose internal links mirror the originals leg by leg, whose value is the same, and leaves the originals unchanged; bonds leaving the list become free legs.", "quantifier": "all well-formed lists of tensors", "why_tests_cant": "All topologies.", "anchors": ["src/CTL/tensor/contract/optimalContract.py:copyTensorList"]}
{"id": "C24", "title": "Out-of-place contraction leaves its inputs alone", "statement": "contractAndCostWithSequence(inplace=False) does not change any leg, link, name or entry of the tensors it is given, for any sequence, even when it raises.", "quantifier": "all tensor lists, all sequences", "why_tests_cant": "Frame property over all executions including failing ones.", "anchors": ["src/CTL/tensor/contract/optimalContract.py:contractAndCostWithSequence", "src/CTL/tensor/contract/optimalContract.py:copyTensorList"]}
{"id": "C25", "title": "Brute-force search is optimal", "statement": "optimalContractSequence(bf=True) reports the minimum total cost over all binary contraction trees of the network and returns a sequence achieving it. With exact dimensions this needs the diagonal tensors to have one common dimension and no closed group of diagonal tensors beside another diagonal tensor (otherwise the cost of their outer product depends on the order or raises IndexError).", "quantifier": "all tensor graphs, all dimension assignments, both cost models", "why_tests_cant": "Optimality ranges over all trees.", "anchors": ["src/CTL/tensor/contract/tensorGraph.py:optimalContractSequence", "src/CTL/tensor/contract/tensorGraph.py:solveSet"]}
{"id": "C26", "title": "Capped search is optimal", "statement": "The default search, when it returns, returns a sequence whose cost is minimal over all contraction trees that never take an outer product of two diagonal tensors, provided every contraction has positive cost.", "quantifier": "all tensor graphs with positive costs, both cost models", "why_tests_cant": "The cost-cap pruning is only correct by an invariant over all passes.", "anchors": ["src/CTL/tensor/contract/tensorGraph.py:capping"]}
{"id": "C27", "title": "When the capped search terminates", "statement": "With positive costs the default search terminates if the network has a non-diagonal tensor or is connected (with exact dimensions a tensor without legs makes it raise ValueError at once); it runs forever if all tensors are diagonal, there are at least two and the network is disconnected, and also on a network of two or more tensors if every contraction costs zero.", "quantifier": "all tensor graphs with at least one tensor", "why_tests_cant": "Non-termination cannot be observed by a test.", "anchors": ["src/CTL/tensor/contract/tensorGraph.py:capping", "src/CTL/tensor/contract/tensorGraph.py:isDiagonalOuterProduct"]}
{"id": "C28", "title": "Every generated sequence is complete", "statement": "A sequence returned by the brute-force, capped or greedy search for n tensors has n-1 steps, each step names two live tensors, and executing it leaves the whole network contracted in slot 0. The documented order a < b inside a step holds for greedy but not for the optimal searches.", "quantifier": "all tensor graphs", "why_tests_cant": "All sizes and topologies.", "anchors": ["src/CTL/tensor/contract/tensorGraph.py:optimalContractSequence", "src/CTL/tensor/contract/optimalContract.py:contractAndCostWithSequence"]}
{"id": "C29", "title": "Greedy search works exactly on connected networks", "statement": "The greedy search returns a complete sequence whose every step contracts tensors sharing a bond when the network is connected, and raises ValueError when it is not (IndexError if the last tensor is diagonal and has no legs).", "quantifier": "all tensor graphs with at least one tensor", "why_tests_cant": "All topologies.", "anchors": ["src/CTL/tensor/contract/tensorGraph.py:greedySearch"]}
{"id": "C30", "title": "The subset iterator enumerates every split once", "statement": "Enumerating a bit set yields each way to split it into two non-empty parts exactly once, in increasing order.", "quantifier": "all bit sets", "why_tests_cant": "All integers.", "anchors": ["src/CTL/tensor/contract/tensorGraph.py:subsetIterator"]}
{"id": "C31", "title": "Predicted cost equals executed cost", "statement": "With exact dimensions, the cost reported by the search for its sequence equals the total cost returned by contractAndCostWithSequence when the sequence is executed.", "quantifier": "all well-formed networks with positive dimensions", "why_tests_cant": "Links two independent implementations for all networks.", "anchors": ["src/CTL/tensor/contract/tensorGraph.py:getCost", "src/CTL/tensor/contract/optimalContract.py:contractCost", "src/CTL/tensor/contract/optimalContract.py:contractAndCostWithSequence"]}
{"id": "C32", "title": "Brute-force search can choose a contraction that evaluates wrongly", "statement": "There are networks for which contraction with bf=True returns entries different from the network value, because the search does not ban outer products of diagonal tensors; with the default search this never happens.", "quantifier": "existence for bf; all networks for the default search", "why_tests_cant": "The default half is universal.", "anchors": ["src/CTL/tensor/contract/tensorGraph.py:bruteForce", "src/CTL/tensor/contract/contract.py:contractTwoTensors"]}
{"id": "C33", "title": "A locked network refuses edits", "statement": "After contract() or lock(), every structural edit of a FiniteTensorNetwork raises and changes nothing until unlock(); editing between unlock and the next contract is always possible.", "quantifier": "all sequences of operations on a network object", "why_tests_cant": "Over all histories.", "anchors": ["src/CTL/tensornetwork/tensornetwork.py:checkLock", "src/CTL/tensornetwork/tensornetwork.py:contract"]}
{"id": "C34", "title": "FiniteTensorNetwork.contract does not touch its inputs", "statement": "contract(tensorDict) changes no leg, link, name or entry of the tensors in the dictionary, whether it returns or raises, so the same tensors can be used again and in several roles.", "quantifier": "all networks, all tensor dictionaries, including one tensor used under several names", "why_tests_cant": "Frame property over all executions.", "anchors": ["src/CTL/tensornetwork/tensornetwork.py:contract"]}
{"id": "C35", "title": "FiniteTensorNetwork.contract computes the linked network", "statement": "If the call returns, the result is the Einstein sum of the input tensors along the declared links, with free legs carrying their (renamed, untagged) names.", "quantifier": "all networks and dictionaries for which the call returns", "why_tests_cant": "All topologies and data.", "anchors": ["src/CTL/tensornetwork/tensornetwork.py:contract", "src/CTL/tensornetwork/tensornetwork.py:addLink"]}
{"id": "C36", "title": "The cached sequence goes stale after edits", "statement": "With realCost=False, after unlock() and addTensor/removeTensor the previously cached sequence is reused, so the next contract raises IndexError or silently leaves a tensor out.", "quantifier": "all networks with a cached sequence, any added/removed tensor", "why_tests_cant": "Universal statement about histories.", "anchors": ["src/CTL/tensornetwork/tensornetwork.py:contract", "src/CTL/tensornetwork/tensornetwork.py:optimalSeq"]}
{"id": "C37", "title": "Networks built with the default name list share it", "statement": "FiniteTensorNetwork() objects created without a name list share one list: a tensor added to one appears in all of them.", "quantifier": "all interleavings of operations on any number of networks", "why_tests_cant": "Over all histories of several objects.", "anchors": ["src/CTL/tensornetwork/tensornetwork.py:__init__", "src/CTL/tensornetwork/tensornetwork.py:addTensor"]}
{"id": "C38", "title": "Graph text round-trips", "statement": "Parsing the text form of a list of tensors with single-letter leg names and optional sizes gives back exactly the labels and sizes; equal names are linked, a name used three times is rejected.", "quantifier": "all such descriptions", "why_tests_cant": "All strings of a grammar.", "anchors": ["src/CTL/tensor/contract/tensorGraph.py:decodeSubText", "src/CTL/tensor/contract/tensorGraph.py:createTensorFromText", "src/CTL/tensor/contract/tensorGraph.py:createTensorListFromText"]}
{"id": "C39", "title": "Edge lists are complete, duplicate-free and current", "statement": "getEdges() lists every added edge exactly once after any sequence of addEdge and getEdges calls; free edges added after a query are missing until the next addEdge.", "quantifier": "all operation sequences", "why_tests_cant": "Over all histories.", "anchors": ["src/CTL/funcs/graph.py:getEdges", "src/CTL/funcs/graph.py:addEdge", "src/CTL/tensor/contract/tensorGraph.py:addFreeEdge"]}
{"id": "C40", "title": "Lattice generators produce the advertised graphs", "statement": "squareLatticePBC, squareLatticeFBC, doubleSquareLatticeFBC and completeGraph produce the documented number of vertices and edges, every edge joins lattice neighbours, and every neighbouring pair is joined (exactly once, except that periodic lattices of width 2 join neighbours twice and those of width 1 give self-loops).", "quantifier": "all lattice sizes", "why_tests_cant": "All n, m.", "anchors": ["src/CTL/funcs/graphFuncs.py"]}
{"id": "C41", "title": "divideIntoKParts enumerates weak compositions", "statement": "divideIntoKParts(n, k) yields every list of k non-negative integers with sum n exactly once, for k >= 1.", "quantifier": "all n and all k >= 1", "why_tests_cant": "All n, k.", "anchors": ["src/CTL/funcs/funcs.py:divideIntoKParts"]}
{"id": "C42", "title": "Binomial and multinomial counts are exact", "statement": "myComb(n, p) is the binomial coefficient and calculateDivisionTimes(parts) is the multinomial coefficient; the multinomials of all divisions of n into k parts add up to k**n.", "quantifier": "all n, p, k and all divisions", "why_tests_cant": "All integers.", "anchors": ["src/CTL/funcs/funcs.py:myComb", "src/CTL/funcs/funcs.py:calculateDivisionTimes"]}
{"id": "C43", "title": "List helpers have multiset semantics", "statement": "compareLists is multiset equality; listDifference removes one occurrence per request and raises when one is missing; listSymmetricDifference keeps elements of exactly one list; commonElements keeps minimum multiplicities.", "quantifier": "all lists", "why_tests_cant": "All lists.", "anchors": ["src/CTL/funcs/funcs.py:compareLists", "src/CTL/funcs/funcs.py:listDifference", "src/CTL/funcs/funcs.py:commonElements", "src/CTL/funcs/funcs.py:listSymmetricDifference"]}
{"id": "C44", "title": "Digit conversions are positional", "statement": "intToBitList, intToDBaseTuple and getIndexDict return the digits whose positional value is the input, are in range, and are injective on inputs below the number of digit strings.", "quantifier": "all integers, lengths, bases, shapes", "why_tests_cant": "All integers.", "anchors": ["src/CTL/funcs/funcs.py:intToBitList", "src/CTL/funcs/funcs.py:intToDBaseTuple", "src/CTL/funcs/funcs.py:getIndexDict"]}
{"id": "C45", "title": "StringSet never hands out a name twice", "statement": "newString() returns a name not returned before and not removed since, for any random source and any history of newString/add/remove calls; add and remove also change the length of names generated later.", "quantifier": "all histories and all random sources", "why_tests_cant": "Over all histories and random outcomes.", "anchors": ["src/CTL/funcs/stringSet.py"]}
{"id": "C46", "title": "Ising tensor network equals the partition function", "statement": "The contraction value of the network built by IsingTNFromUndirectedGraph equals exactZFromGraphIsing, for any graph without self-loops and isolated vertices and non-negative couplings.", "quantifier": "all such graphs and couplings (real numbers)", "why_tests_cant": "All graphs, real couplings.", "anchors": ["src/CTL/models/Ising.py:IsingTNFromUndirectedGraph", "src/CTL/models/Ising.py:exactZFromGraphIsing", "src/CTL/models/Ising.py:IsingEdgeMatrix"]}
{"id": "C47", "title": "Moving MPS sites permutes physical legs as documented", "statement": "moveTensor(i, j) moves the physical leg at site i to site j and shifts the ones in between by one, keeping their order; makeAdjacent(i, j) brings two sites next to each other and returns their positions.", "quantifier": "all chain lengths and positions", "why_tests_cant": "All n, i, j.", "anchors": ["src/CTL/examples/MPS.py:moveTensor", "src/CTL/examples/MPS.py:makeAdjacent", "src/CTL/examples/MPS.py:swap"]}
{"id": "C48", "title": "Truncation in merge is exact when nothing is truncated", "statement": "merge(ta, tb, chi) replaces two tensors by two tensors sharing one bond of dimension at most chi whose contraction equals the old one, whenever the discarded singular values are zero.", "quantifier": "all pairs of tensors sharing a bond and every exact singular value decomposition", "why_tests_cant": "All data; relies on an algebraic identity, not on samples.", "anchors": ["src/CTL/tensor/contract/contract.py:merge"]}
{"id": "C49", "title": "Search for a threshold by bisection", "statement": "binarySearch(left, right, f, eps) terminates and returns a point within eps of the switching point of any monotone predicate that switches inside the interval.", "quantifier": "all intervals, all monotone predicates, all eps > 0", "why_tests_cant": "All predicates.", "anchors": ["src/CTL/funcs/funcs.py:binarySearch"]}
{"id": "C50", "title": "getChi ignores the bond dimensions", "statement": "FreeBoundaryMPS computes -1 as the bond dimension of every chain with at least one bond of non-negative dimension, so chi=None yields -1 and the documented warning can never fire.", "quantifier": "all MPS", "why_tests_cant": "Universal.", "anchors": ["src/CTL/examples/MPS.py:getChi"]}
{"id": "C51", "title": "Schmidt decomposition of two tensors is exact when nothing is truncated", "statement": "SchimdtDecomposition(ta, tb, chi, squareRootSeparation=True, swapLabels) replaces two tensors by two tensors sharing one bond of dimension at most chi, named as the first common bond was; the remaining leg objects keep their names, links and owners' side except those in swapLabels, which change sides; the value of every surrounding network is unchanged whenever the discarded singular values are zero. Invalid arguments are rejected by an assertion before anything changes.", "quantifier": "all pairs of dense tensors sharing bonds, all label lists, every exact singular value decomposition", "why_tests_cant": "All data and all surrounding networks; relies on an algebraic identity.", "anchors": ["src/CTL/examples/Schimdt.py:SchimdtDecomposition"]}
{"id": "C52", "title": "canonicalize brings an MPS into canonical form around a site", "statement": "canonicalize(i) yields a chain with the same outgoing leg objects in the same order; every tensor left of i is an isometry towards its right neighbour and every tensor right of i towards its left neighbour; each bond is at most chi and at most the product of the outgoing dimensions on the side away from i; the value of every surrounding network is unchanged if nothing nonzero is discarded. Positions outside the chain are refused by an assertion, a negative chi raises ValueError, a single tensor is left alone.", "quantifier": "all matrix product states of any length and dimensions, all positions, every decomposition", "why_tests_cant": "All lengths, data and surrounding networks; orthogonality must survive all later steps of both sweeps.", "anchors": ["src/CTL/examples/MPS.py:canonicalize"]}
{"id": "C53", "title": "isIsometry and checkCanonical decide the canonical form", "statement": "isIsometry(tensor, labels) tests whether the matrix with the labelled legs as columns times its conjugate transpose is the identity; checkCanonical(e) is True when all tensors other than e are isometries towards e (and only then, for an exact identity test); after canonicalize(i) checkCanonical() and checkCanonical(i) are True. Missing labels and positions are refused by assertions; a tensor without data counts as an isometry.", "quantifier": "all tensors and label lists, all matrix product states, every identity test", "why_tests_cant": "Universal over shapes, label orders and chain lengths.", "anchors": ["src/CTL/tensor/tensorFunc.py:isIsometry", "src/CTL/examples/MPS.py:checkCanonical"]}
{"id": "C54", "title": "createMPSFromTensor replaces a tensor by an equal MPS", "statement": "For a tensor with at least two legs inside any network, createMPSFromTensor(tensor, chi) yields a chain of tensors whose outgoing legs are the original leg objects in order, keeping their links, with every inner bond of dimension at most chi in the exact case at most the product of the dimensions on either side, and all other tensors, their legs and links untouched; if the decompositions are exact and discard only zeros the value of the whole network is unchanged, which is the case for an exact library, a chi with room at every cut and a tensor that is not zero. If some decomposition before the last keeps no value the call raises ValueError (in particular for a tensor of zeros with three legs). One leg: the tensor is the only site. No legs, or TensorLike with two or more legs: AssertionError.", "quantifier": "all networks, tensors (also diagonal ones), numbers of legs, dimensions, entries, chi and decomposition libraries with the right shapes", "why_tests_cant": "Universal over ranks, shapes, entries and the surrounding network; the failing rank-0 case is only hit by special data.", "anchors": ["src/CTL/examples/MPS.py:createMPSFromTensor", "src/CTL/examples/Schimdt.py:matrixSchimdtDecomposition"]}
{"id": "C55", "title": "contractMPS contracts two MPSes along their only common bond", "statement": "For two matrix product states in a closed network, commonLegs lists exactly the positions of the outgoing legs linked to each other. If there is exactly one such link, contractMPS returns a tensor without legs when both have one site, and otherwise an MPS whose outgoing legs are the remaining ones of the first followed by the remaining ones of the second, the same leg objects with the same links, with the smaller of the two bounds; all other tensors are untouched, the free legs of the network are the same, and its value is unchanged when no exchange loses anything, which an exact library and bounds with room guarantee. With no common link or several the call raises AssertionError and changes nothing.", "quantifier": "all networks, chains, lengths, positions, dimensions, entries, libraries", "why_tests_cant": "Universal over positions, lengths and the network around the two chains.", "anchors": ["src/CTL/examples/MPS.py:commonLegs", "src/CTL/examples/MPS.py:contractMPS"]}
{"id": "C56", "title": "mergeMPS replaces all bonds between two MPSes by one", "statement": "doubleMerge at two neighbouring sites of each of two MPSes in a closed network, whose outgoing legs are linked straight or crossed, leaves two MPSes within their bounds with one bond in place of the two; the other outgoing legs, their links and the rest of the network are as before. With an exact rank-finding decomposition and enough room, doubleMergeByBond does this for any two common bonds, wherever they are, and mergeMPS for all common bonds (two, or any number with begin): afterwards exactly one common bond is left and the value of the network is unchanged. With at most one common bond nothing happens; more than two without begin raise AssertionError and change nothing; so does a bond that does not lead from one MPS to the other.", "quantifier": "all networks, chains, lengths, positions, numbers of common bonds, dimensions, entries, libraries", "why_tests_cant": "Universal over the positions of the bonds, straight and crossed, and over the network around the two chains; the number of merges is unbounded.", "anchors": ["src/CTL/examples/MPS.py:doubleMerge", "src/CTL/examples/MPS.py:getBondTensorIndices", "src/CTL/examples/MPS.py:doubleMergeByBond", "src/CTL/examples/MPS.py:mergeMPS"]}
{"id": "C57", "title": "contractWithMPS contracts a network to its value", "statement": "For a closed network with a nonzero value, an exact rank-finding decomposition, a chi of at least the product of all leg dimensions and a sequence whose pairs always name two different groups with a link between them, contractWithMPS returns a tensor with one leg of the same dimension for every free leg of the network and exactly the network's values. With the greedy flag and no sequence this holds for every connected network. Without a sequence the generated one is used and its exceptions are passed on. A first pair without a link raises AssertionError, and the default search chooses such a pair for a connected network of two vectors and a tensor with four legs.", "quantifier": "all networks, ranks, dimensions, entries, sequences, numbers of tensors and of links between them, libraries", "why_tests_cant": "Universal over the network, the order of the contractions and the number of common bonds that appear on the way; the failing default depends on the costs of the search.", "anchors": ["src/CTL/examples/MPS.py:contractWithMPS", "src/CTL/examples/MPS.py:createMPSFromTensor", "src/CTL/examples/MPS.py:mergeMPS", "src/CTL/examples/MPS.py:contractMPS"]}
{"id": "C58", "title": "The ready-made networks compute the advertised sums", "statement": "Every function of contractExp.py that makes a network makes a new one with the structure of its drawing and touches nothing else. Contracting it with dense tensors of matching legs (in any leg order, any dimensions) returns a dense tensor with exactly the advertised leg names and dimensions, whose entries are the explicit sum over the linked legs of the products of the entries; joined legs are numbered row-major in the advertised order. Afterwards the network can be contracted again with tensors of other dimensions and the same holds; contracting other networks does not disturb it. Directions other than l/r and u/d are refused; oppositeDirection is an involution.", "quantifier": "all dense tensors, all dimensions, all entries, all leg orders, all earlier uses of the network", "why_tests_cant": "Seventeen networks with up to nine tensors and fourteen links: a swapped label or joined pair in the wrong order shows only for asymmetric tensors and unequal dimensions, while the tests use symmetric ones.", "anchors": ["src/CTL/tensor/contract/contractExp.py:squareContractFTN", "src/CTL/tensor/contract/contractExp.py:HOTRGHorizontalContractFTN", "src/CTL/tensor/contract/contractExp.py:CTMRGOddFTN", "src/CTL/tensor/contract/contractExp.py:EvenblyTNRQEnvFTN", "src/CTL/funcs/funcs.py:oppositeDirection"]}
{"id": "C59", "title": "Tensor renormalization without truncation computes the partition function", "statement": "SVDDecomposition returns u (rows x k) and v (columns x k) with k = min(chi, number of values), u = U sqrt(S), v the conjugate transpose of sqrt(S) V, and the error is the relative weight of the values cut off (0 if none is). SquareTRG(a) keeps a normalized copy of the tensor; every call of iterate() that returns replaces it by a tensor with four legs u, l, d, r of dimension min(chi, V*H) made from the four halves, doubles the degrees of freedom, appends the norm, the two errors and a copy, and leaves all other tensors as they were. If the numbers are real, nothing but zeros is cut off and the norms can be divided by, then for every torus L with any number of sites: the partition function of the n times refined lattice of the given tensor equals product(norms, each doubled for every later step)^|L| times the partition function of L with the current tensor. In particular 2m steps and a trace give the partition function of the 2^m x 2^m torus, and entry i of logZDensity is log(Z_i) divided by 2^i times the degrees of freedom given.", "quantifier": "all tensors, dimensions, chi, numbers of steps, tori, number systems", "why_tests_cant": "The tests run Ising tensors (symmetric in all legs, equal dimensions, truncated) and compare a few digits: a wrong leg pairing, a wrong power of a norm or a missing factor of two in the degrees of freedom changes digits that truncation hides; the complex case is not tested at all.", "anchors": ["src/CTL/examples/TRG.py:SquareTRG", "src/CTL/funcs/decompose.py:SVDDecomposition"]}
{"id": "C60", "title": "Higher-order tensor renormalization without loss computes the partition function", "statement": "solveEnv returns the eigenvectors of the last min(chi, number of values above the threshold) values in reverse order (all of them if that number is 0) and the share of the values left out. HOTRG(a) keeps a normalized copy of the tensor and six networks. Every call of iterate() that returns tries the directions u, d, l, r, chooses the first one with the smallest error (if no error is negative), fuses two copies of the tensor in that direction with the projector of that trial on one side and its conjugate on the other, doubles the degrees of freedom, appends norm, error, archived copy, direction and projector, and leaves all other tensors as they were. If the eigenvectors are exact, the numbers real and only zero values dropped, the projector loses nothing. If no step loses anything and the norms can be divided by, then for every torus L: the partition function of the given tensor on the lattice with every row (column) of L doubled once for every step in the directions l, r (u, d) equals product(norms, each doubled for every later step)^|L| times the partition function of L with the current tensor. In particular a run and a trace give the partition function of the 2^columns x 2^rows torus, and entry i of logZDensity is log(Z_i) divided by 2^i times the degrees of freedom given. impurityIterate performs the stored step on two other tensors.", "quantifier": "all tensors, dimensions, bounds, numbers of steps, sequences of directions, tori, number systems, eigenvalue routines", "why_tests_cant": "The tests run the Ising tensor, which is symmetric under all reflections, so the four directions are interchangeable and a projector on the wrong side or with its legs exchanged gives the same digits; the value is compared after truncation only.", "anchors": ["src/CTL/examples/HOTRG.py:HOTRG", "src/CTL/funcs/linalg.py:solveEnv"]}
{"id": "C61", "title": "Impurity tensor networks compute the moments of an observable", "statement": "ImpurityTensorNetwork(ts, n) copies the tensors, keeps the first n of them or fills up with None. initialize() divides every tensor by the first norm of the RG and archives copies. Every call of iterate() that returns replaces the tensor of order i by the sum over j of binomial(i, j)/2^i times the tensors of the orders j and i - j fused with the stored projector of the RG, divided by the sum of the weights (which is 1) and by the norm of that step, doubles the degrees of freedom, and leaves all other tensors as they were. If no step loses anything, then for every torus L and every order i: the sum over all i-tuples of sites of the given lattice, of the partition function with the tensor of order j on every site that occurs j times, equals product(norms)^|L| times (2^steps)^i times the same sum for L with the current tensors. measureObservables() then returns for step m and order i the number y with y * (2^m)^i * Z = that sum on the torus of step m; if the tensor of order j is T * o^j, this sum is the i-th moment of the sum of the observable o over all sites.", "quantifier": "all tensors, dimensions, orders, numbers of steps, sequences of directions, tori, number systems in which 2 can be divided by", "why_tests_cant": "The test compares the magnetization of one model with a tolerance after truncation and orders up to 2; wrong binomial weights for orders from 3 on, a norm of the wrong step or a projector on the wrong side for one direction would not be seen.", "anchors": ["src/CTL/examples/impurity.py:ImpurityTensorNetwork", "src/CTL/funcs/funcs.py:divideIntoKParts", "src/CTL/funcs/funcs.py:calculateDivisionTimes", "src/CTL/examples/HOTRG.py:HOTRG.impurityIterate"]}
{"id": "C62", "title": "The tensors of the square lattice Ising model are its Boltzmann weights", "statement": "squareIsingTensor(beta, obs, symmetryBroken) always returns a new tensor with legs u, l, d, r of dimension 2, whose entry is the observable of the four spins times exp(-beta * energy of the square) times exp(symmetryBroken * half the sum of the spins); any obs except None, 'M', 'E' raises AssertionError. On every torus the network of this tensor has the value of the partition function of the Ising model whose spins are the bonds, with coupling beta in the field symmetryBroken. The tensors with obs are those without times the observable of their square, and the i-th moment of the sum of that observable over all sites (C61) is the thermal sum of the i-th power of the magnetization or of the energy. plaquetteIsingTensor holds exp(-energy) of a ring of four spins with two alternating couplings, raises AssertionError for a sequence of another length than 2, and in the diamond form its network on every torus is the partition function of the Ising model with these two couplings.", "quantifier": "all beta, fields and weights (reals), all observables, all tori, all orders of moments, all heaps", "why_tests_cant": "The tests compare single numbers of truncated runs with a tolerance; an anisotropic coupling on the wrong bonds, or a magnetization that counts one direction twice, cannot be seen on the symmetric inputs used there.", "anchors": ["src/CTL/models/Ising.py:squareTensorMeasure", "src/CTL/models/Ising.py:squareIsingTensor", "src/CTL/models/Ising.py:plaquetteIsingTensor", "src/CTL/funcs/funcs.py:intToBitTuple"]}
{"id": "C63", "title": "tensorSVDDecomposition cuts a tensor into two isometries and a diagonal tensor", "statement": "tensorSVDDecomposition(a, rows, cols, innerLabels, chi, errorOrder), when it returns, has made three new tensors from the matrix of a with these rows and columns (entry by entry the tensor a): u holds the first k left singular vectors, s is a diagonal tensor with the first k singular values, v holds the first k right singular vectors, where k is the least of chi and the dimensions; their legs have the joined names and the inner names asked for; the error is the norm of the values left out. Everything else is unchanged. If the decomposition is exact and the values left out are zero, the product of the three is the tensor. With rows or cols None it raises TypeError.", "quantifier": "all tensors, dimensions, divisions of the legs, chi, orders, number systems", "why_tests_cant": "There is no test of this function alone; it is reached through CTMRG with one row and one column leg, where joined names and the order of the indices play no part.", "anchors": ["src/CTL/tensor/tensorFunc.py:tensorSVDDecomposition"]}
{"id": "C64", "title": "CTMRG without loss computes the open lattice of size L by L", "statement": "CTMRG(a, chi) holds the corner and the edges of one site; every iterate() that returns replaces them by those of one more site in each direction, reduced to at most chi values with the singular vectors of the corner, divided by their norms, and appends copies of the old tensors, logarithms and the error to the records. If every reduction so far is exact (the values kept give back the corner, and the edges lie in the spaces kept), then getZ(L), for each L >= 1 with L / 2 at most the number of sites along the corner, whenever it returns, returns the sum over all bonds of the L by L lattice with open boundary in which the right half and the upper half are mirrored, and does not change the object; for larger L it first iterates. If the tensor is mirror symmetric this is the lattice with the same tensor everywhere. Keeping all values with orthogonal factors is exact.", "quantifier": "all tensors (with different horizontal and vertical dimensions), chi, numbers of iterations, L even and odd, all earlier calls of getZ, number systems", "why_tests_cant": "The test compares a few sizes of one symmetric model with a tolerance; an edge taken from the wrong record, a logarithm counted once instead of twice, or u and v exchanged cannot be told apart there.", "anchors": ["src/CTL/examples/CTMRG.py:CTMRG", "src/CTL/tensor/contract/contractExp.py:CTMRGCornerExtendFTN"]}
{"id": "C65", "title": "TriangleTRG without loss computes the refined triangle lattice; its density is divided by the wrong power", "statement": "TriangleTRG(alpha, chi) holds two triangles with the weights 1, alpha, 0 (at most one occupied corner), divided by their norms. Every iterate() that returns joins the two along leg 1, decomposes them the other way keeping at most chi values, puts three halves around a vertex for the new a and b, triples the degree of freedom, appends norms, the error and copies, and leaves every other tensor alone. triangleTensorTrace closes two triangles along the legs of the same name. If every decomposition so far is exact, then for every lattice of triangles (every bond joins an a and a b) the sum over the lattice refined n times equals the norms, each to three times the power of the next, times the sum over the lattice with the current tensors. logZDensity() returns for each step i the accumulated logarithms with weights 1/9^i; the logarithm of the lattice computed, per pair of cells, has the weights 1/3^i, so the returned numbers are wrong after the first.", "quantifier": "all alpha, chi, numbers of steps, worlds before the call, lattices of triangles, number systems and decompositions", "why_tests_cant": "The tests compare one entry of one renormalized tensor with a recorded value and bound the last error; the calls of logZDensity are commented out.", "anchors": ["src/CTL/examples/TRG.py:TriangleTRG", "src/CTL/tensor/contract/contractExp.py:triangleTensorTrace"]}
{"id": "C66", "title": "selfTrace is the sum of the squares of a tensor", "statement": "selfTrace(t) returns for every tensor with data, dense or diagonal, with any number of legs (linked or not), a tensor without legs whose number is the sum of the squares of the stored numbers of t; t and all other tensors and legs are as before. For a diagonal tensor without legs it raises IndexError and changes nothing.", "quantifier": "all tensors with data, ranks, dimensions, states of the heap, number systems", "why_tests_cant": "selfTrace has no test; the diagonal case contracts along all legs at once through a different branch of contractTwoTensors.", "anchors": ["src/CTL/tensor/contract/contractExp.py:selfTrace"]}
{"id": "C67", "title": "infiniteIsingExactM is the spontaneous magnetization", "statement": "For positive T and V, infiniteIsingExactM(T, V) returns the number m >= 0 with m^8 = max(0, 1 - sinh(2V/T)^(-4)); it is below 1, zero exactly from the critical temperature on, where sinh(2/T) = 1, strictly decreasing in T below it, and depends on V/T only. For negative V it is nan above the critical temperature of -V and the value for -V below. For T = 0 or V = 0 it raises ZeroDivisionError.", "quantifier": "all real T and V", "why_tests_cant": "Tests compare a few temperatures; the domain of the eighth root and the agreement of the two branches at the critical point concern all of them.", "anchors": ["src/CTL/models/Ising.py:infiniteIsingExactM"]}
{"id": "C68", "title": "copyOfTensors copies an MPS as a chain", "statement": "copyOfTensors of a FreeBoundaryMPS returns fresh tensors with the same entries, leg names and dimensions, linked exactly where the originals are linked to each other; they form a chain again, with the same value for all indices of the outgoing legs, and the originals and their links (also those to tensors outside) are as before. If the first two tensors have no legs named 'r' and 'l', it raises AttributeError and changes nothing that existed.", "quantifier": "all chains, lengths, dimensions, environments, states of the heap, number systems", "why_tests_cant": "Tests copy a few small states; that the links found by name are the links of the originals, and that nothing outside is touched, concerns every chain and environment.", "anchors": ["src/CTL/examples/MPS.py:copyOfTensors"]}
{"id": "C69", "title": "makeRandomMPS makes a chain of normalized tensors", "statement": "makeRandomMPS(n, virtualDim, physicalDim, chi) with n > 1 and dimensions given as a number or as lists of the lengths n - 1 and n returns a FreeBoundaryMPS of n new tensors that form a chain: each tensor is linked to the next by one bond, the legs are named 'l', 'r' and 'o', the outgoing legs and the bonds have exactly the required dimensions in the order of the lists, the axes are ordered outgoing, left, right, and the entries are the next random numbers (every tensor has its own) divided by the norm of the tensor. The bound is the dimension of the first bond if chi = -1, -1 (with a warning) if chi < -1, and chi otherwise. Nothing that existed before is changed. For n <= 1 or lists of the wrong length it raises AssertionError and changes nothing.", "quantifier": "all n, dimensions, chi, random numbers, states of the heap, norms and divisions", "why_tests_cant": "Tests make a few random states with equal dimensions; that the special cases for two tensors, for the ends and for the middle always give one chain with the right dimensions concerns every length and every list.", "anchors": ["src/CTL/examples/MPS.py:makeRandomMPS"]}
{"id": "C70", "title": "The networks of TNR.py compute the sums their comments give", "statement": "createQxAFTN, createCFTN, createCCFTN and createSCEnvSFTN make new networks and touch nothing else. Whenever contracting such a network returns, the result has exactly the legs the code reads afterwards and its entries are: q summed with A over the two legs of the projector; four of these around a plaquette; two plaquettes joined at their lower corners; the environment of the matrix s. The first three are the formulas in the comments of the code. The last is the formula in the comment if the disentangler u is mirror symmetric, and not in general: the network links the left tensors to the right legs of u.", "quantifier": "all tensors and dimensions (also the same tensor several times), contraction orders found, states of the heap, commutative semirings", "why_tests_cant": "There is no test of TNR.py; a run with the initial disentangler, which is symmetric, cannot tell the two ways of linking u apart.", "anchors": ["src/CTL/examples/TNR.py:createQxAFTN", "src/CTL/examples/TNR.py:createCFTN", "src/CTL/examples/TNR.py:createCCFTN", "src/CTL/examples/TNR.py:createSCEnvSFTN"]}
{"id": "C71", "title": "The dict, comparison and inversion helpers of funcs.py do what they say, except two", "statement": "mapToDict and identicalTensorDict return a dict with exactly the given keys, each once and in order of first occurrence, all with the same whole value (so mapToDict does not pair keys with the elements of x). tupleSwap swaps pairs and raises ValueError for any other length. floatEqual decides |a - b| < eps and is symmetric; floatArrayEqual decides that the shapes agree and all elements are close; getInRangeFunc decides the open interval. floatRelativeEqual compares with eps times the mean of a and b, not of their absolute values, so it is false for every two numbers whose sum is not positive, also for a number and itself. partialInverse inverts the first cutoff elements and puts zeros elsewhere; it fails exactly when an inverted element is zero or there are too few; with the position getCutoff finds for a positive threshold it never fails.", "quantifier": "all keys, values, tuples, rational numbers, tolerances, arrays, spectra and cutoffs", "why_tests_cant": "Tests compare a few positive numbers; the failure of the relative comparison shows only for numbers whose sum is not positive, and the characterizations quantify over all inputs.", "anchors": ["src/CTL/funcs/funcs.py:mapToDict", "src/CTL/funcs/funcs.py:identicalTensorDict", "src/CTL/funcs/funcs.py:tupleSwap", "src/CTL/funcs/funcs.py:floatEqual", "src/CTL/funcs/funcs.py:floatRelativeEqual", "src/CTL/funcs/funcs.py:floatArrayEqual", "src/CTL/funcs/funcs.py:getInRangeFunc", "src/CTL/funcs/funcs.py:partialInverse", "src/CTL/funcs/funcs.py:getCutoff"]}
{"id": "C72", "title": "The error measures vanish exactly on what they measure; ndEye and priorDataType outside one case each", "statement": "identityError is 0 exactly on identity matrices, projectorError exactly on matrices with orthonormal columns, and (for matrices that are not zero) diagError exactly on diagonal, symmetricError exactly on symmetric and matDiffError exactly on equal matrices; checkIdentity accepts the identity and everything it accepts is within eps of it in every entry. getDiffError is not the sum of squared differences of its docstring: it is 0 for 1 and -1. normalizeInfinity scales by a positive number so that the largest absolute value is 1 (zeros give nan, an empty array raises). ndEye(n, l) is 1 exactly on the diagonal for n other than 1; ndEye(1, l) is 1 at the first element only. priorDataType does not depend on the order and, for float and complex types, has the larger components and is complex exactly if one of the types is; integer types are taken for complex ones.", "quantifier": "all dimensions, real matrices, tolerances, index tuples, pairs of types", "why_tests_cant": "Tests use a few positive arrays and types; that a measure is zero only on the matrices it is named after is a statement about all matrices.", "anchors": ["src/CTL/funcs/funcs.py:identityError", "src/CTL/funcs/funcs.py:diagError", "src/CTL/funcs/funcs.py:checkIdentity", "src/CTL/funcs/funcs.py:symmetricError", "src/CTL/funcs/funcs.py:aDaggerAProduct", "src/CTL/funcs/funcs.py:aADaggerProduct", "src/CTL/funcs/funcs.py:projectorError", "src/CTL/funcs/funcs.py:getDiffError", "src/CTL/funcs/funcs.py:matDiffError", "src/CTL/funcs/funcs.py:ndEye", "src/CTL/funcs/funcs.py:priorDataType", "src/CTL/funcs/funcs.py:normalizeInfinity"]}
