{"id": "C01", "title": "Iterative data-flow solution is a fixed point and the best one", "statement": "When the iterative solver returns, every node's output is the transfer function applied to the meet of its predecessors' outputs (a fixed point of the data-flow equations), it is at least as precise as every other fixed point when the transfer functions are monotone, and the solver does return when the value lattice has finite height.", "quantifier": "all finite flow graphs with a distinguished entry, all node orders, all finite-height meet semilattices and all monotone transfer functions", "why_tests_cant": "A test runs one graph with one lattice; the claim is about convergence and optimality for every graph, cyclic or not, and every client analysis plugged into the template.", "anchors": ["include/tsar/ADT/DataFlow.h:solveDataFlowIteratively", "include/tsar/ADT/DataFlow.h:DataFlowTraits"]}
{"id": "C02", "title": "One topological pass solves an acyclic graph", "statement": "When the single-pass (topological) solver is applied to an acyclic graph it terminates after evaluating every reachable node once and its result satisfies the data-flow equations at every reachable node.", "quantifier": "all finite acyclic flow graphs, all meet semilattices, all transfer functions", "why_tests_cant": "The order of the traversal depends on graph shape and successor order; no finite set of graphs covers every DAG.", "anchors": ["include/tsar/ADT/DataFlow.h:solveDataFlowTopologicaly"]}
{"id": "C03", "title": "Back-edge search is exact", "statement": "The back-edge search started at the entry of a graph reports an edge if and only if a cycle is reachable from the entry, a reported edge lies on a cycle, and so the acyclicity predicate is true exactly when no cycle is reachable.", "quantifier": "all finite directed graphs and all entry nodes", "why_tests_cant": "Depth-first search state (visited set, stack) ranges over unboundedly many graphs and successor orders.", "anchors": ["include/tsar/ADT/GraphUtils.h:findBackEdge", "include/tsar/ADT/GraphUtils.h:isDAG"]}
{"id": "C04", "title": "Single-pass solving is selected only for acyclic regions", "statement": "When the hierarchical region solver chooses the one-pass solver for a region, the region's data-flow graph contains no cycle, so the returned values satisfy the data-flow equations.", "quantifier": "all regions, including regions of irreducible control flow", "why_tests_cant": "Tests use structured loops; the claim is about every control-flow graph a front end can produce.", "anchors": ["include/tsar/ADT/GraphUtils.h:isDAG", "include/tsar/ADT/DataFlow.h:solveDataFlowUpward", "include/tsar/ADT/DataFlow.h:solveDataFlowDownward", "include/tsar/Analysis/DataFlowGraph.h:GraphTraits"]}
{"id": "C05", "title": "Adding a location to a memory set adds exactly its bytes", "statement": "After inserting a location into a memory set, the set covers exactly the bytes it covered before together with the bytes of the new location; nothing is lost and nothing is invented, whatever was in the set and in whatever order locations were added. The returned flag is true exactly when the covered bytes grew.", "quantifier": "all memory sets reachable by any sequence of insertions and all inserted locations", "why_tests_cant": "Insertion joins overlapping and adjacent stored ranges; whether the joins cascade correctly depends on the whole insertion history.", "anchors": ["include/tsar/Analysis/Memory/MemorySet.h:insert", "include/tsar/Analysis/Memory/MemorySetInfo.h:MemorySetInfo"]}
{"id": "C06", "title": "Memory-set queries answer the byte question they document", "statement": "If a memory set reports that it contains a location then every byte of the location is covered by the set, if it reports no overlap then no byte is shared, and if it reports that a location covers some element then that element's bytes all lie in the location.", "quantifier": "all reachable memory sets and all query locations", "why_tests_cant": "Soundness must hold for each combination of stored ranges and query, including partial overlap with several stored ranges.", "anchors": ["include/tsar/Analysis/Memory/MemorySet.h:contain", "include/tsar/Analysis/Memory/MemorySet.h:findContaining", "include/tsar/Analysis/Memory/MemorySet.h:overlap", "include/tsar/Analysis/Memory/MemorySet.h:cover", "include/tsar/Analysis/Memory/MemorySet.h:findCoveredBy"]}
{"id": "C07", "title": "Subtracting a memory set from a location is exact", "statement": "Subtracting a memory set from a location yields a list of locations which covers exactly the bytes of the location that are not covered by the set, and the subtraction reports failure only when the set does not overlap the location.", "quantifier": "all memory sets and all locations", "why_tests_cant": "The result is built by repeated splitting; the number of splits is unbounded.", "anchors": ["include/tsar/Analysis/Memory/MemorySet.h:subtractFrom", "include/tsar/Analysis/Memory/MemorySet.h:difference"]}
{"id": "C08", "title": "Intersection and union of memory sets", "statement": "Intersecting a set with another leaves exactly the bytes covered by both, merging leaves exactly the bytes covered by at least one, and the returned flag tells whether the receiver changed.", "quantifier": "all pairs of reachable memory sets", "why_tests_cant": "The change flag drives data-flow convergence; a wrong flag for one pair of sets stops the solver early.", "anchors": ["include/tsar/Analysis/Memory/MemorySet.h:intersect", "include/tsar/Analysis/Memory/MemorySet.h:merge"]}
{"id": "C09", "title": "Memory-set equality means equal bytes", "statement": "Two memory sets compare equal if and only if they cover the same bytes of every base pointer.", "quantifier": "all pairs of reachable memory sets, independent of insertion order", "why_tests_cant": "The stored representation depends on insertion order, equality must not.", "anchors": ["include/tsar/Analysis/Memory/MemorySet.h:operator=="]}
{"id": "C10", "title": "Data-flow values with a universal element form a lattice", "statement": "The must/may data-flow value (a set of locations, or 'everything') implements the lattice of byte sets: intersection, union, containment, overlap, coverage and equality all agree with the operations on the denoted byte sets, including when one or both operands denote everything.", "quantifier": "all pairs of values, including the universal one, and all locations", "why_tests_cant": "The universal element has a special-case branch in each operation, so every combination matters.", "anchors": ["include/tsar/Analysis/Memory/DFMemoryLocation.h:LocationDFValue", "lib/Analysis/Memory/DFMemoryLocation.cpp:LocationDFValue::intersect", "lib/Analysis/Memory/DFMemoryLocation.cpp:LocationDFValue::merge"]}
{"id": "C11", "title": "Intersection of one-dimensional ranges is exact", "statement": "The intersection of two scalar ranges contains exactly the bytes in both, the left and right complements contain exactly the bytes of the first operand that are not in the second, and an empty answer means that there is no common byte.", "quantifier": "all pairs of ranges with known bounds of the same base", "why_tests_cant": "Ranges are arbitrary 64-bit intervals; boundary relations are too many for tests and need to hold for all values.", "anchors": ["lib/Analysis/Memory/MemoryLocationRange.cpp:intersectScalar"]}
{"id": "C12", "title": "Intersection of collapsed multi-dimensional ranges is exact", "statement": "When two collapsed array sections are intersected, the computed section is exactly the set of index tuples in both, and the complement lists together with it form exactly the first operand; when the answer is 'no intersection' the complement lists are left unchanged.", "quantifier": "all numbers of dimensions, all starts, steps, trip counts", "why_tests_cant": "Involves arithmetic progressions of unbounded length and a linear Diophantine equation per dimension.", "anchors": ["lib/Analysis/Memory/MemoryLocationRange.cpp:intersect", "lib/Analysis/Memory/MemoryLocationRange.cpp:difference"]}
{"id": "C13", "title": "Delinearization preserves the set of accessed elements", "statement": "Replacing a byte range by a multi-dimensional section according to array dimensions describes exactly the same bytes.", "quantifier": "all byte ranges, element sizes and dimension sizes", "why_tests_cant": "Depends on divisibility of unbounded sizes and offsets.", "anchors": ["lib/Analysis/Memory/MemoryLocationRange.cpp:delinearize"]}
{"id": "C14", "title": "Combining memory traits is a lattice meet and never loses a restriction", "statement": "Combining the traits collected for a location in any order and grouping gives the same trait, combining a trait with itself changes nothing, and the combination is never more permissive than either operand: a dependence never disappears and a privatizable class is reported only if both operands permit it.", "quantifier": "all traits that the analysis can produce by combining its elementary traits, in any order, any number of times", "why_tests_cant": "The combinations are sequences of arbitrary length over 19-bit values.", "anchors": ["lib/Analysis/Memory/BitMemoryTrait.h:BitMemoryTrait", "lib/Analysis/Memory/BitMemoryTrait.cpp:BitMemoryTrait"]}
{"id": "C15", "title": "Every combined trait has a description that means the same", "statement": "Every trait reachable by combining elementary traits is converted to a descriptor without reaching an 'unreachable' branch, and encoding the descriptor again yields the same classification.", "quantifier": "all joins of elementary traits with all flag sets", "why_tests_cant": "Reachability of the undefined branch depends on the closure of the encoding under bitwise combination.", "anchors": ["lib/Analysis/Memory/BitMemoryTrait.cpp:toDescriptor", "lib/Analysis/Memory/BitMemoryTrait.cpp:BitMemoryTrait::BitMemoryTrait"]}
{"id": "C16", "title": "Trait statistics count what they name", "statement": "After recording a trait descriptor in the trait statistics, each counter exceeds its former value by one exactly when the descriptor has the trait the counter is named after.", "quantifier": "all descriptors and all histories of recorded traits", "why_tests_cant": "The correspondence between counters and traits is positional and must hold for each trait and each history.", "anchors": ["include/tsar/Analysis/Memory/MemoryTrait.h:MemoryStatistic", "include/tsar/Analysis/Memory/MemoryTrait.h:MEMORY_TRAIT_STATISTIC"]}
{"id": "C17", "title": "Live memory over-approximates what is read later", "statement": "If some execution path leaving a block reads a location before overwriting it, the location is reported live at the exit of the block; the solution of the live-memory equations is sound for all paths.", "quantifier": "all flow graphs, all paths, all use/def summaries", "why_tests_cant": "Ranges over all execution paths of all graphs.", "anchors": ["lib/Analysis/Memory/LiveMemory.cpp:transferFunction", "include/tsar/Analysis/Memory/LiveMemory.h:DataFlowTraits"]}
{"id": "C18", "title": "Must- and may-defined memory", "statement": "A location reported as must-defined at a point is written on every execution path from the entry of the region to that point, and each location written on some path is reported as may-defined.", "quantifier": "all flow graphs, all paths, all def summaries", "why_tests_cant": "Ranges over all execution paths of all graphs.", "anchors": ["include/tsar/Analysis/Memory/DefinedMemory.h:ReachDFFwk", "lib/Analysis/Memory/DefinedMemory.cpp:transferFunction"]}
{"id": "C19", "title": "Summary of a loop's memory is sound", "statement": "A location reported as must-defined by a whole loop is written in each execution of the loop that terminates, a location read by the loop before it is written in the loop is reported among its uses, and a location written by some iteration is among its may-definitions.", "quantifier": "all loops, all numbers of iterations and all paths through the body", "why_tests_cant": "Ranges over all executions, including loops which leave after the first partial iteration.", "anchors": ["lib/Analysis/Memory/DefinedMemory.cpp:ReachDFFwk::collapse"]}
{"id": "C20", "title": "Coverage test by alias tree", "statement": "If a set of locations is reported to cover a memory location, then the bytes of the listed locations really cover all bytes of it.", "quantifier": "all alias trees and all lists of locations", "why_tests_cant": "Depends on the shape of an arbitrary tree and the order of classes in it.", "anchors": ["include/tsar/Analysis/Memory/MemoryCoverage.h:cover"]}
{"id": "C21", "title": "Tree order queries agree with the tree", "statement": "The relation reported for two nodes of a rooted tree (ancestor, descendant, equal, unreachable) and the reported lowest common ancestor agree with the tree's parent relation.", "quantifier": "all finite rooted trees, all pairs and lists of nodes", "why_tests_cant": "Preorder/postorder numbers are built by a traversal of an arbitrary tree.", "anchors": ["include/tsar/ADT/GraphNumbering.h:numberGraph", "include/tsar/ADT/SpanningTreeRelation.h:SpanningTreeRelation", "include/tsar/ADT/SpanningTreeRelation.h:findLCA"]}
{"id": "C22", "title": "Item registration gives stable unique consecutive identifiers", "statement": "Registering items yields distinct identifiers for distinct items, the same identifier for the same item, identifiers are consecutive from the configured first value, lookup by identifier and by item are inverse, and the reported number of identifiers equals the number of registered items until the register is cleared.", "quantifier": "all sequences of register, lookup and clear calls with any first identifier", "why_tests_cant": "Ranges over unbounded call histories.", "anchors": ["include/tsar/ADT/ItemRegister.h:ItemRegister"]}
{"id": "C23", "title": "Bidirectional map stays a bijection", "statement": "After any sequence of insertions, erasures and clears a lookup by the first key and a lookup by the second key give inverse answers, erasing a pair removes it from both directions, and no freed element is accessed.", "quantifier": "all operation histories", "why_tests_cant": "Dangling entries become visible only after particular histories.", "anchors": ["include/tsar/ADT/Bimap.h:Bimap"]}
{"id": "C24", "title": "List bimap maps each key of a group to the same group", "statement": "In the list bimap each key on one side is attached to exactly one node, all keys of the node answer with the same list on the other side, and erasing by a key removes all keys of that node from both indexes.", "quantifier": "all operation histories", "why_tests_cant": "Index consistency is a property of all histories.", "anchors": ["include/tsar/ADT/ListBimap.h:ListBimap"]}
{"id": "C25", "title": "Persistent iterators follow their element", "statement": "A persistent iterator refers to its element as long as the element is in the container, wherever the element moves; it becomes invalid when the element is removed, and copying, assigning, moving or destroying iterators and elements never corrupts the registration list of any element.", "quantifier": "all interleavings of iterator and container operations", "why_tests_cant": "Doubly-linked list corruption depends on the history of copies and moves.", "anchors": ["include/tsar/ADT/PersistentIterator.h:PersistentIteratorC", "include/tsar/ADT/PersistentIterator.h:PersistentValueWrapper"]}
{"id": "C26", "title": "Strong SIV dependence test", "statement": "When two subscripts have the same loop coefficient and the test answers 'independent', no two iterations of the loop access the same element; otherwise the reported direction includes the relation of every pair of iterations that access the same element, and the reported distance is the exact difference of these iterations.", "quantifier": "all coefficients, constants (symbolic or not), loop bounds and iteration pairs", "why_tests_cant": "All integer values of loop parameters; unsoundness shows only for particular symbolic ranges.", "anchors": ["lib/Analysis/Memory/DependenceAnalysis.cpp:strongSIVtest"]}
{"id": "C27", "title": "Weak-crossing SIV dependence test and split point", "statement": "When subscripts have opposite coefficients and the test answers 'independent', no two iterations access the same element; otherwise the directions are complete; and splitting the loop at the reported iteration leaves no dependence between distinct iterations inside either part.", "quantifier": "all coefficients, constants, loop bounds and iteration pairs", "why_tests_cant": "All integer values of loop parameters.", "anchors": ["lib/Analysis/Memory/DependenceAnalysis.cpp:weakCrossingSIVtest", "lib/Analysis/Memory/DependenceAnalysis.cpp:getSplitIteration"]}
{"id": "C28", "title": "Exact SIV dependence test", "statement": "For subscripts a1*i+c1 and a2*i+c2 with constant coefficients, answer 'independent' implies that no two iterations access the same element; otherwise the reported direction set includes the relation of each pair of conflicting iterations.", "quantifier": "all integer coefficients, constants, bounds, iteration pairs", "why_tests_cant": "Number-theoretic claim over all integers; requires correctness of an extended Euclid loop.", "anchors": ["lib/Analysis/Memory/DependenceAnalysis.cpp:exactSIVtest", "lib/Analysis/Memory/DependenceAnalysis.cpp:findGCD", "lib/Analysis/Memory/DependenceAnalysis.cpp:floorOfQuotient", "lib/Analysis/Memory/DependenceAnalysis.cpp:ceilingOfQuotient"]}
{"id": "C29", "title": "Weak-zero SIV dependence tests", "statement": "When one subscript is loop invariant and the test answers 'independent', no iteration accesses that element; otherwise the reported direction covers every conflicting pair, and if peeling of the first (last) iteration is suggested then only the first (last) iteration conflicts.", "quantifier": "all coefficients, constants, bounds and iterations", "why_tests_cant": "All integer values of loop parameters.", "anchors": ["lib/Analysis/Memory/DependenceAnalysis.cpp:weakZeroSrcSIVtest", "lib/Analysis/Memory/DependenceAnalysis.cpp:weakZeroDstSIVtest"]}
{"id": "C30", "title": "RDIV dependence tests", "statement": "For subscripts a1*i+c1 and a2*j+c2 of two loops the exact and the symbolic RDIV tests answer 'independent' only if no iteration pair accesses the same element.", "quantifier": "all coefficients, constants, bounds and iterations", "why_tests_cant": "All integer values of loop parameters.", "anchors": ["lib/Analysis/Memory/DependenceAnalysis.cpp:exactRDIVtest", "lib/Analysis/Memory/DependenceAnalysis.cpp:symbolicRDIVtest"]}
{"id": "C31", "title": "GCD dependence test", "statement": "For multi-index linear subscripts, the GCD test answers 'independent' only if the subscripts are different at all iteration vectors, and it removes the '=' direction of a loop only if no conflicting pair of iteration vectors agrees on this loop.", "quantifier": "all numbers of loops, coefficients with symbolic factors, constants and iteration vectors", "why_tests_cant": "Unbounded number of terms and all integers.", "anchors": ["lib/Analysis/Memory/DependenceAnalysis.cpp:gcdMIVtest", "lib/Analysis/Memory/DependenceAnalysis.cpp:getConstantPart"]}
{"id": "C32", "title": "Banerjee dependence test", "statement": "The Banerjee test answers 'independent' only if no two iteration vectors within the loop bounds conflict, and each direction vector of a conflicting pair is included in the reported per-loop direction sets.", "quantifier": "all nest depths, coefficients, known or unknown bounds, iteration vectors", "why_tests_cant": "The search over direction vectors is recursive over the unbounded nest depth.", "anchors": ["lib/Analysis/Memory/DependenceAnalysis.cpp:banerjeeMIVtest", "lib/Analysis/Memory/DependenceAnalysis.cpp:exploreDirections", "lib/Analysis/Memory/DependenceAnalysis.cpp:findBoundsLT", "lib/Analysis/Memory/DependenceAnalysis.cpp:findBoundsGT", "lib/Analysis/Memory/DependenceAnalysis.cpp:findBoundsEQ", "lib/Analysis/Memory/DependenceAnalysis.cpp:findBoundsALL"]}
{"id": "C33", "title": "Constraint intersection and propagation keep all conflicts", "statement": "Intersecting two dependence constraints keeps every pair of iterations that satisfies both, an 'empty' result means that no pair satisfies both, and propagating a constraint into a subscript pair never removes a conflict.", "quantifier": "all constraint kinds and all integer values", "why_tests_cant": "All integer values and all kinds of constraints.", "anchors": ["lib/Analysis/Memory/DependenceAnalysis.cpp:intersectConstraints", "lib/Analysis/Memory/DependenceAnalysis.cpp:propagateDistance", "lib/Analysis/Memory/DependenceAnalysis.cpp:propagateLine", "lib/Analysis/Memory/DependenceAnalysis.cpp:propagatePoint", "lib/Analysis/Memory/DependenceAnalysis.cpp:updateDirection"]}
{"id": "C34", "title": "Dependence kind reported for a loop", "statement": "For each dependence found by the dependence analysis, if it may be carried by a loop as a flow (anti, output) dependence then the flow (anti, output) flag is recorded for this loop; a dependence is dropped only if it cannot be carried by the loop.", "quantifier": "all dependence kinds, direction vectors and loop depths", "why_tests_cant": "All combinations of direction sets at every level of nests with any depth.", "anchors": ["lib/Analysis/Memory/PrivateAnalysis.cpp:insertDependence"]}
{"id": "C35", "title": "Distance bounds cover all merged dependences", "statement": "The minimum and maximum distance reported for a level bound the distance of every dependence merged into the trait, and no bound is reported for a level if some merged dependence has unknown distance there.", "quantifier": "all sequences of recorded and merged dependences", "why_tests_cant": "Merge order and number of merged dependences are unbounded.", "anchors": ["lib/Analysis/Memory/PrivateAnalysis.cpp:DependenceImp", "lib/Analysis/Memory/PrivateAnalysis.cpp:UpdateFunctor", "lib/Analysis/Memory/PrivateAnalysis.cpp:UpdateDepFunctor", "lib/Analysis/Memory/PrivateAnalysis.cpp:SummarizeFunctor"]}
{"id": "C36", "title": "Loop access classification is sound", "statement": "A location accessed in a loop is reported as private only if no iteration reads a value not written in the same iteration and the value is not used after the loop, as last private only if additionally the value after the loop is written by the last iteration, and as read-only only if no iteration writes it.", "quantifier": "all loops and all use/def/live summaries", "why_tests_cant": "A decision over set-valued summaries of all executions.", "anchors": ["lib/Analysis/Memory/PrivateAnalysis.cpp:resolveAccesses"]}
{"id": "C37", "title": "Combined report of several locations is not more permissive", "statement": "When several locations are stored as one report entry, the stored trait is not more permissive than the trait of any of them.", "quantifier": "all lists of traits", "why_tests_cant": "Lists of unbounded length.", "anchors": ["lib/Analysis/Memory/PrivateAnalysis.cpp:storeResults"]}
{"id": "C38", "title": "Alias relation of two locations", "statement": "The relation computed for two memory locations (coincide, contained, covers, may alias, no alias) is true of their byte ranges, and the merged relation for a node is true of each merged pair.", "quantifier": "all base offsets (including negative ones), sizes and merge sequences", "why_tests_cant": "64-bit arithmetic wraps for some offsets; merges have any length.", "anchors": ["lib/Analysis/Memory/EstimateMemory.cpp:aliasRelation", "lib/Analysis/Memory/EstimateMemory.cpp:mergeAliasRelation"]}
{"id": "C39", "title": "Estimate-memory chain operations keep links consistent", "statement": "The chain operations (insert before, insert after, merge) produce the documented chain: child/parent links are mutually inverse, no node is lost or duplicated, and the order of other nodes is preserved.", "quantifier": "all finite chains", "why_tests_cant": "Intrusive-list operations on chains of any length.", "anchors": ["include/tsar/Analysis/Memory/EstimateMemory.h:spliceNext", "include/tsar/Analysis/Memory/EstimateMemory.h:mergeNext", "include/tsar/Analysis/Memory/EstimateMemory.h:splicePrev", "include/tsar/Analysis/Memory/EstimateMemory.h:mergePrev"]}
{"id": "C40", "title": "Chain ancestor queries", "statement": "The query for the descendant (ancestor) of two nodes of a chain returns the deeper (higher) node if they are on one chain and nothing if they are not connected.", "quantifier": "all forests of chains and pairs of nodes", "why_tests_cant": "Reachability in chains of any length.", "anchors": ["include/tsar/Analysis/Memory/EstimateMemory.h:ancestor", "include/tsar/Analysis/Memory/EstimateMemory.h:descendant"]}
{"id": "C41", "title": "Merged alias nodes resolve to a single live node", "statement": "After any sequence of alias-node merges, each old handle resolves to the node that its node was merged into, resolution terminates, and a node is freed only when no handle refers to it.", "quantifier": "all merge sequences and all handles", "why_tests_cant": "Forwarding chains with path compression have unbounded length.", "anchors": ["include/tsar/Analysis/Memory/EstimateMemory.h:getForwardedTarget", "include/tsar/Analysis/Memory/EstimateMemory.h:mergeNodeInImp", "include/tsar/Analysis/Memory/EstimateMemory.h:release", "include/tsar/Analysis/Memory/EstimateMemory.h:retain"]}
{"id": "C42", "title": "Parallelization items are found where they were attached", "statement": "After an item is attached before or after an instruction (or at the beginning or end of a block) a search at this place for this kind finds it, items attached to other places are not affected, and references compare equal exactly when they denote the same item.", "quantifier": "all sequences of attach, find and erase operations", "why_tests_cant": "All histories of operations.", "anchors": ["include/tsar/Analysis/Parallel/Parallellelization.h:Parallelization", "include/tsar/Analysis/Parallel/Parallellelization.h:ParallelItemRef"]}
{"id": "C43", "title": "Checked integer conversions are exact", "statement": "If a checked conversion of an arbitrary-precision integer to a machine integer type reports success, the result has exactly the value of the source interpreted with the given signedness; if it reports overflow the value does not fit.", "quantifier": "all bit widths, values, signedness and target types", "why_tests_cant": "All values of all widths.", "anchors": ["include/tsar/Support/NumericUtils.h:isOverflow", "include/tsar/Support/NumericUtils.h:castAPInt"]}
{"id": "C44", "title": "Argument lookup by number", "statement": "Looking up the argument of a function by its number returns that argument, and nothing when there is no such argument.", "quantifier": "all functions and argument numbers", "why_tests_cant": "All argument counts and indexes.", "anchors": ["lib/Support/Utils.cpp:getArgument", "include/tsar/Support/IRUtils.h:getArgument"]}
{"id": "C45", "title": "Joining and splitting strings", "statement": "Splitting a string by a regular expression terminates and the tokens and separators partition the string; joining an arbitrary (possibly empty) sequence yields its elements separated by the delimiter.", "quantifier": "all strings, token patterns and sequences", "why_tests_cant": "Termination for all patterns and inputs.", "anchors": ["lib/Support/Utils.cpp:tokenize", "include/tsar/Support/Utils.h:join"]}
{"id": "C46", "title": "Loop regions are well-formed flow graphs", "statement": "The region graph built for a loop nest has one entry and one exit, successor and predecessor lists are mutually inverse, each block belongs to exactly one innermost region, and temporary edges added for a client analysis are completely removed afterwards.", "quantifier": "all loop nests", "why_tests_cant": "All shapes of nests.", "anchors": ["lib/Analysis/DFRegionInfo.cpp:buildLoopRegion", "include/tsar/Analysis/DataFlowGraph.h:addNode", "include/tsar/ADT/DataFlow.h:SmallDFNode"]}
{"id": "C47", "title": "Existing parallel constructs refer only to existing ones", "statement": "After any sequence of creating constructs, nesting them and destroying them a construct which still exists knows exactly the existing constructs it is nested in and the existing constructs nested in it, and asking a marker which construct it ends never touches a destroyed construct, in particular after adjacent parallel regions were merged.", "quantifier": "all sequences of creation, nesting, marking, merging and destruction of constructs", "why_tests_cant": "All histories of object lifetimes; a dangling pointer usually goes unnoticed in a test.", "anchors": ["include/tsar/Analysis/Parallel/Parallellelization.h:ParallelLevel", "include/tsar/Analysis/Parallel/Parallellelization.h:ParallelMarker", "lib/Transform/Clang/OpenMPAutoPar.cpp:mergeRegions"]}
{"id": "C48", "title": "Locations with the same beginning form an ordered chain and are found", "statement": "However accesses to memory are added to the alias tree, the locations which start at the same point form one chain strictly ordered from smaller to greater sizes, the previous location is the inverse of the next one, later additions keep all locations and their order, a location is explicit exactly if it was made for an added access, a search for an added access returns the smallest location of the chain which contains it, and remembered answers of previous searches do not change results.", "quantifier": "all sequences of added accesses, all answers of the alias analysis, all sequences of searches", "why_tests_cant": "All orders of additions and all answers of an alias analysis; the chain is restructured by every addition.", "anchors": ["lib/Analysis/Memory/EstimateMemory.cpp:AliasTree::add", "lib/Analysis/Memory/EstimateMemory.cpp:AliasTree::insert", "lib/Analysis/Memory/EstimateMemory.cpp:AliasTree::find", "lib/Analysis/Memory/EstimateMemory.cpp:AliasTree::isSamePointer", "include/tsar/Analysis/Memory/EstimateMemory.h:ChainTraits"]}
{"id": "C49", "title": "The answer about two accesses covers all their conflicts", "statement": "If the dependence analysis reports that two accesses to arrays are independent then no iteration of the first access touches an element which an iteration of the second access touches; if it reports a dependence then its directions and distances admit every pair of iterations which touch the same element, and a dependence is reported as not loop independent only if no pair in the same iteration of all common loops conflicts. This holds however the subscripts of the accesses are coupled through common loops, and the analysis of coupled subscripts always ends.", "quantifier": "all pairs of accesses with any number of linear subscripts, all loop nests, all bounds of loops, all sound answers of the symbolic analysis, all pairs of iterations", "why_tests_cant": "Soundness for every pair of iterations of every loop nest with symbolic bounds; the order in which subscripts are combined depends on previous results.", "anchors": ["lib/Analysis/Memory/DependenceAnalysis.cpp:DependenceInfo::depends", "lib/Analysis/Memory/DependenceAnalysis.cpp:testSIV", "lib/Analysis/Memory/DependenceAnalysis.cpp:testRDIV", "lib/Analysis/Memory/DependenceAnalysis.cpp:intersectConstraints", "lib/Analysis/Memory/DependenceAnalysis.cpp:propagate"]}
{"id": "C50", "title": "Edits of a source text take effect where they are asked for", "statement": "After any sequence of insertions and replacements of parts of a source text the rewritten text is the original one with each replaced part replaced and each inserted string at its location, texts inserted at the same location keep the requested order, edits of different places give the same text in any order, the rewritten form of a part of the text is this part with its edits, and removing of a line removes spaces and one end of line only.", "quantifier": "all texts and all sequences of insertions, replacements and removals", "why_tests_cant": "All orders and overlaps of edits; a single misplaced character silently damages a program.", "anchors": ["lib/Support/RewriterBase.cpp:ReplaceText", "lib/Support/RewriterBase.cpp:InsertText", "include/tsar/Support/RewriterBase.h:getRewrittenText", "lib/Support/Clang/Utils.cpp:ExternalRewriter"]}
{"id": "C51", "title": "Symbolic division is exact and casts are reported", "statement": "If a symbolic expression N is divided by D with quotient Q and remainder R then N = Q*D + R for all values of variables and iteration numbers, in integers and in machine words; in particular, a zero remainder means that N = Q*D. A common divisor found for a list of expressions divides each of them. A simplification of an expression to a recurrence, which is not reported to use unsafe casts, has the same value. If casts are ignored the result says so.", "quantifier": "all symbolic expressions (numerators, denominators, lists of expressions), all values of variables, all iteration numbers, all word widths", "why_tests_cant": "Expressions are unbounded trees and the identity is over all values of symbols; tests check a few printed quotients.", "anchors": ["lib/Support/SCEVUtils.cpp: divide, SCEVDivision, computeSCEVAddRec, SCEVBionmialSearch, findGCD", "include/tsar/Support/SCEVUtils.h"]}
{"id": "C52", "title": "Delinearized subscripts denote the accessed element", "statement": "If the analysis reports an access to memory as a delinearized access to an array, then the element with the reported subscripts, in an array with the reported sizes of dimensions, has exactly the offset which is computed by the program; indexes collected from a chain of address computations give the offset of the whole chain; a size computed for a dimension divides, together with sizes of inner dimensions, all subscripts of outer dimensions.", "quantifier": "all chains of address computations, numbers of dimensions, constant and variable sizes, omitted subscripts, values of variables", "why_tests_cant": "Subscripts are symbolic; equality of offsets is over all values of sizes and indexes, all combinations of omitted subscripts and all mixes of constant and variable dimensions.", "anchors": ["lib/Analysis/Memory/Delinearization.cpp: extractSubscriptsFromGEPs, cleanSubscripts, fillArrayDimensionsSizes", "include/tsar/Analysis/Memory/Delinearization.h: Array"]}
{"id": "C53", "title": "A reversed loop executes the same iterations in the reverse order", "statement": "If a user asks to reverse a loop and the tool rewrites its header, then the new loop executes its body for the same values of the induction variable as the original one, from the last to the first. Hence, if different iterations do not depend on each other, results of the program do not change. Exactly the requested loops of a nest are rewritten.", "quantifier": "all headers of canonical for-loops, values of variables, widths of the induction variable, known or unknown bounds, lists of requested loops", "why_tests_cant": "The set of iterations depends on run-time values of bounds and steps, including loops without iterations, unsigned variables and precedences in source texts; tests compare texts of a few loops.", "anchors": ["lib/Transform/Clang/LoopReversal.cpp: ClangLoopReverseVisitor::transformLoop, parseIncrement, parseCondition, traverseStmt", "lib/Analysis/Clang/CanonicalLoop.cpp: coherent"]}
{"id": "C54", "title": "Attributes of functions and loops tell the truth", "statement": "If a function is marked as a function without input/output then no execution of its call performs input/output at any depth; if it is marked as always returning then it returns; if it is marked as calling user functions directly then no unknown function is called. A function whose callees are all known gets attributes. Functions called from the library are marked as library ones and functions whose address is taken are marked as called indirectly. Attributes of loops follow from attributes of called functions.", "quantifier": "all modules, call graphs (including recursion), orders of components, executions of a program", "why_tests_cant": "Attributes summarize unbounded call trees and all executions; tests print attributes of a few functions.", "anchors": ["lib/Transform/IR/InterprocAttr.cpp: POFunctionAttrsAnalysis::runOnSCC, addNoIOAttr, addAlwaysReturnAttr, addDirectUserCalleeAttr, RPOFunctionAttrsAnalysis::runOnModule, LoopAttributesDeductionPass::runOnFunction", "lib/Analysis/Attributes.cpp: isIOLibFuncName", "include/tsar/Analysis/LibraryFunctions.def"]}
{"id": "C55", "title": "Global variables referenced by a call are collected", "statement": "For each analyzed function the collected set contains every global variable which may be referenced by a call of this function: in its instructions, in its callees at any depth, in unknown functions. A variable is in the set only if there is such a reference.", "quantifier": "all modules, call graphs (including recursion), operands, bottom-up orders of components", "why_tests_cant": "References are reached through unbounded chains of calls and nested constant expressions; tests cover a few modules.", "anchors": ["lib/Analysis/Memory/GlobalsAccess.cpp: GlobalsAccessCollector::runOnModule"]}
{"id": "C56", "title": "An argument marked as not captured does not outlive the call", "statement": "If the analysis marks a pointer argument of a function as nocapture, then no execution of the function stores a copy of this pointer (or a pointer to memory with such a copy) in memory which is known outside, returns it, or passes it to a callee which may keep it. The analysis itself terminates on every function.", "quantifier": "all functions, orders of uses, attributes of callees, control flow, executions and initial memories", "why_tests_cant": "A copy may travel through unbounded chains of loads, stores, address computations and allocated objects in any order of execution; tests observe a few functions.", "anchors": ["lib/Transform/IR/NoCaptureAnalysis.cpp: isCaptured, applyDefinitionConstraint, applyUsageConstraint, runOnModule"]}
{"id": "C57", "title": "A loop with a pointer promoted to a register computes the same", "statement": "If a memory location is promoted to a register inside a loop (loaded before the loop, stored after it), then every execution of the transformed loop goes through the same blocks, leaves the loop through the same exit and ends with the same registers, memory and value of the location as the original loop. The transformation itself does not fail.", "quantifier": "all natural loops in SSA form (any control flow graph, nested loops, irreducible parts), semantics of instructions and branches, initial states, numbers of steps", "why_tests_cant": "Values flow through arbitrary joins and back edges for an unbounded number of iterations; tests run a few loops.", "anchors": ["lib/Transform/IR/PointerScalarizer.cpp: insertPhiNodes, handleLoads, handleMemoryAccess, fillPhiNodes, deleteRedundantPhiNodes, insertStoreInstructions"]}
{"id": "C58", "title": "A canonical loop runs as it is described", "statement": "If a for-loop is reported as canonical with a start, an end, a step and a predicate, then before the loop the induction variable is equal to the start, after n iterations it is start + n * step, an iteration is started if and only if the predicate holds for the variable and the end, and the end and the step have the same values in all iterations. If it is also reported as rectangular then the start, the end and the step have the same values in all iterations of the parent loop. The check does not fail and ends.", "quantifier": "all for-loops in SSA form (any body, any operands), meanings of instructions and calls, initial states, numbers of iterations, fuel", "why_tests_cant": "The claim ranges over all executions and iterations of a loop; tests compare printed bounds of a few loops.", "anchors": ["lib/Analysis/Clang/CanonicalLoop.cpp: findLastWrite, findLastCmp, isLoopInvariantMemory, checkLoop", "include/tsar/Analysis/Clang/CanonicalLoop.h: CanonicalLoopInfo"]}
{"id": "C59", "title": "Accepted heads of for-loops lead to the bound", "statement": "A head of a for-loop with a constant step is accepted only if the step leads from each start to the end (the loop ends) and known constants let the loop be executed. A head is rejected only if the loop is never executed or never ends. The check never fails.", "quantifier": "all increments (++, --, +=, -=, i + c, c + i, i - c), comparisons, sides of the variable, constants of any width", "why_tests_cant": "The claim ranges over all integers, which are starts, ends and steps.", "anchors": ["lib/Analysis/Clang/CanonicalLoop.cpp: coherent"]}
{"id": "C60", "title": "An accepted interchange of loops preserves results", "statement": "If loops of a nest are interchanged as a clause demands, the nest is perfect, headers are only permuted, and the new nest leaves in memory the same values as the original one, apart from memory that analysis proves private. Otherwise the nest is rejected with a diagnostic, the check always ends and never fails.", "quantifier": "all nests of any depth, lists of exchanged variables, bounds and steps (expressions over memory), bodies, analysis results which are right for the nest, initial memories", "why_tests_cant": "The claim compares two executions for all programs and initial memories; the number of iterations and the depth of nests are not limited.", "anchors": ["lib/Transform/Clang/LoopInterchange.cpp: LoopInterchangePass, isMemoryAccessedIn", "lib/Analysis/Clang/PerfectLoop.cpp: LoopVisitor"]}
{"id": "C61", "title": "Perfectly nested loops are found exactly", "statement": "A for-loop is reported as perfectly nested if and only if its body contains no for-loops or contains nothing but a single for-loop (in braces or not).", "quantifier": "all functions, statements nested in any way", "why_tests_cant": "The claim ranges over all shapes and depths of statements.", "anchors": ["lib/Analysis/Clang/PerfectLoop.cpp: LoopVisitor"]}
{"id": "C62", "title": "Memory which is live after functions is found", "statement": "If the inter-procedural analysis reports memory live after a function, the report contains each byte the function may define which is read after a return from the function, before it is overwritten, by any caller of the function in any execution; memory of local variables is left out, and the analysis does not fail.", "quantifier": "all call graphs, functions, definitions, calls with pointers as arguments and all executions with nested calls", "why_tests_cant": "the result is used to treat memory as dead after a function; a lost byte is visible only in executions where some chain of callers reads it, the number of call graphs and executions is unbounded", "anchors": ["lib/Analysis/Memory/GlobalLiveMemory.cpp:initMayLivesWithIPO", "lib/Analysis/Memory/GlobalLiveMemory.cpp:checkCallsFrom", "lib/Analysis/Memory/GlobalLiveMemory.cpp:GlobalLiveMemory::runOnModule"]}
{"id": "C63", "title": "Renaming of local objects keeps references", "statement": "After the renaming of local objects each reference in the new text refers to the declaration it referred to in the old text; an object gets a new name if and only if it is declared inside of a scope without macros which follows a directive; new names are different and differ from all names in the file, names with linkage and names of macros are left alone.", "quantifier": "all files, functions, nested scopes, directives and declarations", "why_tests_cant": "A name clash shows up for one particular combination of names, nesting and directives; nesting and the number of names are unbounded.", "anchors": ["lib/Transform/Clang/RenameLocal.cpp: ClangRenamer", "lib/Support/Clang/Utils.cpp: getRawMacrosAndIncludes"]}
{"id": "C64", "title": "Elimination of dead declarations does not change what a function does", "statement": "When dead declarations are eliminated from a C function, every execution of the function whose behaviour is defined makes the same calls with the same arguments and the same accesses to volatile objects, leaves the same values in global variables, has the same effect on the outside world and returns the same value. Every name which is used in the new text and was declared in the function is still declared in it, a group of declarations is kept or removed as a whole, and a variable which is not mentioned anywhere is removed.", "quantifier": "for every function body built of the modelled statements, for all meanings of operators and called functions, all initial states and all numbers of iterations of loops", "why_tests_cant": "The claim is about all executions of all functions: pointers to variables, loops, groups of declarations and nested scopes are combined freely, a test observes a single run of a single program.", "anchors": ["lib/Transform/Clang/DeadDeclsElimination.cpp: DeclVisitor", "lib/Support/Clang/Utils.cpp: findSideEffect"]}
{"id": "C65", "title": "Parallel loops chosen for a shared memory system are never nested, in the text or through calls", "statement": "When loops of a program are parallelized for a shared memory system, a function which may be executed by an iteration of a parallel loop, directly or through a chain of calls, has no parallel loops itself; parallel loops of one function are not nested in each other; each parallel loop has passed all checks and belongs to a function which is not recursive; every suitable function which is not executed by a parallel loop is processed.", "quantifier": "for all call graphs with any number of functions and any order of strongly connected components in which callees go first, all nests of loops and all results of analyses of loops", "why_tests_cant": "The claim is about all call graphs: chains of calls have any length, recursion and several paths to the same function are possible, a test observes a few programs.", "anchors": ["lib/Transform/Clang/SharedMemoryAutoPar.cpp: findParallelLoops, buildAdjacentList, addToReachability, runOnModule", "lib/Transform/Clang/SharedMemoryAutoPar.h: isParallelCallee"]}
{"id": "C66", "title": "A loop annotated for parallel execution gives the results of sequential execution", "statement": "If analysis results (traits of memory) describe a for-loop truthfully and the tool accepts the loop for shared memory parallelization, then execution of iterations by any number of threads, in any distribution and any interleaving of memory accesses, with variables in generated private/firstprivate/lastprivate/reduction clauses treated as OpenMP demands, leaves the same value as sequential execution in every memory cell used after the loop.", "quantifier": "all loops (any number of iterations, any bodies reading, writing and updating memory, with calls accessing global variables), all truthful traits, all distributions of iterations and all schedules of threads", "why_tests_cant": "Outcomes of parallel execution depend on schedules, tests execute a few of them and a lost clause is often harmless in most runs; the claim combines all kinds of traits and all bodies of loops.", "anchors": ["lib/Analysis/Parallel/ParallelLoop.cpp: ParallelLoopPass::runOnFunction", "lib/Analysis/Clang/ASTDependenceAnalysis.cpp: ClangDependenceAnalyzer::evaluateDependency", "lib/Analysis/Clang/VariableCollector.cpp: findDecl, localize", "lib/Transform/Clang/OpenMPAutoPar.cpp: exploitParallelism"]}
{"id": "C67", "title": "Ordered parallel loops respect dependencies, do not deadlock and keep results", "statement": "If a loop has regular dependencies with known distances and the tool parallelizes it with an ordered directive, then each iteration waits, directly or through other iterations, for all iterations it depends on; any finished execution leaves the same values in memory used after the loop as the sequential one; an unfinished execution can always continue; a directive is built for any nest of loops without access out of range; variables in clauses of collapsed inner loops are listed in clauses of the nest.", "quantifier": "all loops and nests, all truthful traits and distances, all steps of loops, all distributions of iterations and all schedules of threads", "why_tests_cant": "A missing wait is visible in rare schedules only, and offsets in directives depend on all combinations of distances and depths of nests.", "anchors": ["lib/Transform/Clang/OpenMPAutoPar.cpp: makeOrderedRange, OMPOrderedDirective, addOrUpdateOrderedIfNeed, exploitParallelism, finalize, buildOrederedSink", "lib/Analysis/Clang/ASTDependenceAnalysis.cpp: evaluateDependency (Dependencies)"]}
{"id": "C68", "title": "Elimination of unreachable code keeps results of executions covered by a profile", "statement": "If a profile reports a non-zero counter for each region which is executed, then the text produced by the elimination of unreachable code is correct and its execution finishes in the same way as the execution of the original text: the same values of variables, the same calls of functions in the same order, the same returned value. A range is considered unreachable if and only if all segments of the profile which are active in the range are not executed.", "quantifier": "all programs of the modelled subset, all profiles which cover an execution, all initial values and results of called functions, all sorted lists of segments and all ranges", "why_tests_cant": "Edits depend on combinations of nested dead regions, side effects, macros and braces, and each combination changes the text differently.", "anchors": ["lib/Transform/Clang/UnreachableCodeElimination.cpp: TraverseStmt, TraverseBinaryOperator, TraverseConditionalOperator, TraverseIfStmt, TraverseWhileStmt, TraverseForStmt, isUnreachable", "lib/Support/Clang/Utils.cpp: findSideEffect"]}
{"id": "C69", "title": "Variables reported as holding a value do hold it", "statement": "If the search for metadata reports that a source-level variable (or its fragment) is associated with an IR value at given users, then in every execution, whenever any of these users is about to be executed, the variable holds the current value. The same is true of all uses of the value if users are not given. The returned main variable is described before other reported variables are. A variable which is described only by this value before all users is found. The search terminates.", "quantifier": "all functions (control-flow graphs with llvm.dbg.value intrinsics), all values, all lists of users, all executions", "why_tests_cant": "Reachability of descriptions depends on all paths through the control-flow graph, including any number of iterations of loops.", "anchors": ["lib/Analysis/Memory/Utils.cpp: findMetadata, findDomDbgValues, findAliasBlocks, mayAliasFragments, hasDeref", "lib/Analysis/Memory/DIMemoryLocation.cpp: DIMemoryLocation::get", "include/tsar/Analysis/Memory/DIMemoryLocation.h: operator=="]}
{"id": "C70", "title": "Propagation of expressions keeps results", "statement": "After expressions, variables and constants have been propagated into uses of variables (propagate clauses), the program computes the same values of all variables and calls functions with side effects with the same arguments in the same order as the original one.", "quantifier": "all functions (assignments, declarations with initialization, stores to global variables, conditions, loops, switches, calls), all initial states, all numbers of steps, all true results of the search for variables which hold a value", "why_tests_cant": "A replacement is evaluated in a state other than the state of the definition; which states are possible depends on all paths and iterations between the definition and each use.", "anchors": ["lib/Transform/Clang/ExprPropagation.cpp: DefUseVisitor, checkAssignmentRHS, VisitDeclRefExpr, getReplacement, findAvailableDecls, rememberPossibleAssignment, unparseReplacement, runOnFunction"]}
{"id": "C71", "title": "Recursive functions are not inlined and inline expansion finishes", "statement": "Before inline expansion all functions which call themselves, directly or through other functions which should be inlined, are found and only such functions are excluded; the search and the following expansion of each function finish.", "quantifier": "all call graphs with all sets of functions and calls which should be inlined, all orders of functions in hash sets, all failures of other checks", "why_tests_cant": "Which function is reported depends on the lengths of all chains of calls and on the order of pointers in hash sets; a missed cycle makes the tool run forever instead of giving a wrong answer.", "anchors": ["lib/Transform/Clang/Inline.cpp: ClangInliner::findRecursion, checkTemplates, getTemplateCheckers, checkTemplateInstantiation, compile"]}
{"id": "C72", "title": "Inline expansion does not change results of functions", "statement": "For each function and all values of its arguments and of global variables, each result and each final state of global variables which the function may have after expansion of calls is a result which the original function may have; no execution of the changed function ends with a jump to a label which does not enclose the jump.", "quantifier": "all programs with any sets of enabled functions and marked calls, all depths of nested expansion, all values of parameters and global variables, all operators and external functions, all orders of evaluation of operands", "why_tests_cant": "Names of parameters and results, hidden names, order of calls and places of inserted statements depend on the whole program and on orders of evaluation; a test checks one order of one program.", "anchors": ["lib/Transform/Clang/Inline.cpp: ClangInliner::TraverseCallExpr, TraverseReturnStmt, TraverseForStmt, compile, checkTemplateInstantiation, HandleTranslationUnit"]}
{"id": "C73", "title": "Weights of functions and loops follow from a profile", "statement": "For each module with a profile the estimation of weights finishes without undefined behavior. The total weight of each covered function without recursion is the sum over its instructions of the number of executions times the weight of one execution, the weight of one call is the total weight divided by the number of calls; the weight of a loop is the sum over its instructions, and it is divided by the number of iterations of the enclosing loop or by the number of calls. A loop is rejected as cheap if and only if its mean weight is less than the threshold.", "quantifier": "all modules, all sorted coverage data, all call graphs in the order from callees to callers, all nests of loops, all thresholds", "why_tests_cant": "Weights are propagated over the whole call graph, and a division by zero depends on counters of a profile which unit tests do not enumerate.", "anchors": ["lib/Analysis/Reader/RegionWeights.cpp: getExecutionCount, getLoopExecutionCount, getWeight, RegionWeightsEstimator::runOnModule", "lib/Transform/Clang/SharedMemoryAutoPar.cpp: findParallelLoops"]}
{"id": "C74", "title": "External results of analysis keep traits of variables correct", "statement": "If traits of a variable in a loop are correct for all executions and each loaded file describes executions correctly, then loading finishes without a crash and updated traits (private, shared, read-only, reduction, listed dependencies and bounds of their distances, use after the loop) are correct for all executions. Results of analysis which are written to a file and loaded again stay correct. Traits of a variable are the traits listed in a file for its position and for the position of a loop.", "quantifier": "all traits of variables, all contents and numbers of files, all sets of executions of a loop with any number of iterations and any accesses", "why_tests_cant": "Correctness of traits ranges over all executions of a loop, and the result depends on all combinations of static traits and traits from files.", "anchors": ["lib/Analysis/Reader/AnalysisReader.cpp: AnalysisReader::load, runOnFunction, buildTraitCache, buildLoopCache, updateAntiFlowDep, updateOutputDep", "lib/Analysis/Reader/AnalysisWriter.cpp: AnalysisWriter::runOnModule", "include/tsar/Analysis/Memory/MemoryTrait.h: MemoryDescriptor", "include/tsar/Analysis/Memory/DIMemoryTrait.h: DIDependence"]}
{"id": "C75", "title": "Traits of a variable stay true when the analysis is repeated", "statement": "The analysis of a loop is repeated after transformations and existing traits of a variable (no access, read only, shared, kinds of private, reduction, induction, listed dependences and bounds of their distances) are updated with new ones. If both sets of traits are true for an execution of the loop then the updated set is true for it. A variable which can be treated in parallel stays so. Marks of accesses are not lost, dependences and marks of accesses in a loop header do not appear, known distances are not lost.", "quantifier": "all existing and new sets of traits, all executions of a loop with any number of iterations, any accesses to a variable and any values", "why_tests_cant": "The result depends on all combinations of two sets of traits, and the truth of traits ranges over all executions of a loop.", "anchors": ["lib/Analysis/Memory/DIDependenceAnalysis.cpp: clarifyDescriptor, clarify, moveIf", "include/tsar/Analysis/Memory/MemoryTrait.h: MemoryDescriptor", "include/tsar/Analysis/Memory/DIMemoryTrait.h: DIDependence"]}
{"id": "C76", "title": "Traits of merged memory locations cover dependences of each of them", "statement": "If two memory locations of a loop are merged, or results of the analysis of IR are added to existing traits, then each dependence (its kind and distances for all levels of a loop nest) which is possible according to traits of one of locations is possible according to the result. The combination always finishes. A definite dependence stays definite, and a dependence does not become definite because of a merge. Kinds of causes and causes themselves are not lost.", "quantifier": "all pairs of well-formed sets of traits, all descriptions of dependences with any number of levels and any bounds of distances of any widths, all vectors of distances", "why_tests_cant": "The result depends on pairs of arbitrary sets of traits and on bounds of distances, which are unbounded.", "anchors": ["lib/Analysis/Memory/DIDependenceAnalysis.cpp: combineIf (two overloads), combineWith, DIMemoryTraitHandle::allUsesReplacedWith", "include/tsar/Analysis/Memory/DIMemoryTrait.h: DIDependence", "include/tsar/Analysis/Memory/MemoryTrait.h: hasNoDep, hasSpuriousDep, MemoryDescriptor", "lib/Analysis/Memory/PrivateAnalysis.cpp: conversion between a descriptor and a bit mask"]}
{"id": "C77", "title": "Each call gets a basic block of its own and a function does the same", "statement": "The pass which extracts calls finishes for every function. After it each block with a call (except for intrinsics for debug information and lifetime of memory) contains nothing but this call and a terminator. A function executes the same actions in the same order, including executions which do not finish; it stays well-formed. Markers after a call do not start a new block, and a musttail call is still followed by a return.", "quantifier": "all control-flow graphs with any number of blocks and instructions, all states and all executions of any length", "why_tests_cant": "Graphs, states and lengths of executions are unbounded; blocks are changed while they are visited.", "anchors": ["lib/Transform/IR/CallExtractor.cpp: CallExtractorPass::runOnFunction, needToExtract, getNextUsefulInstruction"]}
{"id": "C78", "title": "Removal of dead stores does not change what a function does", "statement": "Dead code elimination removes a store only if the memory it changes is never read. A function does the same after removal: it executes the same instructions, calls and volatile stores with the same values, and memory which is visible outside is the same. Each store to memory which is only stored to is removed and other instructions are not. Removal of operands of removed stores finishes, remaining instructions use remaining instructions only, accesses to memory and terminators of blocks are not removed, and no operand of a removed instruction is left without uses unless it accesses memory.", "quantifier": "all functions, results of a sound alias analysis, machines, initial states, numbers of steps, graphs of uses and orders of iteration over a set of pointers", "why_tests_cant": "Functions, executions and graphs are unbounded, the order of iteration over a set of pointers is not known.", "anchors": ["lib/Transform/IR/DeadCodeElimination.cpp: DeadCodeEliminationPass::runOnFunction"]}
{"id": "C79", "title": "Expressions of a source code are paired with instructions which access the same memory", "statement": "Each expression is paired with at most one instruction and vice versa, and a location of the instruction is a location of the expression. Expressions from a macro expansion are paired in order, and only if there are as many of them as instructions at the expansion. For an expression in a source code without macros each load, store and call is paired with the expression it implements, each of them is paired, and assertions hold. Expressions which are reported as unmatched are not paired.", "quantifier": "all lists of visited items and instructions, orders of iteration over macro expansions, expressions and sets of instructions which are removed by optimizations", "why_tests_cant": "Expressions and functions are unbounded; the order of visits depends on nesting of subscripts, assignments and increments.", "anchors": ["include/tsar/Analysis/AST/Matcher.h: MatchASTBase::findIRForLocation, matchInMacro", "lib/Analysis/Clang/ExpressionMatcher.cpp: MatchExprVisitor, ClangExprMatcherPass::runOnFunction"]}
{"id": "C80", "title": "Calls which prevent parallelization of a loop are expanded and other calls are not", "statement": "Before data dependence analysis is repeated, a call is marked to be inlined if and only if it is a cause of a dependence in a loop which may be parallelized or it may be executed inside such a call. Marking finishes and reports whether something is changed. A marked call is expanded unless the number of accesses in a caller and a callee is not less than the threshold, and a function with expanded calls has less accesses than the threshold.", "quantifier": "all modules, traits of loops, orders of iteration over sets of functions, marks set before, thresholds and bodies of functions", "why_tests_cant": "Call graphs (with cycles) and bodies of functions are unbounded, the order of iteration over a set of pointers is not known.", "anchors": ["lib/Transform/IR/DependenceInliner.cpp: DependenceInlinerAttributer::runOnModule, DependenceInlinerPass::runOnSCC, getInlineCost, evaluateCostOnSCC"]}
{"id": "C81", "title": "Regions for accelerators and their merging do not change results of a program", "statement": "A program where each parallel loop is in a region with directives which move its inputs to a device and its outputs back gives the same results on a host as the sequential program, if results of analysis of loops are right. After neighbouring regions are merged the program still gives the same results, and maximal sequences of neighbouring loops for the same kind of a device form a single region which mentions variables of these loops and no other ones.", "quantifier": "all sequences of statements of a scope, all effects of statements which obey results of analysis, all states of memory of a host", "why_tests_cant": "Programs and contents of memory are unbounded, and an error becomes visible only when a program is executed on an accelerator.", "anchors": ["lib/Transform/Clang/DVMHSMAutoPar.cpp: ClangDVMHSMParallelization::exploitParallelism, mergeRegions, mergeSiblingRegions"]}
{"id": "C82", "title": "Nests of loops with regular dependencies are parallelized in a way which respects dependencies", "statement": "Loops of a parallel nest are perfectly nested and have the same reductions and private variables. If loops of the nest have dependencies with known distances then each dependence goes to a later front of iterations (iterations with the same sum of numbers), the clause across describes distances in the dimension of an array which is accessed with the loop only, and a loop which is not added to the nest does not change the directive: its induction variable is still private.", "quantifier": "all nests of loops, all results of analysis of these loops, all distance vectors and all accesses to arrays", "why_tests_cant": "Depths of nests, distances and sets of accesses are unbounded, and violation of an order of iterations is visible in some schedules only.", "anchors": ["lib/Transform/Clang/DVMHDirecitves.cpp: tsar::dvmh::processRegularDependencies", "lib/Transform/Clang/DVMHSMAutoPar.cpp: ClangDVMHSMParallelization::processRegularDependencies, exploitParallelism", "lib/Transform/Clang/SharedMemoryAutoPar.cpp: ClangSMParallelization::findParallelLoops"]}
{"id": "C83", "title": "Arrays with regular dependencies are tied to loops of a parallel nest", "statement": "If a dimension of an array is tied to a loop of a parallel nest then each access to this array in the nest uses this loop and no other loop of the nest in this dimension, in the specified direction, and a dimension is tied if each access uses the nest in it. A loop which remains parallel has all its arrays with dependencies tied in dimensions with dependencies; all directives of a loop which is not parallel any more are removed and other directives are kept.", "quantifier": "all nests, all sequences of accesses to arrays, all affine subscripts, all values of symbolic coefficients, all lists of directives at the entry and the exit of a loop", "why_tests_cant": "The result depends on the order of an unbounded number of accesses and on runtime values of coefficients.", "anchors": ["lib/Transform/Clang/DVMHSMAutoPar.cpp: optimizeLevelImpl, sanitizeAcrossLoops"]}
{"id": "C84", "title": "Optimized data transfer keeps memory of a host and of an accelerator coherent", "statement": "After directives of data transfer around regions are replaced with directives around instructions of a function, each read on the host and each read on an accelerator gives the same value as in the original program, and after a return from the function variables available outside it have proper values on the host. Only variables related to accesses of an instruction are transferred. On an exit from a loop data are copied before the first instruction which reads memory; all variables which must be transferred before and after a callee are transferred before and after its call.", "quantifier": "all functions, all sets of regions and alias relations, all sequences of instructions and regions, all cells which are read and written, all initial states of copies", "why_tests_cant": "Violation depends on the order of host accesses and regions, on the state of copies on an accelerator and on aliasing; the set of executions is infinite.", "anchors": ["lib/Transform/Clang/DVMHDataTransferIPO.cpp: DVMHDataTransferIPOPass::optimizeGlobalIn, optimizeGlobalOut"]}
{"id": "C85", "title": "Interprocedurally optimized data transfer covers only variables accessed by their names", "statement": "If interprocedural optimization of data transfer is enabled for a function and for a global variable in this function, then each access of the function to this variable uses the name of the variable, so no access through a pointer is missed. The optimization is never enabled for functions without bodies, for functions called from parallel loops, from unknown code or by a pointer and for functions outside optimization regions. A variable remains in the list for optimization if and only if all functions have bodies and all analyzed functions use its address in a harmless way.", "quantifier": "all programs without recursion, all orders of functions, all initial lists of variables, all flows of addresses through memory, parameters and results", "why_tests_cant": "Addresses flow through memory, initializers, parameters and results of any number of functions; tests cover only particular flows.", "anchors": ["lib/Transform/Clang/DVMHDataTransferIPO.cpp: DVMHDataTransferIPOPass::initializeIPO, needToOptimize"]}
{"id": "C86", "title": "The checker of memory which is not initialized mentions each use", "statement": "For each use of memory which may be performed before the memory is defined in a function, the checker reports a variable which contains this memory or warns about memory without metadata. Only such variables are reported, only the largest ones, and each of them is placed once in a list of its class (scalars and aggregates; parameters, local variables, global variables and unknown memory).", "quantifier": "all estimate memory forests, all sets of uses, all relations between memory and metadata", "why_tests_cant": "The result depends on a combination of nested memory, missing metadata and order of uses in a forest of any depth.", "anchors": ["lib/Analysis/Memory/NotInitializedMemory.cpp: NotInitializedMemoryAnalysis::runOnFunction, insert, erase"]}
{"id": "C87", "title": "A loop of a source code is paired with the loop of LLVM IR it is produced from", "statement": "After the search for pairs of loops each natural loop of a function in LLVM IR is paired with the for, while or do-while statement it is produced from (also if the same text is included several times), there are no other pairs, and exactly loops without a pair are reported as unmatched. An implicit loop (a label and goto) is paired with the label its header starts with. Each statement and each loop is in at most one pair.", "quantifier": "all sequences of statements of a function, all lists of loops with their start and header locations, builds with and without assertions", "why_tests_cant": "The result depends on how many times a text is included, on order of loops with the same location and on statements visited between them.", "anchors": ["lib/Analysis/Clang/LoopMatcher.cpp: MatchExplicitVisitor::VisitStmt, MatchImplicitVisitor::VisitStmt, LoopMatcherPass::runOnFunction", "include/tsar/Analysis/Clang/Matcher.h: findIRForLocation"]}
{"id": "C88", "title": "Traits of memory are propagated to the largest memory of each alias node without a loss", "statement": "When traits of a loop are stored for a node of the alias tree, they are given for the largest memory of this node and of nested nodes for each access from these nodes. No memory is given twice and no memory is a part of another one. The trait of the memory is a conjunction of traits of accesses to it and to its parts from these nodes and of nothing else. If the trait is a dependence then a description of the dependence exists.", "quantifier": "all alias trees, all estimate memory trees, all accesses with all traits, all initial maps of dependences", "why_tests_cant": "A list of traits is changed while it is traversed, results depend on order of its elements and on the shape of both trees.", "anchors": ["lib/Analysis/Memory/PrivateAnalysis.cpp: mergeDependence, PrivateRecognitionPass::propagateTraits, PrivateRecognitionPass::removeRedundant", "lib/Analysis/Memory/EstimateMemory.cpp: ancestor"]}
{"id": "C89", "title": "Traits of an alias node are true for all memory locations attached to it", "statement": "When traits of source-level memory locations are combined into traits of a node of the source-level alias tree, a dependence of each location (unless the location is redundant and a user asks to ignore redundant memory) is a dependence of the node, each dependence of the node is a dependence of a location, a class of the node (not accessed, read only, shared) holds for all locations and a node is private, reduction or induction only if a single accessed location is. Flags of the node belong to memory of the node and flags of memory are not lost.", "quantifier": "all lists of locations with all compatible traits, all relations of indirect access between them, with and without ignoring of redundant memory", "why_tests_cant": "Unlimited number of locations, locations accessed through other ones are skipped depending on the whole list.", "anchors": ["lib/Analysis/Memory/DIDependenceAnalysis.cpp: combineTraits", "include/tsar/Analysis/Memory/MemoryTrait.h: hasNoDep, hasSpuriousDep"]}
{"id": "C90", "title": "An output file is updated atomically: old or complete content at every crash point", "statement": "When an output file is written, closed and kept, at every moment (also if the process is killed, receives a signal or a disk is full) each file on a disk either is unchanged or is the destination with all written bytes. A successful close stores all bytes at the path a user means (relative to the working directory) and changes nothing else, a failed or abandoned output changes no files, temporary files never remain, the standard output never changes files.", "quantifier": "all file systems, paths, working directories, flags, divisions of data into writes with failures, results of system calls, crash points (prefixes of operations) and signals", "why_tests_cant": "A crash may happen between any two system calls and each system call may fail; tests cannot enumerate crash points, contents and failures.", "anchors": ["lib/Support/Utils.cpp: OutputFile::create, OutputFile::clear", "include/tsar/Support/OutputFile.h: OutputFile::~OutputFile"]}
{"id": "C91", "title": "Coverage of memory accesses by alias nodes is complete and the smallest one", "statement": "The list of alias nodes which covers (explicit) memory accesses of a region contains for each accessed node this node or a node which contains it, it consists of accessed nodes of the tree only, no memory belongs to two nodes of the list, and it is a part of each other list of accessed nodes with this property. If redundant memory is ignored then it holds for accesses which are not redundant.", "quantifier": "all alias trees, all sets of traits of nodes, with and without ignoring of redundant memory", "why_tests_cant": "Trees of any size and shape, any combination of flags; minimality is a statement about all other coverages.", "anchors": ["include/tsar/Analysis/Memory/MemoryTraitUtils.h: explicitAccessCoverage, accessCoverage"]}
{"id": "C92", "title": "Correction of traits of alias nodes drops dependences only for memory accessed through private pointers and does not depend on the order of nodes", "statement": "After privatization traits of alias nodes are corrected: a node with a single location or without dependences is not changed; if a node has dependences then all its locations get all kinds of its dependences; a dependence of a node is dropped only if all its locations besides one are accessed through private pointers, then the trait of this location becomes the trait of the node; locations do not lose dependences; a dependence of unknown memory is not lost. The result does not depend on the order of nodes in a hash table.", "quantifier": "all dependence sets, all nodes and locations, all orders of visits", "why_tests_cant": "The order depends on addresses of objects; nodes are changed in place while other nodes inspect them.", "anchors": ["lib/Analysis/Memory/PrivateAnalysis.cpp: mayIgnoreDereference, PrivateRecognitionPass::sanitizeCombinedTraits"]}
{"id": "C93", "title": "Transformed sources are written atomically: at each crash point each file is as before or complete", "statement": "When a transformed program is released each source file is written to a temporary file which is moved to the destination. At each crash point each file is as before or contains the whole transformed text, even if a disk is full. If a release has been finished then each file is complete or unchanged, all files are complete if and only if success is reported, the name of the main file is returned if and only if it is written, other files are unchanged. Errors of the operating system are reported without a crash. Temporary files do not remain, even after a signal. Files are changed together.", "quantifier": "all file systems, all lists of transformed files and their texts, all failures of operations of the operating system, all crash points", "why_tests_cant": "The crash point and failures of a disk can not be enumerated by tests, they depend on the operating system.", "anchors": ["lib/Core/TransformationContext.cpp: AtomicallyMovedFile::checkStatus, AtomicallyMovedFile::AtomicallyMovedFile, AtomicallyMovedFile::~AtomicallyMovedFile", "lib/Frontend/Clang/TransformationContext.cpp: ClangTransformationContext::release"]}
{"id": "C94", "title": "Names of dumped files are different from each other and from names of sources", "statement": "When a transformed program is dumped several times each request for a name of a dump returns a new name: it is placed in the directory of the source file, it has the same stem and extension and contains the number of the dump of this file; names of dumps are different for all requests and files; a dump does not replace its source file or another source file.", "quantifier": "all sequences of requests and all names of files", "why_tests_cant": "The state of the counter depends on the whole history of requests; a collision appears after thousands of requests.", "anchors": ["lib/Core/TransformationContext.cpp: getDumpFilenameAdjuster"]}
{"id": "C95", "title": "Control-flow traits of loops and functions describe ways into and out of them", "statement": "For each loop the list of control-flow traits contains each statement that leaves the loop (break, return, goto) and only such statements are marked as exits, each goto which enters the loop from outside is marked as an entry, each call inside the loop is marked with each effect it may have (input/output, no return, return twice, unwinding); only statements of the loop are listed; for the function all returns, gotos and calls are listed; a report of the server contains exactly statements with the requested flags under their own kinds.", "quantifier": "all statements (nested loops, switches, labels, gotos, calls), attributes of callees and requests", "why_tests_cant": "The position of a label relative to nested loops and the way a callee is named are arbitrary; tests contain a few loops.", "anchors": ["lib/Analysis/Clang/ControlFlowTraits.cpp: LabelVisitor, Visitor::TraverseStmt, VisitBreakStmt, VisitReturnStmt, VisitGotoStmt, VisitCallExpr", "include/tsar/Analysis/Clang/ControlFlowTraits.h: CFFlags, RegionCFInfoBase::insert, insert_call", "tools/tsar-server/PrivateServerPass.cpp: PrivateServerPass::answerCalleeFuncList"]}
{"id": "C96", "title": "Levels and order of loops in an answer of a server reflect nesting of loops", "statement": "An answer to a request for loops of a function contains each loop of the function exactly once, outer loops and loops which are earlier in the text are placed before other ones, the level of a loop is one plus the number of loops around it; levels always describe a forest; the answer does not depend on the order of loops in hash tables.", "quantifier": "all functions, all nests of loops, positions of their tokens (macros, included files) and orders of loops in tables", "why_tests_cant": "Locations depend on macros, included files and implicit loops in an arbitrary combination; the result of sorting depends on the order of elements in a hash table.", "anchors": ["tools/tsar-server/PrivateServerPass.cpp: PrivateServerPass::answerLoopTree, getLoopInfo", "tools/tsar-server/ClangMessages.cpp: getLocation"]}
{"id": "C97", "title": "A range which is reported to be free of macros contains no macros and no directives", "statement": "All macros (and only such names) which are defined by #define directives of a file are collected, the collection always finishes. If the check of the 'assert nomacro' clause accepts a statement, no macros are expanded in it and there are no directives in it except pragmas. Each macro found in AST is reported once. Each statement after the clause is checked, alone or as a part of a larger checked statement, other statements are not checked.", "quantifier": "all files as sequences of tokens, all ranges of tokens and locations in AST, all trees of statements with clauses", "why_tests_cant": "Directives may be placed in any combination, inside conditional blocks which are not compiled, with computed names of files; assertions are nested in arbitrary trees.", "anchors": ["lib/Support/Clang/Utils.cpp: getRawMacrosAndIncludes", "include/tsar/Analysis/Clang/NoMacroAssert.h: MacroVisitor, for_each_macro", "lib/Analysis/Clang/NoMacroAssert.cpp: NoMacroChecker"]}
{"id": "C98", "title": "Statistics of a server count each file, function, loop and trait exactly once", "statement": "An answer to a request for statistics contains numbers of files of each kind, of matched and unmatched variables, of functions and user functions, of analyzed and not analyzed loops, of parallel loops and of traits of memory, and each object of a project is counted exactly once; the answer does not depend on the order of units.", "quantifier": "all projects: sets of units, files, functions, loops, alias nodes with traits; all orders of units", "why_tests_cant": "Counters are accumulated over units which share functions and files in an arbitrary way.", "anchors": ["tools/tsar-server/PrivateServerPass.cpp: PrivateServerPass::answerStatistic, incrementTraitCount"]}
{"id": "C99", "title": "Replacement of constants in subscripts preserves a Fortran program", "statement": "After literals and named integer constants in subscripts of arrays with explicit shapes are replaced with variables, a program is correct and each of its executions is the same. New variables have names which are not used in a program, the search for names terminates. There are no constants in such subscripts after the replacement, a program without them is not changed.", "quantifier": "all procedures, expressions, labels and jumps, all executions (numbers of steps) and stores, all sets of symbols and orders of constants in hash tables", "why_tests_cant": "A conflict of names or a wrong place of an initialization appears for special combinations of names, labels and scopes only; an equivalence must hold for all executions.", "anchors": ["lib/Transform/Flang/ConstantReplacement.cpp: ConstantCollector, FlangConstantReplacementPass::runOnFunction"]}
{"id": "C100", "title": "Edits of Fortran sources reach the right file and the right place", "statement": "A rewriter of a Fortran program with included files starts with original texts. A place is reported to be inside of an included file, or inside of a macro, if and only if it is there. An edit changes only the file which contains all edited characters and it is reported as a failure if and only if there is no such file. A replacement replaces exactly the range of characters which is asked for, an insertion is made before the character which is asked for. It is reported that there are modifications if and only if a text differs from the original one.", "quantifier": "all sources (files, included files, macros, ignored characters), all histories of edits and questions, all ranges", "why_tests_cant": "Wrong places appear for special layouts of provenances, for ignored characters and for special histories of questions only.", "anchors": ["lib/Support/Flang/Rewriter.cpp: FlangRewriter::FlangRewriter, FileRewriter::Map", "include/tsar/Support/Flang/Rewriter.h: FlangRewriter::ReplaceText, InsertText, isInclude, isMacroOrCompiler, hasModification"]}
{"id": "C101", "title": "Bodies of clauses are recognized according to descriptions of clauses", "statement": "For each well-formed description of a clause recognition of a body of the clause stops. If a body is accepted it matches the description (tokens, optional parts, repetitions, choices), the replacement of a pragma is made for exactly the tokens of the body in the same order, and tokens after the body are not touched. Each text which matches the description is accepted.", "quantifier": "all descriptions of clauses (nested optional parts, repetitions and choices) and all sequences of tokens", "why_tests_cant": "There are infinitely many descriptions and texts; a mistake in backtracking appears for special combinations of nested parts and errors in a text only.", "anchors": ["include/tsar/Frontend/Clang/ClauseVisitor.h: ClauseVisitor::visitBody, visitAnchor, backtrack", "include/tsar/Support/Directives.h: findAnchor", "include/tsar/Frontend/Clang/ExternalPreprocessor.h: ExternalPreprocessor", "utils/TableGen/TableGen.cpp: GenExprDescription"]}
{"id": "C102", "title": "Directives and clauses are found by names, clauses of pragmas are not lost", "statement": "A search for a name of a namespace, a directive (in a namespace) or a clause (in a directive) finds exactly the declaration with this name, and reports absence of it otherwise. The prototype of each clause is the description of this clause. For each pragma all written clauses are found in the replacement of the pragma with their bodies and in the same order, clauses of other directives are not found. For a pragma with an unknown clause an error is reported.", "quantifier": "all tables of namespaces, directives and clauses with unique names, all names, all sequences of written clauses, all functions which recognize bodies", "why_tests_cant": "Tables are generated from descriptions of any size and with any nesting, texts of pragmas are arbitrary; tests check several clauses only.", "anchors": ["lib/Support/Directives.cpp: getTsarDirectiveNamespace, getTsarDirective, getTsarClause, ClausePrototype::get", "utils/TableGen/TableGen.cpp: GenExprDescription, GenClausePrototypeList, GenClauseOffsetList", "lib/Frontend/Clang/PragmaHandlers.cpp: PragmaReplacer::HandlePragma, ClauseReplacer::HandleClause", "lib/Frontend/Clang/Pragma.cpp: findClause", "include/tsar/Support/Directives.td"]}
{"id": "C103", "title": "The tree of source files contains each file and each declaration once", "statement": "The tree of files of a program contains exactly the files with outermost declarations and the files which include them; each included file is a child of the file with the corresponding directive (once), each declaration is a child of its file. The root of a file is the top-level file which includes it. The number of top-level files is returned correctly. A file which is found for a declaration is the file of this declaration, also if several translation units are analyzed.", "quantifier": "all hierarchies of included files, all lists of declarations in any order, all numbers of translation units", "why_tests_cant": "The result depends on the order of declarations and on the depth of includes: a file is added when the first declaration below it is visited.", "anchors": ["lib/Analysis/Clang/IncludeTree.cpp: FileTree::reconstruct", "include/tsar/Analysis/Clang/IncludeTree.h: FileTree::insert, find, findRoot, root_size, FileNode::push_back"]}
