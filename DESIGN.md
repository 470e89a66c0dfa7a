# Formal model of dvm-system/tsar: design

## Approach

The model is written in Coq 8.16.1 under `rocq/theories`. For each component of
the code there are up to three files:

* `<Area>.v` - the model: total, computable Gallina functions, each carrying a
  comment with the file and lines of /repo it transcribes and the
  simplifications made;
* `<Area>Proof.v` - auxiliary lemmas;
* `Prop_<Area>.v` - the property theorems only: a small specification stated
  independently of the model's helpers, theorems closed by a lemma,
  `Print Assumptions` below each one, and an `Example` which shows that a
  concrete non-trivial case meets the hypotheses.

Conventions:

* Undefined behaviour (dereference of an end iterator, use of a freed node, a
  reached `llvm_unreachable`, ...) is an explicit outcome, not a default value.
* Unbounded loops are recursion on fuel with an explicit out-of-fuel outcome;
  theorems either exclude it or prove that enough fuel exists.
* LLVM services (ScalarEvolution, AliasAnalysis, LoopInfo, the linear
  Diophantine solver of the bcl library, ...) are section variables. They
  become premises of the theorems, and an instance that meets the premises is
  given beside the theorems. No axioms are declared.
* If a property is false of the faithful model the full claim is refuted by a
  theorem `..._refuted` with a witness, and the strongest true fragment is
  proved under the suffix `_partial` with the missing hypothesis spelled out.

## Trusted base

* Coq's kernel (coqc 8.16.1, `vm_compute` included).
* Axioms: those listed by `Print Assumptions` in the `Prop_*.v` files; see the
  last section of this document. The aim is none ("Closed under the global
  context") everywhere.
* The reading of /repo: model definitions are transcriptions made by hand.

## Plan per property

| Id | Files | How it is proved |
|----|-------|------------------|
| C01-C04 | `DFlow*.v`, `Region*.v` | the round-robin and topological solvers over an abstract lattice: fixed point, optimality, termination by a decreasing measure; depth-first search invariants; C04 is refuted for irreducible regions |
| C05-C09 | `MemSet*.v` | coverage as a set of (base, byte), each operation against set algebra, lifted to all reachable sets; C09 refuted for adjacent pieces |
| C10 | `DFValueModel.v`, `Prop_DFValue.v` | case analysis over the universal element on top of C05-C08 |
| C11-C13 | `Range*.v` | interval arithmetic, arithmetic progressions with the Diophantine solver as a parameter, mixed-radix arithmetic |
| C14-C16 | `Trait*.v` | finite closure of 19-bit words, computed and lifted to all sequences; C16 refuted in part |
| C17-C19 | `MemFlow*.v` | soundness of the fixed point over all executions of a region graph and over the hierarchy of loops |
| C20 | `Cover*.v` | byte sets of trees of locations; refuted and partial |
| C21 | `Tree*.v` | preorder and postorder intervals on trees |
| C22, C43-C45 | `UtilModel.v`, `Prop_Util.v` | invariants over histories, bit-width arithmetic, lists |
| C23, C24 | `BimapModel.v`, `Prop_Bimap.v` | refinement to a finite relation, heap with freed nodes |
| C25 | `PIterModel.v`, `Prop_PIter.v` | heap of doubly linked nodes, list-segment invariant |
| C26-C33 | `Dep*.v`, `MIV*.v` | symbolic expressions denote functions from environments to integers; integer arithmetic, extended Euclid invariant, induction over nests |
| C34, C35 | `DTrait*.v` | exhaustive direction sets lifted to nests, fold invariants |
| C36, C37 | `Priv*.v` | execution traces of a loop against the decision table |
| C38 | `AliasRel*.v` | integers with explicit 64-bit wrap |
| C39, C40 | `EMForest*.v` | lists against a heap of parent and child links |
| C41 | `AliasNode*.v` | forwarding forest with reference counts |
| C42, C47 | `Par*.v`, `ParItem*.v` | maps from places to lists of items, buffers with generations, object lifetimes |
| C46 | `Region*.v` | invariant over edge insertions |
| C48 | `EMChain*.v` | invariant of chains over all additions, cache invariant over all requests |
| C49 | `DepDriver*.v`, `DepPartProof.v` | the whole driver over abstract subscripts: partition = connected components, invariant of constraints/directions over all steps of the Delta test; loops of the source nest and the destination nest are handled by normalization of iterations |
| C50 | `Rewriter*.v` | a document of pieces as a specification; simulation between the mapping of locations and borders of pieces over all sequences of edits |
| C51 | SCEVModel (divide, computeSCEVAddRec, findGCD over an abstract ScalarEvolution), SCEVSpec (values of expressions), SCEVConcrete (a small ScalarEvolution) | induction on fuel and on expressions; ring identities modulo M; counterexamples evaluated with the small ScalarEvolution |
| C52 | DelinModel (extractSubscriptsFromGEPs, cleanSubscripts, fillArrayDimensionsSizes), DelinSpec (offsets of types and of elements) | induction on types, on the loop over dimensions; divisions by C51; counterexamples evaluated with the small ScalarEvolution |
| C53 | ReversalModel (transformLoop, parseIncrement, parseCondition, coherent, the choice of loops), ReversalSpec (evaluation of C expressions and of for-loops in words) | closed form of the iteration space by induction on the number of iterations; texts of bounds by precedence; counterexamples by evaluation, the endless loop by induction on fuel |
| C54 | AttrModel (the passes over components in both orders, the table of I/O functions, loop attributes), AttrSpec (a machine with a stack of calls, external functions, call-backs) | closure of the set of marked functions as an invariant of the pass, then an invariant of the stack; completeness by induction on the list of components; counterexamples with invariants of endless executions |
| C55 | GlobalsModel (runOnModule over components), GlobalsSpec (mentions in nested constants, references through calls) | induction on the list of components and on a chain of calls; counterexamples by evaluation |
| C56 | CaptureModel (the work list with ranks of indirection), CaptureSpec (executions with tainted pointers and memory, instructions in any order) | the registry is closed under constraints when the queue is empty; an invariant relates ranks with tainted pointers and local objects; counterexamples by executions |
| C57 | ScalarizeModel (depth-first searches, phi links, last values, deletion of phi nodes), ScalarizeSpec (executions of both loops, paths, SSA) | invariants of depth-first searches give a consistent assignment of last values, which is preserved by deletion of phi nodes; lock-step simulation, dominance shows that a register which holds the last value is not redefined |
| C58 | CanonModel (search for writes and comparisons, recursive check of invariant operands, description of a loop), CanonSpec (executions of loops, alias tree, traits, SSA) | an accepted operand is determined by values of unchanged memory and of instructions outside of the loop, so that its value is unique in all reachable states; induction on iterations with an invariant for the value of the induction variable |
| C59 | CanonModel (coherentUnary, coherentBinary, comparison of APSInt) | case analysis over directions of steps and comparisons, linear arithmetic for all numbers of iterations |
| C60 | InterchangeModel (collection of loops, traits, checks of headers, permutation of headers), InterchangeSpec (execution of nests) | bounds are stable inside the nest, an execution is a sequence of iterations, two iterations commute, each permutation of the space that is lexicographic for other headers gives the same memory |
| C61 | InterchangeModel (visit, perfectLoops) | induction over statements with an invariant of the counter of loops and the flag of statements |
| C62 | GlobalLiveModel.v: checks of blocks with calls, collection of functions and externally called functions, initial live sets from sets of calls, translation of actual arguments to arguments, the walk from callers to callees. Intra-procedural live memory (C17) and definitions are inputs. | GlobalLiveProof.v: an invariant of the walk (each call of an already visited caller is recorded with a set that covers the live memory after the call); Prop_GlobalLive.v: induction on the chain of activations of an execution. |
| C63 | RenameModel (rawIds, freshName, visitNamed, visitRef, trav, travItem, renameLocals) | an invariant relates environments of the old and the new text (each visible name is renamed as recorded, new names are different); induction over statements, lookup of names in C is specified separately |
| C64 | DeadDeclModel.v: the visitor which collects dead declarations and dead assignments, the checks of initializers, macros and groups, and the removal of statements. DeadDeclSpec.v: an executable semantics of a part of C with pointers, calls, loops, external and volatile variables. | The visitor is shown to be a fold over a list of events, an invariant of this fold says that a remaining declaration has recorded assignments only; a simulation between the two programs ignores values of removed variables. Volatile variables, extern declarations inside a function, sizes of arrays with side effects and local enumerations are refuted by examples. |
| C65 | NestModel.v: the list of functions with numbers of components and numbers of called components, the depth-first search which builds the matrix of reachability, the search for loops with a state of a parallel item, the set of functions called from parallel loops and the pass over functions from callers to callees. NestSpec.v: chains of calls, nests of loops, orders of components. | Without mutual recursion numbers of components are positions of functions, the depth-first search visits exactly nodes reachable from its root (an invariant: a set of visited nodes is closed), so the matrix is exact; functions are processed from callers to callees, so a chosen loop only calls functions which have not been processed yet and they are rejected later. Mutual recursion and calls through casts are refuted by examples. |
| C66 | ParLoopModel.v: checks of traits of a loop (ParallelLoop), evaluation of dependencies, search for variables, lists for clauses, checks of globals and references, inductions. ParLoopSpec.v: programs of iterations as trees of reads, writes and updates, sequential execution with traces, parallel execution with interleaved accesses and private copies, meaning of each trait on traces. | ParLoopSem.v: invariant which relates each thread with a moment of sequential execution of its current iteration, reductions are sums of contributions. ParLoopProof.v: each accessed cell is classified by the node which describes it. Prop_ParLoop.v: C66_results_partial, C66_rejected and refutations for static variables declared in a loop, an induction variable used later, memory which is only firstprivate/lastprivate, memory without a variable. |
| C67 | OrdModel.v: collection of distances for variables, merge of ranges, depth of an ordered directive, extension of a nest by inner loops, offsets of depend(sink) clauses. OrdSpec.v: execution of iterations with waits, vectors of iterations, dependencies with given distances, claims. | OrdSem.v: simulation of sequential execution if each conflict between iterations is covered by the transitive closure of waits; progress by a minimal unfinished iteration. OrdProof.v: merged ranges contain distances of all dependencies, offsets of a directive are exactly vectors in ranges. Prop_Ord.v: C67_cover_partial, C67_defined_partial, C67_clauses_partial, C67_results_partial, C67_progress_partial and refutations. |
| C68 | UnrModel.v: search of segments, edits of expressions and statements as a list of tokens. UnrSpec.v: execution of statements with visited regions, a parser of tokens, decidable conditions with switches, claims. | UnrProof.v: evaluation of edited expressions, executions without fuel, remaining statements, printing and parsing of them, simulation by induction on an execution, binary search. Prop_Unr.v: C68_results_partial, C68_coverage_partial and a refutation for each condition. |
| C69 | MdModel.v: blocks with intrinsics, definitions, phi-nodes and uses; findDomDbgValues, findAliasBlocks, the scan in the block of a user, the backward walk over predecessors, the choice of the main variable, the list of all users. The dominator tree is an argument (premise: it is correct). | MdSpec.v gives an operational semantics in which a variable is a sequence of bits which are set by intrinsics. Paths are cut at the last intrinsic which touches the location; a definition of the value after it contradicts dominance. |
| C70 | PropagModel.v: maps of replacements, availability of operands, the check of references of right-hand sides, the stack of visible declarations, the traversal which replaces references; a new text is resolved in the scope of its use. Results of findMetadata (C69) are input data. | PropagSpec.v gives an operational semantics with typed values which records the state of each evaluated location and of each definition. A replacement is valid if its value is equal to the replaced variable in each recorded state; validity is an invariant of the traversal, and executions of both programs are related step by step. |
| C71 | RecurModel.v: the search by levels of callees with the set of callers, the overwritten flag NeedToAdd, the order of a DenseSet as an argument, the static set of recursive functions which is computed with flags of the first checked template, recursion of compile. | RecurSpec.v defines chains of calls. Levels of the search are exactly ends of chains of a given length; if chains between two functions have the same length then a level can not repeat a function, so the search is short (pigeonhole) and finds only its first function. Expansion of an acyclic graph is bounded by the number of functions. |
| C72 | InlineModel.v: expressions, statements, search for calls with disabled operands, order and place of inserted texts, removal of a statement with a call of a void function, new names, replacement of return statements, check that declarations of callers do not hide external names of a callee, expansion of calls in an inserted body. | InlineSpec.v defines executions with any order of evaluation of operands. Renaming of parameters keeps executions (InlineRen.v); a relation between variables of both programs (InlineRel.v) is kept by simulation of expressions with pending calls and by induction on the number of steps of the changed program (InlineProof.v). |
| C73 | WeightModel.v: binary search for a segment of coverage data, weights of instructions, functions and loops in the order of strongly connected components; division by zero is an error outcome. | WeightSpec.v defines the number of executions at a position as the counter of the last segment which does not begin after it, and weights as sums. An invariant of the binary search; induction on loops and on the list of components, with extension of the tables of weights (WeightProof.v). |
| C74 | ReaderModel.v: alternatives of traits, update of traits from an entry of a file, loading of several files, search for a loop and a variable in a file, writing of traits with truncation of distances; dereference of a missed description of a dependence is a crash outcome. | ReaderSpec.v defines executions as lists of accesses of iterations, dependencies between the nearest iterations and the meaning of each trait. Each change of traits keeps their claims (ReaderProof.v); absence of dependencies between the nearest iterations implies independence of all iterations. |
| C75 | ClarifyModel.v: preparation of new traits, the choice between existing and new traits, the move of descriptions of dependences. | ClarifySpec.v defines executions of a loop as lists of accesses of iterations, dependences, and an execution with private copies (copy-in, copy-out of the last, second to last or a found iteration); traits are claims about them. All results of an update are listed (ClarifyProof.v, result) and the claims are checked for each. |
| C76 | CombineModel.v: integers of fixed width, combination of descriptions for each kind of dependences, removal of unknown levels, combination of descriptors as bit masks (TraitModel.v), restriction of listed dependences. | CombineSpec.v defines dependences allowed by a set of traits. Each step changes a description of one kind only, and a state before a step is either the initial one or contains dependences only (CombineProof.v, later, combineKinds_at). Ranges are merged by induction over levels. Combination of classes is checked for all pairs of classes. |
| C77 | ExtractModel.v: functions as lists of blocks, split of a block with update of PHI nodes, the search for a call, the loop over blocks. | ExtractSpec.v defines executions as an inductive relation over an arbitrary machine. A split of a block is a simulation in both directions (ExtractProof.v, forward, backward); the loop is a sequence of splits; its weight decreases. |
| C78 | DseModel.v: visits of instructions which drop sets of memory, list of stores to remove, removal of operands with a worklist and sets Visited and HasUses. | DseSpec.v defines an arbitrary machine and what a right alias analysis is. Lock-step simulation (DseProof.v, same_steps): memories differ in sets which are only stored to. Removal of operands: invariant ok of both loops, measure size. |
| C79 | MatchModel.v: map from locations to queues of instructions, bimap of matches, sets of unmatched nodes, macro queues, visits of subscripts, references, assignments, increments, dereferences and calls. | MatchSpec.v states which instructions an expression is lowered to (accesses, in order of evaluation) without reference to the visitor. Invariants of queues (pairs_ok, macro_ok); induction on expressions with a state of a visitor (main_ok, exact_ok). |
| C80 | DepInlineModel.v: search for calls by locations of causes and by handles of unknown memory, worklist of functions, marks of all calls in these functions; expansion of calls in functions without recursion with costs which are evaluated once. | DepInlineSpec.v defines which calls prevent parallelization and chains of direct calls. Traversal is a sequence of marks (module_fold); closure: invariant and measure (close_spec, close_finish); expansion: induction on depth (expand_ok, run_good). |
| C81 | DvmhMergeModel.v: directives at an entry and an exit of each loop, merging of a sequence of regions (a missing directive is a crash), traversal of children of a scope. | DvmhMergeSpec.v defines execution of directives with memory of a host and of a device and maximal groups of loops. merge_ok describes a merged region; siblings_ok: children are split to runs; exec_group: a merged region computes the same values (agree: outputs depend on inputs and previous outputs only). |
| C82 | AcrossModel.v: scan of affine subscripts for the dependent dimension, possible depth of a nest, updates of the clause across, construction of a directive for a nest loop by loop. | AcrossSpec.v defines fronts, ranges of distances, consistent accesses. Run describes accepted loops and parallelize_run splits any result to accepted loops and at most one rejected loop; run_structure, run_depth, run_across are invariants; scan_ok: the dependent dimension contains the loop only. |
| C83 | TieModel.v: a mapping of dimensions which is reset and filled for each access, search for dimensions which are not tied, removal of directives at the entry and the exit of a loop, access to an absent directive is a distinct outcome. | TieSpec.v defines loops used by an access in a dimension and loops with untied arrays. visitSubs: each dimension of a mapping depends on its subscript only; foldDim: the last monom wins; tie_cases: the mapping is built from a single access to the array; cleanEntry_others, cleanExit_others: exactly directives of the loop are removed. |
| C84 | TransferModel.v: collection of variables of directives by alias nodes, addGetActualIf and addTransferToWrite with the set of inserted nodes, processing of instructions, boundary of a function, the position on an exit of a loop, directives of callees; a host and an accelerator with flags of valid copies. | TransferSpec.v defines the original execution with a single memory and soundness of alias analysis. tableOk: tables contain exactly variables of regions; good/served: each access is served and each actual variable is obtained before; inv: a copy marked as valid is equal to the original memory, host_step and dev_step preserve it for any event. |
| C85 | IpoModel.v: status of functions relatively to optimization regions, the traversal of functions and instructions, erasure of variables with captured addresses, variables to ignore in callees. | IpoSpec.v defines flow of addresses (holds, stored) and attributes of parameters. Each visit keeps a variable if and only if the instruction is harmless (visitAll_In); mutual induction over flows shows that an address of a kept variable is never stored and reaches parameters directly from calls only; visitBody_new: such calls add the variable to the list of ignored ones. |
| C86 | NotInitModel.v: filtering of objects, search for the nearest memory with metadata, insertion into lists, removal of memory with a parent in the list. | NotInitSpec.v defines nesting of memory and candidates. climb_spec/named_climb: the search finds the smallest memory with metadata; collected is an invariant of the traversal of uses; reduce_spec: the second traversal leaves the largest memory; covered: the topmost candidate exists by well-founded induction. |
| C87 | LoopMatchModel.v: maps from locations to queues of loops, a visit of a for statement by the location of its initialization and of the accurate location otherwise, transfer of the rest of a queue to the location of the header, implicit loops, emplace into a bimap. | LoopMatchSpec.v gives the origin of each loop. inv is an invariant of the traversal: for each text of a loop the queue at the location of the initialization (before the first copy) or at the beginning of the loop (after it) contains exactly loops of the remaining copies. implicit_good: elements of the second map are kept at locations of headers and the last visited label is the label of the header. once is preserved by all steps. |
| C88 | RedundModel.v: a tree of alias nodes with lists of traits, a post-order traversal with movement of traits of children to a parent, a search for the largest memory in a node and removal of redundant elements of a list. | RedundSpec.v defines coverage of memory as a reflexive transitive closure of the parent relation and accesses of a subtree. scan and reduce preserve the set of accesses each element stands for, tree_good is an induction over the tree with the invariant that elements of a list of a node are largest memory inside it. tree_deps: an element of the list is in the map of dependences or belongs to the current node, in the second case it is inserted when it becomes the current element. |
| C89 | NodeTraitModel.v: a list of locations with descriptors of traits and lists of locations they are accessed through, the special case of a single location, a loop with bitwise combination of traits, the summary class of several locations, restoration of precise dependences and of flags. | NodeTraitSpec.v reuses the meaning of traits of C76 (possible dependences). f_... lemmas describe each field of the state after the loop, meet_spec and meet_one describe the bitwise class (checked by computation on the finite set of classes and lifted by induction to lists of any length). |
| C90 | OutFileModel.v: a file system (regular and special files, registered for removal on a signal), primitive operations, create with the choice of a temporary file, missing directories and the fallback to direct writing, writes, clear (keep or erase) and the destructor as a function which returns a list of operations; results of LLVM calls are an oracle. | OutFileSpec.v says which file is meant by a path and what may be visible. A crash point is a prefix of the list of operations. Frame lemmas (an operation changes only named files) and the state after writing are proved by induction on lists of operations and pieces of data (OutFileProof.v, OutFileProof2.v). |
| C91 | CoverageModel.v: two recursive functions on trees, traits are flags of explicit, redundant and not redundant accesses. | CoverageSpec.v defines subtrees, containment, covers and the smallest coverage. Both functions are instances of one recursive scheme, for which the theorems are proved by induction on a tree. |
| C92 | SanitizeModel.v: a list of nodes (locations with traits and nodes of pointers, traits of unknown memory), search of the only location which is not accessed through a private pointer, update of a node in place, visits in an arbitrary order. | SanitizeSpec.v defines dependences by kinds and the justification of a drop. Each node is processed once in an intermediate state (get_once), private nodes stay private (private_stays), nodes of pointers without dependences do not change (nodep_stays). |
| C93 | AtomicModel.v: a release is a list of operations on the file system of OutFileModel.v, a crash point is a prefix of this list. Decisions of the operating system (a file is writable, a temporary file is created, a file is opened, renaming, results of writes) are an oracle for each file. | AtomicSpec.v. Operations of a single file are classified (write_cases), each case is investigated with the frame lemmas of C90, then induction on the list of files. |
| C94 | DumpNameModel.v: strings are lists of codes, the last dot and the last slash, decimal digits which are stored in a buffer of 5 characters, 16-bit counters of files, sequences of requests. | DumpNameSpec.v. A new name determines the original name and digits (rename_inj), digits determine a number less than 10000 (buffer_value), the number is the number of requests modulo 65536 (dumps_nth). |
| C95 | CFTraitModel.v: trees of statements, a stack of scopes, a map from labels to gotos, events (a region, a statement, flags) and their insertion into sets, slots of a report. | CFTraitSpec.v. Events of a tree come from its leaves with scopes around them (visit_part, visit_inv); flags are determined by a region and a statement (event_flags), hence the first inserted trait is the only one; induction on events for reports. |
| C96 | LoopLevelModel.v: tokens with positions of an expansion and of a spelling, getLocation, the comparison of locations, the stack of ends of loops. | LoopLevelSpec.v (std::sort is any ordered permutation; true ends of loops, which may differ from ends of statements). The invariant of the stack: a processed loop is in the stack or it ends before the current one, each loop of the stack is inside all loops below it (pop_state, levels_ok); ordered permutations are unique for a strict total order. |
| C97 | NoMacroModel.v: raw tokens with a flag of the start of a line, a position in the body of the loop (violated assertions and an infinite loop are separate results), locations in AST, the search in a range, the traversal of a tree with an active clause. | NoMacroSpec.v (files as lists of lines, a preprocessor as a set of expanded tokens). Induction on lines with the mode at the beginning of a line as an invariant (line_normal, collect_lines, only_lines, total_lines), on a length of a range (raw_spec), on the path to a node (visit_node) and on a tree (checked_node). |
| C98 | StatModel.v: units with files and declarations, functions with loops, nodes with traits of memory; counters in the order of the code, an insertion into a map keeps the first value. | StatSpec.v (a project and numbers of its objects). Closed forms of counters by induction on functions and units (visit_spec, fold_spec), an exchange of sums over units and functions (exchange), sums are invariant under permutations. |
| C99 | ConstReplModel.v: expressions, statements with labels, collection of constants with the flag of the innermost reference, the search for a free name (fuel is a number of symbols plus one), the replacement, initializations and declarations before the first statement. | ConstReplSpec.v (a small-step semantics). The search terminates by the pigeonhole principle (suffix_total); a simulation: stores agree on original names and new variables hold constants (related, inits_run, eval_replace, step_sim, run_sim). |
| C100 | FlangRwModel.v: ranges of files, the map of intervals (an overlap is an error; a search finds an interval which ends at or after a point), initialization of mappings, a choice of a file, edits with the model of texts of C50, the stored answer about modifications. | FlangRwSpec.v (places of characters only). Invariants: ranges are the smallest ranges which cover characters of a file (ranges_inv), they are disjoint (good), a mapping of each character is its offset (minv, mapAll_ok); histories preserve ranges (reached_good). |
| C101 | ClauseModel.v: a prototype is a list of expressions with anchors, a stack of levels with saved positions, the loop of visitBody with fuel, backtracking level by level, skipping of rests of parts. | ClauseSpec.v (grammars and their languages as inductive relations). The machine is simulated by recognition with ordered choice (simulation, by a mutual induction on derivations), which is total for well-formed grammars (peg_total), sound (peg_sound) and complete if the next token determines what to do (lang_ok). |
| C102 | DirectiveModel.v: tables with invalid first entries, searches (a failed assertion is an outcome), generated tables of prototypes and offsets, the loop of a handler of a directive, the search for clauses in a replacement. | DirectiveSpec.v (declarations by numbers, inductive shapes of prototypes, written clauses). Induction on tables (child_found, child_total), on descriptions (gen_shape: the returned size is the number of written expressions), on offsets (table_ok), on written clauses (loop_ok, find_ok). |
| C103 | IncludeModel.v: the map of files with stored contexts, children of nodes, the loop over declarations and the loop over including files, search for files, roots and the number of roots. | IncludeSpec.v (the relation of inclusion). An invariant with one pending edge (Inv): the map is closed under inclusion except for a new file, edges are exactly inclusions of other files; climb_ok, add_ok, fold_ok by induction. |

## Modelled and not modelled

Each `*Model.v` file models the functions named below; every definition in it
cites its lines. `*Spec.v` files state properties without the helpers of the
model, `Prop_*.v` files contain the theorems, other files contain proofs.

### `AcrossModel.v`

```
Model of parallel nests with regular dependencies,
/repo/lib/Transform/Clang/DVMHDirecitves.cpp 55-139 (processRegularDependencies) and
/repo/lib/Transform/Clang/DVMHSMAutoPar.cpp 119-158 (processRegularDependencies), 160-314
(exploitParallelism), /repo/lib/Transform/Clang/SharedMemoryAutoPar.cpp 183-207 (traversal).

Simplifications.
- Loops, variables and arrays are numbers.  Sets of variables are lists, reductions of a loop
  are a single number.
- Distances of a dependence are pairs (minimal, maximal) of integers, they are known
  (ASTDependenceAnalysis.cpp 217-230 keeps the known prefix only).  Signedness of APSInt is
  not modelled.
- A loop has at most one inner loop, this is the case in a perfect nest.  Loops which analysis
  is not able to describe (evaluateDependency) stop the traversal.
- A region, actual and get_actual directives are in DvmhMergeModel.v.
```

### `AliasNodeModel.v`

```
Model of reference counting and forwarding of alias nodes:
/repo/include/tsar/Analysis/Memory/EstimateMemory.h 687-745, 815-825,
905-925, 1128-1140, 1214-1240 and 1269-1272,
/repo/lib/Analysis/Memory/EstimateMemory.cpp 407-427, 657-669.

Simplifications.
- A node is a number; the pool is the list of allocated nodes.  To access a
  node which is not in the pool is undefined behaviour; it is [None], like a
  failed assertion and a decrement of a zero counter.
- Lists of children and of locations of a node do not own nodes and are
  absent.  Conditions of assertions are checked without side effects.
- A set of unknown accesses of a node is reduced to a flag whether it is not
  empty.
- Recursive functions have fuel, [None] means also that it is exhausted.
```

### `AliasRelModel.v`

```
Model of relations between memory locations:
/repo/lib/Analysis/Memory/EstimateMemory.cpp 267-351 and 364-404,
/repo/include/tsar/Analysis/Memory/EstimateMemory.h 60-205,
/repo/include/tsar/Analysis/Memory/MemorySetInfo.h 106-120.

Simplifications.
- A pointer (llvm::Value) is a number.  Results of alias analysis
  (llvm::AAResults::alias) and of llvm::GetPointerBaseWithConstantOffset are
  arguments of the model.
- A size is precise, an upper bound, or one of two unknown sizes of
  llvm::LocationSize; sizes of scalable vectors and special keys of
  llvm::DenseMap are absent.
- Metadata of a location is a number, absent or marked as corrupted
  (the state which EstimateMemory::updateAAInfo() sets on a conflict).
- bcl::TraitDescriptor is outside of the repository.  A descriptor is one of
  four main traits and the additional ones which are allowed together with
  PartialAlias and MustAlias.  A descriptor without a main trait (the
  default value) is never read by the modelled functions.
```

### `AtomicModel.v`

```
Model of files which are moved atomically (C93): [AtomicallyMovedFile],
lib/Core/TransformationContext.cpp 66-126, and the release of transformed
sources, lib/Frontend/Clang/TransformationContext.cpp 68-102.

Operations on a file system are reused from OutFileModel.v. The version for
systems other than Windows is modelled: a temporary file is renamed before its
stream is destroyed.
```

### `AttrModel.v`

```
Model of the deduction of function and loop attributes,
/repo/lib/Transform/IR/InterprocAttr.cpp:
- addLibFuncAttrsTopDown, 118-128
- RPOFunctionAttrsAnalysis::runOnModule, 144-191
- POFunctionAttrsAnalysis::runOnSCC, 206-245
- addNoIOAttr, 247-268; addDirectUserCalleeAttr, 270-284; addAlwaysReturnAttr, 286-300
- LoopAttributesDeductionPass::runOnFunction, 318-371
and of the list of I/O functions:
- isIOLibFuncName, /repo/lib/Analysis/Attributes.cpp 60-77 and
  /repo/include/tsar/Analysis/LibraryFunctions.def.

Simplifications.  Functions are numbers, attributes are a set of pairs.  The call graph,
its strongly connected components, the answer of TargetLibraryInfo and attributes of LLVM
are inputs.  Users of a function are a tree, if casts share users they are repeated.
```

### `BimapModel.v`

```
Model of bidirectional maps:
/repo/include/tsar/ADT/Bimap.h and /repo/include/tsar/ADT/ListBimap.h.

Nodes live in a heap; an address which is not in the heap is a null, freed
or foreign one, and an access to it is the outcome [None].  Addresses are
not reused.  Keys are numbers.  Copying, assignment and swap are not
modelled: they do not compile if instantiated (an iterator of the list is
inserted into a set of pointers, a data member is called).
```

### `CFTraitModel.v`

```
Model of control-flow traits of loops and functions (C95):
lib/Analysis/Clang/ControlFlowTraits.cpp 41-218,
include/tsar/Analysis/Clang/ControlFlowTraits.h 39-60 and 295-325,
and their report by a server, tools/tsar-server/PrivateServerPass.cpp 1480-1529.

A statement is identified by a number (a pointer to a node of AST), its kind is
determined by this number. Calls which are nested in expressions are statements
in the order of their visits. C++ statements (range-based loops, exceptions,
lambdas) and computed gotos are not modelled.
```

### `CanonModel.v`

```
Model of the search for loops in canonical form,
/repo/lib/Analysis/Clang/CanonicalLoop.cpp:
- coherent, 198-270 (the syntactic check of a head of a for-loop)
- findLastWrite, findLastCmp, 272-325
- isLoopInvariantMemory, 333-430
- checkLoop, 432-585.

Simplifications.  Instructions and constant expressions are numbered.  Results of
other analyses are inputs: which accesses are performed by calls, to which node of the
metadata-level alias tree an accessed location belongs, which nodes are unreachable
from each other in the alias tree, traits of nodes in loops.  A failed assertion and
a dereference of a null pointer are an outcome [Crash]; an infinite recursion is visible
as [NoFuel] for each fuel.
```

### `CaptureModel.v`

```
Model of the search for pointer arguments which are not captured,
/repo/lib/Transform/IR/NoCaptureAnalysis.cpp:
- isCaptured, 114-175
- applyDefinitionConstraint, 177-232
- applyUsageConstraint, 234-290
- runOnModule, runOnFunction and setNocaptureToAll, 60-112.

Simplifications.  Values are numbers, an instruction is identified with its result.
Orders of lists of uses are inputs.  Users which are not instructions do not exist
for arguments and results of instructions.  Only direct callees have attributes.
```

### `ClarifyModel.v`

```
Model of the update of existing traits of a memory location with traits
found by a repeated analysis,
/repo/lib/Analysis/Memory/DIDependenceAnalysis.cpp 130-148 and 302-385.

Simplifications.
- A set of traits is a descriptor (TraitModel.v) with descriptions attached
  to the traits Flow, Anti and Output.  Descriptions of other traits and
  causes of dependences are not modelled.
- Only distances of the outermost loop are modelled: getDistance(0).
- The library bcl is outside of the repository.  bcl::trait::update(From, To)
  makes each trait of To the same as in From; a description is accessible
  while its trait is set; set() without a value keeps the description.
```

### `ClauseModel.v`

```
Model of recognition of bodies of clauses in directives.
- findAnchor, /repo/include/tsar/Support/Directives.h 135-154.
- ClauseVisitor, /repo/include/tsar/Frontend/Clang/ClauseVisitor.h 48-363.
- ExternalPreprocessor, /repo/include/tsar/Frontend/Clang/ExternalPreprocessor.h 38-132.

Simplifications.  A position in a prototype (an iterator) is a rest of a list of
expressions.  A position in a stream of tokens is a list of remaining tokens, the
end of the list is tok::eod.  mBacktrackPositions is a part of levels, because
positions and levels are pushed and popped together (a position at the bottom is not
used).  A visited token is appended to the replacement as is: what is generated for a
token (visitEK_Identifier and so on) depends on this token only.  Braces of EK_One,
locations of tokens and names of clauses are not modelled.  A step of the loop takes a
unit of fuel, [Fuel] means that the loop does not stop in time.  Failed assertions are
[Bad].
```

### `CombineModel.v`

```
Model of the combination of traits of memory locations with attached descriptions of
dependences, /repo/lib/Analysis/Memory/DIDependenceAnalysis.cpp 150-300, 476-504 and
2612-2642.

Simplifications.
- The library bcl is outside of the repository.  Method set() of a descriptor unsets
  traits which are incompatible with the new one (other alternatives of MemoryDescriptor);
  updates of traits at 1680-1760, such as set<trait::Reduction>() for a variable with
  dependences, rely on this.  A description is accessible while its trait is set.
- A cause of a dependence is a number.
- Search for traits of IR-level memory (445-475) is not modelled.
- Statistics are not modelled.
```

### `ConstReplModel.v`

```
Model of replacement of constants in Fortran programs (C99):
/repo/lib/Transform/Flang/ConstantReplacement.cpp.

A procedure consists of a specification part (a list of expressions) and of a list of
labelled statements. Texts of names are numbers. A reference to an array has a single
subscript. Structured statements are represented with conditional jumps. A range of a
constant in a text is an occurrence in a tree.
```

### `CoverModel.v`

```
Model of the test whether locations cover a location:
/repo/include/tsar/Analysis/Memory/MemoryCoverage.h.

Simplifications.
- Numbers of alias nodes are the numbering of TreeModel.v, relations of
  locations are functions of EMForestModel.v.
- std::map is a list sorted by keys.
- [None] is a failed assertion, a dereference of the end iterator or
  exhausted fuel.
```

### `CoverageModel.v`

```
Model of coverage of memory accesses by alias nodes (C91):
include/tsar/Analysis/Memory/MemoryTraitUtils.h 30-83.
```

### `DFValueModel.v`

```
Model of /repo/include/tsar/Analysis/Memory/DFMemoryLocation.h 44-258 and
/repo/lib/Analysis/Memory/DFMemoryLocation.cpp 36-59: a data-flow value is
a memory set or the full value.  The value that was destroyed
(INVALID_KIND) is not modelled.
```

### `DFlowModel.v`

```
Model of the data-flow solver templates of tsar.

Sources (all in /repo):
 include/tsar/ADT/DataFlow.h           solveDataFlowIteratively  139-171
                                       solveDataFlowTopologicaly 194-235
                                       solveDataFlowUpward       291-305
 include/tsar/ADT/GraphUtils.h         findBackEdge 75-120, isDAG 131-133
 include/tsar/Analysis/DataFlowGraph.h GraphTraits 521-613

Simplifications:
- a node (DFNode pointer) is a natural number, the values attached to nodes
 (DenseMap or attribute inside of the framework) are a function from nodes
 to values; 'initialize' has no effect on values and is dropped;
- the C++ recursion and the do-while loop are bounded by an explicit fuel;
 running out of fuel is a separate outcome and it is proved unreachable;
- assertions are not modelled.
```

### `DTraitModel.v`

```
Model of the record of loop-carried dependences of a location,
/repo/lib/Analysis/Memory/PrivateAnalysis.cpp: insertDependence and
class DependenceImp.

Values of symbolic expressions are as in DepModel.v; [Bits] is the width of
the words the distances are compared in.
```

### `DeadDeclModel.v`

```
Model of the elimination of dead declarations,
/repo/lib/Transform/Clang/DeadDeclsElimination.cpp:
- DeclVisitor, 64-251
and of findSideEffect, /repo/lib/Support/Clang/Utils.cpp:486-500.

Simplifications.  A function is a syntax tree with a part of expressions and statements of
C, an assignment has a number (its location).  RemoveText is modelled as the removal of
statements, declarations of a group are removed one by one.  A result of for_each_macro
for a scope is a part of the scope.  Diagnostics, classes, labels and switches are not
modelled.
```

### `DelinModel.v`

```
Model of delinearization of array accesses,
/repo/lib/Analysis/Memory/Delinearization.cpp.

- extractSubscriptsFromGEPs, 93-135
- cleanSubscripts, 219-346
- fillArrayDimensionsSizes, 348-506

Simplifications.  Safe type casts only (mIsSafeTypeCast).  Asserts are not modelled.
A conversion of a dimension size to the index type is a parameter.
```

### `DepDriverModel.v`

```
Model of the driver of dependence tests,
/repo/lib/Analysis/Memory/DependenceAnalysis.cpp: DependenceInfo::depends with
classifyPair, testSIV, testRDIV and the Delta test for coupled subscripts.

Simplifications (besides those of DepModel.v and MIVModel.v).
- Delinearization (tryDelinearize), removeMatchingExtensions, getSCEVAtScope
  and unifySubscriptType are done before: the input is a list of subscripts,
  each is a pair of chains of recurrences or it is non-linear.  All numbers
  have the same width [Bits].
- ConfusedLevels are not modelled: a subscript with a start or a step which
  is not invariant is non-linear.
- The flag Consistent and the split iteration are not modelled here.
```

### `DepInlineModel.v`

```
Model of the inliner which handles calls which prevent data dependence analysis,
/repo/lib/Transform/IR/DependenceInliner.cpp 152-180 (evaluateCostOnSCC, runOnSCC), 182-198
(getInlineCost) and 200-366 (DependenceInlinerAttributer::runOnModule).

Simplifications.
- Functions, calls and debug locations are numbers.  Metadata 'Inline' of calls is a list of
  numbers of calls.
- Traits of loops are given (results of other passes).  A trait contains causes of anti, flow
  and output dependencies; if its memory is a function ([DIUnknownMemory] with
  [DISubprogram]) it contains handles of calls.
- Edges of the call graph are calls of a function in order.  A node of a function without a
  definition has no calls.
```

### `DepModel.v`

```
Model of the single-subscript dependence tests of
/repo/lib/Analysis/Memory/DependenceAnalysis.cpp.

Common simplifications.
- A symbolic expression ([const SCEV *]) is its denotation: a function from
  an environment (the values of all loop-invariant symbols) to Z.  SCEV
  arithmetic (getMinusSCEV, getMulExpr, ...) is exact integer arithmetic:
  the wrap-around of SCEV expressions is not modelled (the analysis
  requires no-wrap recurrences).  APInt arithmetic in findGCD,
  exactSIVtest and exactRDIVtest does wrap, and is modelled with wrap.
- Loops are normalised: iterations of a loop are 0, 1, ..., UB where UB is
  the backedge-taken count, if it is known (DependenceAnalysis.cpp
  1178-1200, collectUpperBound).
- Statistics counters and debug output are dropped.
```

### `DirectiveModel.v`

```
Model of names of directives and clauses, of tables of prototypes of clauses and of handlers
which replace pragmas.
- Tables and searches of names, /repo/lib/Support/Directives.cpp 30-236.
- Generation of prototypes, /repo/utils/TableGen/TableGen.cpp 118-156.
- PragmaReplacer, ClauseReplacer, /repo/lib/Frontend/Clang/PragmaHandlers.cpp 150-268.
- Pragma and findClause, /repo/lib/Frontend/Clang/Pragma.cpp 59-91.

Simplifications.  Identifiers of namespaces, directives and clauses are numbers, 0 is an
invalid one, as in the code.  A failed assertion is [Crash] (in a build without assertions the
search continues).  Recognition of a body of a clause (see C101) is a parameter which returns
tokens of the body and remaining tokens, or reports an error.  A replacement of a pragma is a
list of nodes (a name of a clause and tokens of its body), instead of tokens of nested compound
statements which are parsed later.  After a reported error a pragma is not replaced.  All
clauses are registered (/repo/include/tsar/Frontend/Clang/DefaultPragmaHandlers.h 36-57), so
FindHandler is successful if a clause is known.
```

### `DseModel.v`

```
Model of the pass which removes stores to memory which is never read,
/repo/lib/Transform/IR/DeadCodeElimination.cpp 74-146.

Simplifications.
- Alias sets (AliasSetTracker) are given: a set for an address, sets which an instruction
  with an unknown access may touch.  Sets which are created while instructions are visited
  are not modelled.
- A removed store is replaced with an instruction which does nothing.
- Removal of operands is modelled on a graph of uses.
```

### `DumpNameModel.v`

```
Model of names of dumped files (C94): [getDumpFilenameAdjuster],
lib/Core/TransformationContext.cpp 48-64.

A string is a list of codes. Names "." and ".." are not names of files, they
are not modelled, a path does not end with a slash.
```

### `DvmhMergeModel.v`

```
Model of regions around parallel loops and of merging of neighbouring regions,
/repo/lib/Transform/Clang/DVMHSMAutoPar.cpp 207-289 (exploitParallelism, a new region),
325-420 (mergeRegions) and 422-478 (mergeSiblingRegions).

Simplifications.
- Loops and variables are numbers.  A child of a scope is a parallel loop with a region or any
  other statement (a loop without a parallel directive or without a region included).
- Directives attached to an entry and an exit of a loop are kept separately.  Blocks which
  become empty are not distinguished from absent ones.
- A search for a directive which is absent gives a null handle, an access to it is a crash.
```

### `EMChainModel.v`

```
Model of chains of estimate memory locations:
/repo/lib/Analysis/Memory/EstimateMemory.cpp 520-624 (add, estimate memory
locations only), 840-855 (isSamePointer), 870-933 (find), 935-1049 (insert),
/repo/include/tsar/Analysis/Memory/EstimateMemory.h 430-480, 496-498,
1180-1211.

Simplifications.
- Questions to LLVM are parameters: isSameBase of pointers (EstimateMemory.cpp
  259-294), the alias analysis for one byte at pointers, stripPointer,
  stripToBase, stripMemoryLevel ([None] is 'false') and clarifyUnknownSize.
- Alias metadata are omitted, the answer of the alias analysis depends on
  pointers only.
- Alias nodes are omitted: add() does not read them to build locations.
- A list of ambiguous pointers is identified by a number of the first
  location of a chain.
- A failed assertion, llvm_unreachable and exhausted fuel are [None].
```

### `EMForestModel.v`

```
Model of trees of estimate memory locations:
/repo/include/tsar/Analysis/Memory/EstimateMemory.h 208-235, 284-362,
496-565 and 1274-1366,
/repo/lib/Analysis/Memory/EstimateMemory.cpp 353-362.

Simplifications.
- A location is a number; the heap gives its parent, the list of its
  children and the list of ambiguous pointers (a number, as lists are
  compared by references, see AmbiguousRef::operator==).
- Children are kept in an intrusive list (llvm::simple_ilist).  It is a list
  of locations here.  To remove a location which is not in the list is
  undefined behaviour: the result is [None].
- Loops over parents have fuel, [None] means that it is exhausted.
```

### `ExtractModel.v`

```
Model of the pass which places each call into a basic block of its own,
/repo/lib/Transform/IR/CallExtractor.cpp 60-112.

Simplifications.
- An instruction is a PHI node, a call (possibly a musttail one), a marker (intrinsics for
  debug information and for lifetime of memory) or anything else; it refers to an action.
  PHI nodes choose an action according to a previous block.
- A basic block is never without a terminator (83-84).
- BasicBlock::splitBasicBlock() is a part of LLVM: instructions from a given one are moved
  to a new block which is placed after the existing one, a branch to it is added, PHI nodes
  of successors refer to the new block.
```

### `FlangRwModel.v`

```
Model of the rewriter of Fortran sources.
- FlangRewriter, /repo/include/tsar/Support/Flang/Rewriter.h 36-185 and
  /repo/lib/Support/Flang/Rewriter.cpp 38-96.
Texts of single files are edited as in [RewriterModel] (RewriterBase.cpp).

Simplifications.  A character of a cooked source is a pair: its provenance (an
offset) and, if there is a source position, a file and an offset in this file
(GetLineStartOffset(line) + column - 1).  Flang is not modelled, cooked sources
are arbitrary lists.  DenseMap of files is a list in the order of first
occurrences, the order is not observable by modelled functions.  A ProvenanceRange
is a pair of its first and last offset.  Undefined behaviour, failed assertions
and exceptions are [None].  print and ReplacedSize are not modelled.
```

### `GlobalLiveModel.v`

```
Model of the inter-procedural analysis of live memory,
/repo/lib/Analysis/Memory/GlobalLiveMemory.cpp:
- initMayLivesWithIPO, 112-147
- checkCallsFrom, 150-173
- GlobalLiveMemory::runOnModule, 247-353

Simplifications.  Functions, values, calls and basic blocks are numbers.  Results of other
analyses are inputs: definitions in functions (DefinedMemoryPass), the call graph in the
order of scc_iterator, locations of actual arguments (for_each_memory,
include/tsar/Analysis/Memory/MemoryAccessUtils.h:52-154), and live memory at the end of
each block of a function if live memory after the function is given (LiveMemory.cpp, C17).
A null pointer to a live set and an argument outside of a list are an outcome [Crash].
Regions for unreachable blocks and debug output are not modelled.
```

### `GlobalsModel.v`

```
Model of the collector of global variables which are referenced in functions,
GlobalsAccessCollector::runOnModule, /repo/lib/Analysis/Memory/GlobalsAccess.cpp 105-179.

Simplifications.  Functions and global variables are numbers.  The call graph, its
components, attributes and operands of instructions are inputs.  The loop 114-139 over a
component is repeated until nothing changes, but it reads sets of functions which are
not changed by it, so one pass is enough.  Sets are lists, repetitions do not matter.
```

### `IncludeModel.v`

```
Model of the tree of source files.
- FileTree, /repo/include/tsar/Analysis/Clang/IncludeTree.h 173-477.
- FileTree::reconstruct, /repo/lib/Analysis/Clang/IncludeTree.cpp 59-90.

Simplifications.  Identifiers of files and declarations are numbers.  An identifier of a file
is an identifier in its transformation context, as in the code: different contexts may use
the same identifiers.  A map of files is a list of pairs of an identifier and a context which
is stored in a node.  Children of nodes are lists of pairs, their order (FileNode::sort) is
not modelled.  A place of a directive include is represented by a file which contains it.
```

### `InlineModel.v`

```
Model of the source-level inliner, /repo/lib/Transform/Clang/Inline.cpp:181-773 (the visitor and compile),
898-908 and 1018-1059 (checks of instantiations), 1163-1222 (the transformation of functions).

Simplifications.  Each function has two parameters of an integer type.  There are no pointers, static
variables, labels, switches and macros; names of functions are not hidden.  Nested braces around calls of
one statement are joined, a return which is replaced is always enclosed in braces, a label is inserted
even if it is not used.  All return statements are reachable.
```

### `InterchangeModel.v`

```
Model of the interchange of loops, /repo/lib/Transform/Clang/LoopInterchange.cpp:
- TraverseForStmt, 216-289 (description of loops in a nest)
- TraverseStmt, 339-500 (search for induction variables, checks, a new order of headers)
- isMemoryAccessedIn, 513-603
and of the search for perfectly nested loops,
/repo/lib/Analysis/Clang/PerfectLoop.cpp:60-122.

Simplifications.  For-statements, variables, names and nodes of an alias tree are numbers.
Results of other analyses are inputs: canonical loops with their bounds, traits of memory
in a loop, nodes of accessed memory.  A failed assertion and an access outside of a vector
are an outcome [Crash].  Macros and pragmas are not modelled, diagnostics are ignored.
```

### `IpoModel.v`

```
Model of the choice of global variables and functions for interprocedural optimization of data
transfer, /repo/lib/Transform/Clang/DVMHDataTransferIPO.cpp 141-163 (needToOptimize) and 226-394
(initializeIPO).

Simplifications.
- Functions, global variables and values are numbers.  An operand is the object returned by
  getUnderlyingObject with unlimited depth, so results of BitCastInst and GetElementPtrInst are
  never operands.
- Programs without recursion: the branch 309-346 and InCycle are not modelled.
- A variable is bound to a global variable itself (236-241), lists of variables are results of
  the loop 245-269.
```

### `LoopLevelModel.v`

```
Model of an answer to a request for loops of a function (C96):
tools/tsar-server/PrivateServerPass.cpp 1011-1033 (getLoopInfo), 1192-1245
(an order of loops and their levels), tools/tsar-server/ClangMessages.cpp 35-57
(getLocation).

Tokens of a function after preprocessing are numbered. Traits of loops are not
modelled here.
```

### `LoopMatchModel.v`

```
Model of the search for pairs of loops of a source code and loops of LLVM IR,
/repo/lib/Analysis/Clang/LoopMatcher.cpp 112-180 (MatchExplicitVisitor::VisitStmt), 196-213
(MatchImplicitVisitor::VisitStmt), 283-311 (runOnFunction).

Simplifications.
- Queues, maps from locations and findIRForLocation are taken from MatchModel.v.
- Statements (including expressions) of a function are given in the order of visits, all of them
  are outside macros (VisitFromMacro and matchInMacro are in MatchModel.v).
- updateMetadata is not modelled.
```

### `MIVModel.v`

```
Model of dependence tests for several loops of
/repo/lib/Analysis/Memory/DependenceAnalysis.cpp: nesting levels, the GCD
test, the Banerjee test, constraints.  Conventions: DepModel.v.

A subscript is a chain of add-recurrences {{start,+,a}<L1>,+,b}<L2>; loops
are numbers.
```

### `MatchModel.v`

```
Model of the search for pairs of expressions of a source code and instructions,
/repo/include/tsar/Analysis/AST/Matcher.h 98-147 (findIRForLocation, matchInMacro),
/repo/lib/Analysis/Clang/ExpressionMatcher.cpp 69-220 (VisitFromMacro, VisitItem,
TraverseStmt, isInArraySubscriptBaseAndAccessKind) and 258-307 (runOnFunction).

Simplifications.
- Nodes of a tree, instructions and locations are numbers.  A location is the one which is
  compared with a location of an instruction (a presumed location); for a node from a macro
  it is a raw encoding of a location of expansion.
- Expressions are built from references to variables, subscripts, assignments, increments,
  dereferences, '&', other operators, calls with known callees and constants.  Casts are
  omitted (they are skipped when parents are inspected, 225-227).  Arguments of a call are a
  single expression ([Bin] for several ones).  Declarations, members, returns, sizeof and
  parentheses are not modelled.
```

### `MdModel.v`

```
Model of the search for variables which hold a value,
/repo/lib/Analysis/Memory/Utils.cpp:71-152, 221-382 (findDomDbgValues, findAliasBlocks, findMetadata,
mayAliasFragments, hasDeref) and /repo/lib/Analysis/Memory/DIMemoryLocation.cpp:117-134 (get).

Simplifications.  Maps of DIMemoryLocation are lists in the order of intrinsics in the function (the
order of a DenseMap depends on addresses).  Offsets and sizes do not overflow.  A variable which is
inlined several times is a single variable, as in operator== (DIMemoryLocation.h:162-164).  The search
for addresses of variables (dbg.declare) is omitted.  The dominator tree is an argument.
```

### `MemFlowModel.v`

```
Model of the analyses of defined and live memory.

Sources (all in /repo):
  include/tsar/ADT/DataFlow.h                139-171, 194-235, 291-340
  include/tsar/Analysis/Memory/DefinedMemory.h  523-583
  lib/Analysis/Memory/DefinedMemory.cpp      826-878 (transfer function),
                                             880-1055 (collapse)
  include/tsar/Analysis/Memory/LiveMemory.h  86-152
  lib/Analysis/Memory/LiveMemory.cpp         50-97, 117-169

The memory sets are those of MemSetModel, the regions and their graphs are
those of RegionModel, the order of evaluation is that of DFlowModel.

Simplifications:
- [blockDU] are the def-use sets of basic blocks (they are filled by
  'initialize', DefinedMemory.cpp 669-822, which is not modelled);
- [aggr] stands for 'aggregate', [local] for the test of memory that is
  allocated in the loop (DefinedMemory.cpp 944-949), [trips] for
  getSmallConstantTripCount;
- explicit accesses, addresses and unknown instructions (1041-1104) are not
  modelled; locations marked as a hint are produced by that part only, so
  the tests which skip them (941, 1012, 1033) are left out as well;
- the DenseMap from nodes to values is a function for each region.
```

### `MemSetModel.v`

```
Model of /repo/include/tsar/Analysis/Memory/MemorySet.h for
MemoryLocationRange.

The DenseMap from base pointers to lists of locations is an association
list; iteration visits it in the order of the list (the order of a DenseMap
is arbitrary, the theorems hold for every order).  The tombstone and empty
keys of AAMDNodes are [TTomb] and [TEmpty].
```

### `NestModel.v`

```
Model of the choice of loops for shared memory parallelization,
/repo/lib/Transform/Clang/SharedMemoryAutoPar.cpp:
- findParallelLoops, 105-207, and /repo/lib/Transform/Clang/SharedMemoryAutoPar.h:193-205
- buildAdjacentList, 240-298
- addToReachability, 300-333
- runOnModule, 381-450
and of isParallelCallee, /repo/lib/Transform/Clang/SharedMemoryAutoPar.h:173-180.

Simplifications.  A call graph is given by lists of direct calls, an order of strongly
connected components is given (scc_iterator of LLVM).  A component which consists of
external nodes only changes nothing and it is omitted.  Results of analyses of loops, a
result of exploitParallelism() and tests of a function are arguments of the model.
External calls of mExternalCalls and HasUnknownCalls are not used and they are omitted.
Sets of numbers are lists in the order of insertion.  The assertion in the line 112 is not
checked, other failed assertions are [None].
```

### `NoMacroModel.v`

```
Model of a search for macros (C97):
- getRawMacrosAndIncludes, /repo/lib/Support/Clang/Utils.cpp 134-175;
- MacroVisitor and for_each_macro, /repo/include/tsar/Analysis/Clang/NoMacroAssert.h 48-175;
- NoMacroChecker, /repo/lib/Analysis/Clang/NoMacroAssert.cpp 66-138.

A file is a list of raw tokens. Names of files in #include directives, TypeLoc (methods
for it are never called because of a mistake in their names) and diagnostics are not
modelled.
```

### `NodeTraitModel.v`

```
Model of the combination of traits of memory locations into traits of a node of a metadata-level
alias tree, /repo/lib/Analysis/Memory/DIDependenceAnalysis.cpp 719-855 (combineTraits).

Simplifications.
- The library bcl is outside of the repository: set<trait::NoAccess>() unsets other classes,
  update(From, To) makes each trait of From the same in To.
- Statistics are not modelled.
```

### `NotInitModel.v`

```
Model of the checker of memory which is not initialized,
/repo/lib/Analysis/Memory/NotInitializedMemory.cpp 170-248 (runOnFunction, insert).

Simplifications.
- Nodes of the estimate memory tree and debug-level locations are numbers, a parent has a less
  number than its children.
- A use is given by its node (AT.find, 183).
```

### `OrdModel.v`

```
Model of parallelization of loops with regular dependencies (#pragma omp ordered):
- distances of dependencies, /repo/lib/Analysis/Clang/ASTDependenceAnalysis.cpp:215-253
- makeOrderedRange, OMPOrderedDirective, addOrUpdateOrderedIfNeed, exploitParallelism,
  finalize and buildOrederedSink, /repo/lib/Transform/Clang/OpenMPAutoPar.cpp:105-156, 255-287,
  453-496, 498-587, 598-639, 686-710.

Simplifications.  Distances are unbounded integers.  A textual representation of a directive is
replaced with a list of vectors of offsets which are added to induction variables.  An assertion
and an access out of range of a vector are represented with [None].  A comparison of clauses of
inner and outer loops, uniqueness of an entry of a body and results of other analyses for inner
loops are arguments.  A map of dependencies is a list in the order of insertion (the order of
variables in std::map determines an initial range only).
```

### `OutFileModel.v`

```
Model of output files (C90): [OutputFile::create], [OutputFile::clear] and
the destructor, lib/Support/Utils.cpp 178-312 and
include/tsar/Support/OutputFile.h 36-100.

A session is a list of operations on a file system, so that a crash point is
a prefix of this list. LLVM ([TempFile], [raw_fd_ostream], [fs::remove]) is
external: its decisions are the oracle [env].
```

### `PIterModel.v`

```
Model of persistent iterators:
/repo/include/tsar/ADT/PersistentIterator.h.

Iterators and buckets are numbered; an absent object is not constructed or
already destroyed, and an access to it is the outcome [None].  A bucket stands for PersistentBucket together with
its PersistentValueWrapper, its element is not modelled.
```

### `ParItemModel.v`

```
Model of relations between parallel constructs:
/repo/include/tsar/Analysis/Parallel/Parallellelization.h 52-239,
/repo/lib/Transform/Clang/OpenMPAutoPar.cpp 310-359 (a merge of regions).

Simplifications.
- An item is a number (its address), an address is never reused.  To access
  an item which is destroyed is undefined behaviour: the result is [None], as
  well as a failed assertion.
- A class of an item is a number; it is 0 for a marker.
```

### `ParLoopModel.v`

```
Model of checks of data dependencies before parallelization of a loop:
- ParallelLoopPass::runOnFunction, /repo/lib/Analysis/Parallel/ParallelLoop.cpp:102-217
- ClangDependenceAnalyzer::evaluateDependency, /repo/lib/Analysis/Clang/ASTDependenceAnalysis.cpp:36-335
- VariableCollector::findDecl and localize, /repo/lib/Analysis/Clang/VariableCollector.cpp:91-250
- clauses of a parallel loop, ClangOpenMPParallelization::exploitParallelism,
  /repo/lib/Transform/Clang/OpenMPAutoPar.cpp:498-587 (a new parallel item, no regular dependencies).

Simplifications.  Variables and alias nodes are numbers.  Matching of metadata-level memory
with variables is an argument: a result of a search for a declaration is attached to each
memory location.  The option -fignore-redundant-memory is not set.  A set of covered nodes, a
relation of nodes in the alias tree and attributes of a loop are arguments.  Diagnostics are
represented with a single flag, distances of dependencies with a flag of known distance.
Lists for localization of input and output data (evaluateDefUse) are omitted.
```

### `ParModel.v`

```
Model of a storage of parallel constructs:
/repo/include/tsar/Analysis/Parallel/Parallellelization.h 240-500.

Simplifications.
- A basic block, a function and a parallel item are numbers.  An item has a
  class and arguments of its constructor.  Tests isa<ItemT>() and
  isMergeableWith() are arguments of the model, as well as a decision of
  llvm::DenseMap to reallocate its buckets.
- llvm::DenseMap is a list of pairs without repetition of keys.
- Each buffer of llvm::SmallVector has a generation: elements of a vector are
  in the buffer with this generation.  A vector gets a new buffer if it grows;
  a vector which is moved gets a new buffer if its elements are stored inside
  of it (llvm::SmallVector steals an allocated buffer otherwise).  An iterator
  is valid while the vector has the same buffer.  The supply of generations
  and of addresses of items is [fresh].
- llvm::PointerUnion<MDNode *, Value *>::getOpaqueValue() is the address with
  the index of the type in unused low bits.
```

### `PrivModel.v`

```
Classification of memory locations accessed in a loop and the report entry
for several locations: lib/Analysis/Memory/PrivateAnalysis.cpp.
```

### `PropagModel.v`

```
Model of propagation of expressions in sources,
/repo/lib/Transform/Clang/ExprPropagation.cpp:138-811 (DefUseVisitor, findAvailableDecls,
rememberPossibleAssignment, unparseReplacement).

Simplifications.  Results of the search for variables which hold an IR value (findMetadata, C69) are
input data: for each use which may be replaced they list replaced variables, and for each definition
they list variables which hold its operands.  Expressions have no side effects, except a
right-hand side which is an increment or a call.  Compound assignments, pointers, elements of arrays
and members of structures are omitted; a global variable is the only kind of memory.  A text is an
expression in which names are resolved again.  Clauses and macros are a set of declarations which
may be propagated; include files are omitted.  There is a single pair of instructions for each pair
of a location of a definition and a location of its use.
```

### `RangeModel.v`

```
Model of memory ranges and of their intersection:
/repo/include/tsar/Analysis/Memory/MemoryLocationRange.h,
/repo/lib/Analysis/Memory/MemoryLocationRange.cpp,
/repo/include/tsar/Analysis/Memory/MemorySetInfo.h.

Simplifications.
- uint64_t and int64_t values are integers of Z; the wrap-around of sums and
  products is not modelled.  The one subtraction of indices that wraps for
  realistic inputs (line 163) is modelled modulo 2^64.
- A base pointer is a number; the null pointer is [None].
- The linear Diophantine solver (bcl/Equation.h, outside of the repository)
  is a parameter [dio].
- std::ceil and std::floor of a double quotient (lines 281-286) are exact
  ceiling and floor; this is true of operands below 2^53.
```

### `ReaderModel.v`

```
Model of loading and storing of results of analysis of loops,
/repo/lib/Analysis/Reader/AnalysisReader.cpp:94-130, 175-315, 318-510 and
/repo/lib/Analysis/Reader/AnalysisWriter.cpp:60-225.

Simplifications.  Positions of loops and of variables (a file, a line, a column and a name) are natural
numbers, an unknown file is [None].  Traits which are not alternatives of each other and which are not changed by
the pass (address access, explicit access and so on), functions with side effects, descriptions of inductions
and parsing of files are not modelled.  Kinds of reductions are natural numbers.
```

### `RecurModel.v`

```
Model of the search for recursion in the source-level inliner,
/repo/lib/Transform/Clang/Inline.cpp:775-821 (findRecursion, checkTemplates), 878-894 (the last check),
898-908 and 629-641 (recursion of compile).

Simplifications.  Functions are numbers.  A set is a list, the order of elements in a DenseSet is an
argument.  The first four checks are a property of a template, checks of instantiations succeed.
```

### `RedundModel.v`

```
Model of propagation of traits from nested alias nodes and of removal of redundant traits,
/repo/lib/Analysis/Memory/PrivateAnalysis.cpp 440-460 (mergeDependence), 1032-1084
(propagateTraits), 1221-1273 (removeRedundant), /repo/lib/Analysis/Memory/EstimateMemory.cpp
353-362 (ancestor).

Simplifications.
- Estimate memory is a number, its parent in a tree has a smaller number.
- A map of dependences is a set of memory with a dependence description.
- Unknown memory is not modelled: its traits are moved to a parent without changes.
- storeResults is in PrivModel.v, checkFirstPrivate (it may make traits stronger when they are
  stored) is not modelled.
```

### `RegionModel.v`

```
Model of the construction of data-flow regions.

Sources (all in /repo):
 lib/Analysis/DFRegionInfo.cpp          49-55, 57-72, 74-163
 include/tsar/Analysis/DataFlowGraph.h  addNode 296-325
 include/tsar/ADT/DataFlow.h            SmallDFNode 397-535
 include/tsar/Analysis/Memory/LiveMemory.h expand/collapse 135-152

Simplifications:
- a basic block is a natural number; a loop of LoopInfo is its header, the
 list of its blocks and its direct inner loops; a function with its LoopInfo
 is the same kind of object (LoopTraits.h:80-115: header = entry block,
 blocks = all blocks, inner loops = top-level loops);
- DFNode pointers are values of [rnode]: a node of an inner loop is named by
 the header of that loop (headers of different loops are different);
- the order in which the DenseMap 'Blocks' is traversed is unspecified, the
 model takes it as a parameter [shuffle];
- dereference of Blocks.end() (assertion at DFRegionInfo.cpp:139) is the
 outcome None.
```

### `RenameModel.v`

```
Model of the renaming of local objects, /repo/lib/Transform/Clang/RenameLocal.cpp:
- ClangRenamer, 76-214
and of the search for identifiers of a file, /repo/lib/Support/Clang/Utils.cpp:134-175
(getRawMacrosAndIncludes).

Simplifications.  A syntax tree is represented by declarations, references and statements,
each declaration and each reference has its own text (a name), ReplaceText changes this
text.  Names belong to a single name space (tags, labels and fields of structures are not
modelled).  Diagnostics and the removal of directives from sources are not modelled.  A
result of for_each_macro for a statement is a part of the statement.
```

### `ReversalModel.v`

```
Model of the reversal of for-loops in C sources,
/repo/lib/Transform/Clang/LoopReversal.cpp:
- traverseStmt, the choice of loops, 348-381
- parseIncrement, 462-519
- parseCondition, 521-560
- transformLoop, 562-651
and of the syntactic check of loops, /repo/lib/Analysis/Clang/CanonicalLoop.cpp:
- coherent, 203-259.

Simplifications.  Expressions: numbers, variables, binary operations, parentheses and
an unary minus before parentheses.  Edits of a text are modelled as edits of a syntax
tree: a concatenation of texts is parsed according to precedences of operations.
Implicit casts are not modelled: all values have the type of the induction variable.
getIntegerConstantExpr is an evaluation of an expression without variables.
```

### `RewriterModel.v`

```
Model of rewriting of source texts.
- RewriterBaseImpl, /repo/include/tsar/Support/RewriterBase.h 35-61 and
  /repo/lib/Support/RewriterBase.cpp 27-53.
- ExternalRewriter, /repo/lib/Support/Clang/Utils.cpp 186-287.

Simplifications.  A text is a list of characters of an arbitrary type.  Locations
are offsets from the beginning of the rewritten range (or from the beginning of
the file, see RemoveText); validity of locations, macros and lexing of tokens
(Lexer::getSourceText, MeasureTokenLength) are not modelled: the number of
characters is a parameter.  std::size_t is Z modulo 2^64.  Out of range access to
mMapping and exceptions of std::string are the undefined outcome [None].
```

### `SCEVModel.v`

```
Model of division of symbolic expressions (SCEVs), of their simplification to
recurrences and of search of a common divisor, /repo/lib/Support/SCEVUtils.cpp.

Expressions are built by llvm::ScalarEvolution, which is not modelled: it is a
record [SE] of functions and theorems state what is required from them.  LLVM makes
expressions unique, hence equality of pointers is structural equality here.
```

### `SanitizeModel.v`

```
Model of the correction of traits of alias nodes after privatization (C92):
lib/Analysis/Memory/PrivateAnalysis.cpp 1099-1155, [mayIgnoreDereference] and
[PrivateRecognitionPass::sanitizeCombinedTraits].
```

### `ScalarizeModel.v`

```
Model of the promotion of a pointer to a register in a loop,
/repo/lib/Transform/IR/PointerScalarizer.cpp:
- insertLoadInstructions 127-136, insertStoreInstructions 138-145,
- handleMemoryAccess 147-171, handleLoads 173-186, insertPhiNodes 188-211,
- fillPhiNodes 213-221, deleteRedundantPhiNodes 223-248, the sequence of them 401-407.

Simplifications.  Blocks and registers are numbers, values are integers.  Memory except
the promoted location is one object, other instructions are arbitrary functions of
registers and of this memory (the check that they do not access the promoted location,
250-303, is not modelled).  Existing phi nodes are instructions which know the previous
block.  Uses of a deleted load are not replaced, instead the load becomes a copy of the
last value.  Loads without users do not exist.  Debug information is not modelled.
```

### `StatModel.v`

```
Model of statistics of a server (C98):
- incrementTraitCount, /repo/tools/tsar-server/PrivateServerPass.cpp 961-1009;
- PrivateServerPass::answerStatistic, 1059-1125.

Files, functions, traits and extensions are numbers. A loop which has no ID or has no
mapped ID on an analysis server is a loop without ID. A coverage of accesses (992-993) is
a flag of a node (the coverage itself is modelled in C91). Counters do not overflow.
```

### `TieModel.v`

```
Model of the clause tie of a parallel nest, /repo/lib/Transform/Clang/DVMHSMAutoPar.cpp
571-620 (optimizeLevelImpl) and 469-568 (sanitizeAcrossLoops).

Simplifications.
- Loops and arrays are numbers, arrays are identified by metadata.
- A distance in a dimension is known or it is not known, its value is not important.
- A location in a control-flow graph contains directives of a single loop and other directives.
  Locations which become empty are not distinguished from absent ones.
```

### `TraitModel.v`

```
Model of traits of memory locations:
/repo/lib/Analysis/Memory/BitMemoryTrait.h,
/repo/lib/Analysis/Memory/BitMemoryTrait.cpp,
/repo/include/tsar/Analysis/Memory/MemoryTrait.h.

Simplifications.
- unsigned long long values are numbers of N; all operations on them are
  bitwise.
- bcl::TraitDescriptor is outside of the repository.  A descriptor is the
  set of traits it has.  The method set() of the library also unsets traits
  which are not compatible with the new one; here it only adds traits.
  Theorem C15_description_total proves that the traits of each description
  are compatible, so there is nothing to unset.
- llvm::Statistic counters are unbounded.
```

### `TransferModel.v`

```
Model of placement of directives actual and get_actual between regions which are executed on
an accelerator, /repo/lib/Transform/Clang/DVMHDataTransferIPO.cpp 472-545 (collectInCallee),
618-657 (collectInParallelBlock), 792-1014 (addGetActualIf, addTransferToWrite, processBB),
1053-1133 (an entry and an exit of a function), 1161-1184 (an exit of a loop).

Simplifications.
- Variables and alias nodes are numbers.  SpanningTreeRelation is a relation between nodes.
- Each level of a function is optimized, there are no final or required directives, so
  directives around regions are replaced with directives of this model.
- Interprocedural optimization is disabled for the function and its callees.  In this case
  initPragmaData (792-843) inserts all variables of an alias node to a directive.
- The model of an accelerator follows the description of DVMH directives: the system stores
  which copies of a variable are up to date, it believes directives.
```

### `TreeModel.v`

```
Model of the numbering of graph nodes and of relations of nodes in a
spanning tree: /repo/include/tsar/ADT/GraphNumbering.h and
/repo/include/tsar/ADT/SpanningTreeRelation.h.
```

### `UnrModel.v`

```
Model of elimination of unreachable code in sources,
/repo/lib/Transform/Clang/UnreachableCodeElimination.cpp:72-654 (UnreachableCodeVisitor).

Simplifications.  A text is a list of tokens, an expression is a single token, so the result of
an edit inside an expression is an expression or a broken text.  Removal of a range removes its
tokens; an edit of removed text or a repeated edit of the same text breaks it.  The only macros
are macros in headers of statements ([hm]).  Labels, goto, switch, do-while and declarations
without initializers are omitted.  All statements are inside the compound statement which is
marked with the directive.
```

### `UtilModel.v`

```
Model of small utilities:
/repo/include/tsar/Support/NumericUtils.h,
/repo/lib/Support/Utils.cpp, /repo/include/tsar/Support/Utils.h,
/repo/include/tsar/ADT/ItemRegister.h.
```

### `WeightModel.v`

```
Model of the estimation of weights of functions and loops from a profile,
/repo/lib/Analysis/Reader/RegionWeights.cpp:64-217.

Simplifications.  Weights are integers without overflow (InstructionCost saturates); the cost of an
instruction is a known number.  A profile is already loaded: each function has a list of segments and a
number of executions, or it is not covered.  An undefined division by zero is [None].
```

### Not modelled

Parsing by Clang and Flang, LLVM itself (alias analysis, scalar evolution,
dominators, loop info are parameters with premises), pass management, formats
of printed reports, profile data, transport of the socket of the GUI (its
protocol of requests is modelled where a header above says so), statistics
counters and debug output. Of the source-to-source transformations and of the
debug-info metadata only the functions named in the headers above are modelled;
each header says what is left out.

## Theorems and what they rest on

`Print Assumptions` stands under each theorem in the `Prop_*.v` files. For every
theorem of this list it prints "Closed under the global context": no axiom is
used, neither from the standard library nor an own one.

* C01 (proved): `C01_returns_fixpoint`, `C01_returns_greatest`, `C01_terminates`, `C01_pass_bound`
* C02 (proved): `C02_single_pass`, `C02_order`, `C02_unique`
* C03 (proved): `C03_found_is_back_edge`, `C03_exact`, `C03_isDAG`
* C04 (partial): `C04_acyclic_region_partial`, `C04_always_single_pass`, `C04_cyclic_region_refuted`
* C05 (partial): `C05_insert_bytes`, `C05_history`, `C05_flag_grew_partial`, `C05_flag_exact_refuted`, `C05_iterator_refuted`, `C05_copy`
* C06 (partial): `C06_contain`, `C06_no_overlap`, `C06_covered_parts_partial`, `C06_cover_refuted`
* C07 (partial): `C07_subtract_bounds`, `C07_subtract_bytes_partial`, `C07_subtract_sections_partial`, `C07_unknown_size_refuted`
* C08 (partial): `C08_merge`, `C08_intersect_subset`, `C08_intersect_exact_partial`, `C08_intersect_flag_refuted`, `C08_intersect_unknown_refuted`, `C08_difference`
* C09 (partial): `C09_equal_bytes_partial`, `C09_reflexive`, `C09_order_of_insertions_refuted`, `C09_sections_refuted`
* C10 (partial): `C10_merge`, `C10_intersect_subset`, `C10_intersect_exact_partial`, `C10_full_laws`, `C10_contain`, `C10_no_overlap`, `C10_common_parts`, `C10_subtract_partial`, `C10_insert`, `C10_difference`, `C10_equal_partial`, `C10_empty`, `C10_full_flags_refuted`
* C11 (proved): `C11_byte_ranges`, `C11_other_object`
* C12 (partial): `C12_sections_indices`, `C12_sections_decided`, `C12_bytes`, `C12_complement_unchanged_refuted`, `C12_element_size_refuted`
* C13 (partial): `C13_delinearize_partial`, `C13_out_of_range_refuted`
* C14 (proved): `C14_order_and_repetition_do_not_matter`, `C14_combination_permits_the_common_treatments`, `C14_flags_are_kept`, `C14_mark_of_sharing_dropped`, `C14_dependence_never_disappears`
* C15 (proved): `C15_description_total`, `C15_encoding_of_the_description`, `C15_encoding_is_conservative`
* C16 (partial): `C16_counters_partial`, `C16_header_and_explicit_counters_swapped`, `C16_counters_refuted`
* C17 (partial): `C17_live_partial`, `C17_default_out_partial`
* C18 (partial): `C18_must_partial`, `C18_may`, `C18_may_nested_partial`, `C18_irreducible_refuted`
* C19 (partial): `C19_uses_musts_partial`, `C19_mays_partial`, `C19_single_trip_refuted`, `C19_lost_definition_refuted`, `C19_dropped_use_refuted`
* C20 (partial): `C20_partial`, `C20_nested_refuted`, `C20_unknown_size_refuted`, `C20_other_trees_refuted`
* C21 (proved): `C21_numbering`, `C21_relation`, `C21_parent`, `C21_lowest_common_ancestor`
* C22 (partial): `C22_identifiers`, `C22_distinct_items_distinct_identifiers`, `C22_register`, `C22_count_partial`, `C22_count_refuted`
* C23 (partial): `C23_bimap_partial`, `C23_inverse_partial`, `C23_erase_by_key_refuted`, `C23_erase_range_refuted`
* C24 (partial): `C24_list_bimap_partial`, `C24_one_node_partial`, `C24_erase_partial`, `C24_erase_by_key_refuted`
* C25 (partial): `C25_iterators_follow_elements_partial`, `C25_operations_are_defined_partial`, `C25_assign_between_elements_refuted`, `C25_assign_back_refuted`, `C25_copied_element_refuted`, `C25_overwritten_element_refuted`
* C26 (partial): `C26_strong_siv_partial`, `C26_strong_siv_unknown_sign_refuted`, `C26_strong_siv_zero_coeff_refuted`, `C26_ziv`
* C27 (partial): `C27_weak_crossing_partial`, `C27_split_partial`, `C27_weak_crossing_zero_coeff_refuted`
* C28 (partial): `C28_exact_siv_independent_partial`, `C28_exact_siv_directions_partial`, `C28_exact_siv_exact_partial`, `C28_exact_siv_directions_refuted`, `C28_exact_siv_wrap_refuted`
* C29 (partial): `C29_weak_zero_src_partial`, `C29_weak_zero_dst_partial`, `C29_peel_src_partial`, `C29_peel_dst_partial`, `C29_weak_zero_zero_coeff_refuted`
* C30 (partial): `C30_symbolic_rdiv`, `C30_exact_rdiv_partial`, `C30_exact_rdiv_exact_partial`, `C30_exact_rdiv_wrap_refuted`
* C31 (proved): `C31_gcd_sound`, `C31_only_equal_removed`
* C32 (proved): `C32_banerjee_sound`, `C32_nesting_levels`, `C32_testMIV_sound`
* C33 (partial): `C33_intersection`, `C33_intersection_total`, `C33_intersection_with_unknown_refuted`, `C33_propagation`, `C33_propagation_of_one`, `C33_direction_update`
* C34 (partial): `C34_kind_recorded_partial`, `C34_ignored_partial`, `C34_different_directions_refuted`, `C34_confused_level_refuted`
* C35 (partial): `C35_bounds_partial`, `C35_bounds_with_merges_partial`, `C35_summary_defined`, `C35_assumed_has_no_bounds`, `C35_merge_refuted`, `C35_output_distance_refuted`
* C36 (proved): `C36_permitted_treatments_are_correct`, `C36_classified`, `C36_reported_classes_are_true`, `C36_incompletely_accessed_location`
* C37 (partial): `C37_entry_is_not_more_permissive_partial`, `C37_stored`, `C37_entry_is_not_more_permissive_refuted`, `C37_dependence_is_reported_refuted`
* C38 (partial): `C38_pair_partial`, `C38_merged_partial`, `C38_negative_offset_refuted`, `C38_merged_coincide_refuted`
* C39 (proved): `C39_splice_next`, `C39_merge_next`, `C39_merge_prev`, `C39_splice_prev`, `C39_linked`, `C39_detach`
* C40 (partial): `C40_ancestor`, `C40_descendant_partial`, `C40_queries`, `C40_descendant_refuted`
* C41 (proved): `C41_no_dangling`, `C41_progress`, `C41_location`, `C41_parent`, `C41_resolve`, `C41_held_condition_needed`
* C42 (partial): `C42_content_partial`, `C42_find`, `C42_attach_if_new`, `C42_attach_found`, `C42_references_equal`, `C42_references_valid_partial`, `C42_functions`, `C42_not_equal_refuted`, `C42_instruction_refuted`, `C42_references_valid_refuted`, `C42_attach_if_new_refuted`, `C42_latest_refuted`, `C42_functions_refuted`
* C43 (partial): `C43_success_is_exact`, `C43_overflow_partial`, `C43_overflow_refuted`, `C43_expression`
* C44 (partial): `C44_lookup_partial`, `C44_next_argument_is_returned`, `C44_lookup_refuted`
* C45 (partial): `C45_join_partial`, `C45_join_refuted`, `C45_tokenize_partial`, `C45_tokenize_refuted`
* C46 (proved): `C46_nodes`, `C46_edges`, `C46_entry_exit`, `C46_no_unreachable_nodes`, `C46_innermost`, `C46_remove_edges`, `C46_temporary_edges`
* C47 (partial): `C47_partial`, `C47_marker_refuted`, `C47_merge_refuted`
* C48 (partial): `C48_chains_ascend`, `C48_one_chain`, `C48_add_keeps`, `C48_prev_partial`, `C48_explicit`, `C48_find_partial`, `C48_find_exact_partial`, `C48_cache`, `C48_prev_refuted`, `C48_find_refuted`
* C49 (partial): `C49_groups`, `C49_rounds_end`, `C49_answer_partial`, `C49_loosely_coupled_partial`, `C49_stale_constraint_refuted`, `C49_uninitialized_level_refuted`
* C50 (partial): `C50_edits_partial`, `C50_rewritten_text`, `C50_independent`, `C50_insert_after_remove_refuted`, `C50_insert_at_removed_beginning_refuted`, `C50_insert_inside_replaced_refuted`, `C50_insert_before_refuted`, `C50_insert_after_last_token_refuted`, `C50_remove_line`, `C50_remove_text`, `C50_remove_line_outside_refuted`
* C51 (partial): `C51_divide_partial`, `C51_divide_by_constant`, `C51_divide_by_variable`, `C51_lost_remainder_refuted`, `C51_exact_zero_refuted`, `C51_replaced_by_one_refuted`, `C51_zero_denominator_refuted`, `C51_unsafe_factor_refuted`, `C51_unsafe_denominator_refuted`, `C51_add_rec_partial`, `C51_gcd_partial`, `C51_gcd_quadratic_refuted`, `C51_gcd_lost_refuted`
* C52 (partial): `C52_indexes`, `C52_extra_zeros_constant`, `C52_variable_partial`, `C52_variable_zeros_partial`, `C52_sizes_partial`, `C52_two_zeros_refuted`, `C52_border_zero_refuted`, `C52_constant_types_refuted`, `C52_zero_size_refuted`
* C53 (partial): `C53_reversed_partial`, `C53_same_result`, `C53_canonical`, `C53_requests_partial`, `C53_requests_refuted`, `C53_unsigned_refuted`, `C53_no_iterations_refuted`, `C53_negative_step_refuted`, `C53_shift_refuted`, `C53_or_refuted`, `C53_final_value_refuted`
* C54 (partial): `C54_no_io`, `C54_always_return_partial`, `C54_direct_callees`, `C54_no_io_complete`, `C54_always_return_complete`, `C54_direct_callees_complete`, `C54_endless_loop_refuted`, `C54_endless_recursion_refuted`, `C54_io_table_refuted`, `C54_libfunc`, `C54_libfunc_callee_partial`, `C54_libfunc_callee_refuted`, `C54_indirect_partial`, `C54_indirect_refuted`, `C54_loop`
* C55 (partial): `C55_referenced_partial`, `C55_precise`, `C55_callback_refuted`, `C55_integer_to_pointer_refuted`, `C55_aggregate_refuted`
* C56 (partial): `C56_not_captured_partial`, `C56_memory_partial`, `C56_ends`, `C56_local_memory_refuted`, `C56_two_operands_refuted`, `C56_library_refuted`, `C56_new_object_refuted`, `C56_indirect_call_refuted`
* C57 (partial): `C57_promoted_partial`, `C57_two_exiting_refuted`, `C57_dangling_refuted`, `C57_constant_refuted`, `C57_speculative_refuted`
* C58 (partial): `C58_runs_as_described_partial`, `C58_rectangular_partial`, `C58_ends`, `C58_reversed_refuted`, `C58_phi_refuted`, `C58_condition_refuted`, `C58_real_step_refuted`, `C58_cycle_refuted`
* C59 (partial): `C59_accepted_partial`, `C59_rejected_partial`, `C59_no_failure_partial`, `C59_rejected_refuted`, `C59_no_failure_refuted`, `C59_assignment_refuted`
* C60 (partial): `C60_nest`, `C60_same_result_partial`, `C60_induction_variable_refuted`, `C60_call_refuted`, `C60_endless_refuted`, `C60_no_failure_partial`, `C60_no_failure_refuted`, `C60_ends_partial`, `C60_ends_refuted`, `C60_order`
* C61 (proved): `C61_perfect`
* C62 (partial): `C62_live_partial`, `C62_no_locals`, `C62_no_failure`, `C62_after_call_refuted`, `C62_variadic_refuted`, `C62_inside_refuted`, `C62_pointer_refuted`, `C62_recursion_refuted`
* C63 (partial): `C63_same_refs_partial`, `C63_new_names`, `C63_fresh`, `C63_globals`, `C63_exactly`, `C63_type_refuted`, `C63_function_refuted`, `C63_extern_refuted`, `C63_macro_refuted`, `C63_macro_partial`
* C64 (partial): `C64_same_partial`, `C64_names_partial`, `C64_groups`, `C64_unused`, `C64_volatile_read_refuted`, `C64_volatile_write_refuted`, `C64_extern_refuted`, `C64_size_refuted`, `C64_enum_refuted`
* C65 (partial): `C65_nested_partial`, `C65_reachability_partial`, `C65_complete_partial`, `C65_checked`, `C65_inner`, `C65_front_refuted`, `C65_index_refuted`, `C65_cast_refuted`
* C66 (partial): `C66_results_partial`, `C66_rejected`, `C66_static_refuted`, `C66_induction_refuted`, `C66_last_refuted`, `C66_unknown_refuted`, `C66_references`
* C67 (partial): `C67_cover_partial`, `C67_sign_refuted`, `C67_defined_partial`, `C67_depth_refuted`, `C67_clauses_partial`, `C67_lastprivate_refuted`, `C67_nest`, `C67_results_partial`, `C67_progress_partial`, `C67_step_refuted`, `C67_deadlock_refuted`, `C67_variable_refuted`
* C68 (partial): `C68_results_partial`, `C68_or_refuted`, `C68_type_refuted`, `C68_comma_refuted`, `C68_place_refuted`, `C68_braces_refuted`, `C68_macro_refuted`, `C68_increment_refuted`, `C68_coverage_partial`, `C68_before_refuted`, `C68_after_refuted`
* C69 (partial): `C69_holds_partial`, `C69_all_partial`, `C69_first`, `C69_found`, `C69_terminates`, `C69_fragments`, `C69_operation_refuted`, `C69_deref_refuted`, `C69_fragment_refuted`, `C69_phi_refuted`
* C70 (partial): `C70_results_partial`, `C70_memory_refuted`, `C70_uses_refuted`, `C70_shadow_refuted`, `C70_init_refuted`, `C70_switch_refuted`, `C70_increment_refuted`, `C70_constant_refuted`, `C70_sign_refuted`, `C70_conversion_refuted`, `C70_operand_refuted`
* C71 (partial): `C71_finishes_partial`, `C71_sound_partial`, `C71_complete_partial`, `C71_expansion_partial`, `C71_kept_partial`, `C71_uniform_finishes_partial`, `C71_self_partial`, `C71_some_partial`, `C71_repeated_partial`, `C71_sound_refuted`, `C71_complete_refuted`, `C71_expansion_refuted`, `C71_finishes_refuted`
* C72 (partial): `C72_results_partial`, `C72_comma_refuted`, `C72_void_refuted`, `C72_group_refuted`
* C73 (partial): `C73_count`, `C73_weights_partial`, `C73_entry_refuted`, `C73_outer_refuted`, `C73_mean_partial`, `C73_nested_partial`, `C73_threshold_partial`
* C74 (partial): `C74_load_partial`, `C74_roundtrip_partial`, `C74_lookup_partial`, `C74_deps_refuted`, `C74_first_refuted`, `C74_files_refuted`, `C74_null_refuted`, `C74_causes_refuted`, `C74_roundtrip_private_refuted`, `C74_roundtrip_first_refuted`, `C74_roundtrip_anti_refuted`, `C74_roundtrip_int_refuted`, `C74_roundtrip_may_refuted`, `C74_roundtrip_null_refuted`, `C74_lookup_loops_refuted`, `C74_lookup_vars_refuted`
* C75 (partial): `C75_true_partial`, `C75_true_refuted`, `C75_dynamic_refuted`, `C75_parallel_partial`, `C75_parallel_refuted`, `C75_marks`, `C75_distance`
* C76 (partial): `C76_cover_partial`, `C76_coverIR_partial`, `C76_cover_refuted`, `C76_coverIR_refuted_kinds`, `C76_coverIR_refuted_sign`, `C76_total_partial`, `C76_totalIR_partial`, `C76_total_refuted`, `C76_totalIR_refuted_types`, `C76_totalIR_refuted_levels`, `C76_definite`, `C76_may_partial`, `C76_may_refuted`, `C76_kinds`, `C76_causes_partial`, `C76_causes_refuted`
* C77 (partial): `C77_total`, `C77_same`, `C77_alone`, `C77_markers_partial`, `C77_markers_refuted`, `C77_tail_partial`, `C77_tail_refuted`
* C78 (partial): `C78_same_partial`, `C78_same_refuted`, `C78_found`, `C78_operands`, `C78_terminators_partial`, `C78_terminators_refuted`
* C79 (partial): `C79_pairs`, `C79_macro`, `C79_exact_partial`, `C79_exact_refuted_inc`, `C79_exact_refuted_index`, `C79_exact_refuted_kept`, `C79_unmatched_partial`, `C79_unmatched_refuted`
* C80 (partial): `C80_finish`, `C80_sound`, `C80_complete_partial`, `C80_complete_refuted_locs`, `C80_complete_refuted_once`, `C80_expand`, `C80_size_partial`, `C80_size_refuted_one`, `C80_size_refuted_leaf`
* C81 (partial): `C81_initial`, `C81_results_partial`, `C81_results_refuted`, `C81_groups_partial`, `C81_groups_refuted`
* C82 (partial): `C82_nest`, `C82_pairs`, `C82_fronts_partial`, `C82_fronts_refuted`, `C82_across_partial`, `C82_across_refuted`, `C82_kept_partial`, `C82_kept_refuted`
* C83 (partial): `C83_tie_partial`, `C83_tie_refuted_order`, `C83_tie_refuted_sum`, `C83_tie_refuted_symbol`, `C83_found`, `C83_sanitize_partial`, `C83_sanitize_refuted`
* C84 (partial): `C84_coherent_partial`, `C84_coherent_refuted_written`, `C84_coherent_refuted_induction`, `C84_precise`, `C84_exit_partial`, `C84_exit_refuted`, `C84_callee_partial`, `C84_callee_refuted`
* C85 (partial): `C85_named_partial`, `C85_named_refuted_server`, `C85_named_refuted_chain`, `C85_named_refuted_init`, `C85_named_refuted_outside`, `C85_named_refuted_expr`, `C85_enabled`, `C85_exact`, `C85_complete`
* C86 (partial): `C86_covered_partial`, `C86_covered_refuted_same`, `C86_covered_refuted_unknown`, `C86_covered_refuted_argument`, `C86_exact`, `C86_class`
* C87 (partial): `C87_match_partial`, `C87_match_refuted_asserts`, `C87_match_refuted_removed`, `C87_match_refuted_header`, `C87_implicit_partial`, `C87_implicit_refuted_labels`, `C87_once`, `C87_reported_partial`, `C87_reported_refuted_copies`
* C88 (proved): `C88_traits`, `C88_deps`
* C89 (partial): `C89_cover_partial`, `C89_cover_refuted_cycle`, `C89_precise_partial`, `C89_precise_refuted_shared`, `C89_class`, `C89_read`, `C89_flags`, `C89_kept_partial`, `C89_kept_refuted_covered`, `C89_total`
* C90 (partial): `C90_atomic_partial`, `C90_atomic_refuted_direct`, `C90_atomic_refuted_copy`, `C90_atomic_refuted_erase`, `C90_success_partial`, `C90_success_refuted_workdir`, `C90_success_refuted_leave`, `C90_failed_partial`, `C90_failed_refuted_copy`, `C90_create_error`, `C90_abandon_partial`, `C90_abandon_refuted_exists`, `C90_erase_partial`, `C90_erase_refuted_workdir`, `C90_leftover_partial`, `C90_leftover_refuted_copy`, `C90_signal_partial`, `C90_signal_refuted_direct`, `C90_signal_refuted_copy`, `C90_signal_refuted_fail`, `C90_signal_refuted_moment`, `C90_stdout`, `C90_assert`, `C90_works`, `C90_special`
* C91 (partial): `C91_cover_partial`, `C91_cover_refuted_hole`, `C91_explicit_cover`, `C91_sound`, `C91_once`, `C91_smallest`, `C91_general_partial`, `C91_general_refuted_unmarked`, `C91_general_refuted_hole`
* C92 (partial): `C92_same`, `C92_untouched`, `C92_uniform`, `C92_kept`, `C92_drop`, `C92_reason`, `C92_original_partial`, `C92_original_refuted_changed`, `C92_order_partial`, `C92_order_refuted_changed`, `C92_unknown_partial`, `C92_unknown_refuted_dropped`
* C93 (partial): `C93_atomic_partial`, `C93_atomic_refuted_direct`, `C93_atomic_refuted_full`, `C93_result_partial`, `C93_result_refuted_same`, `C93_main_partial`, `C93_main_refuted_same`, `C93_nofatal_partial`, `C93_nofatal_refuted_closed`, `C93_works`, `C93_signal_partial`, `C93_signal_refuted_middle`, `C93_transaction_partial`, `C93_transaction_refuted_two`
* C94 (partial): `C94_distinct_partial`, `C94_distinct_refuted_many`, `C94_number_partial`, `C94_number_refuted_many`, `C94_place`, `C94_sources_partial`, `C94_sources_refuted_dots`, `C94_total`, `C94_history`
* C95 (partial): `C95_exit`, `C95_exact_partial`, `C95_exact_refuted_inner`, `C95_entry_refuted`, `C95_noentry`, `C95_inside`, `C95_single`, `C95_call_partial`, `C95_call_refuted_pointer`, `C95_func`, `C95_report`, `C95_only`, `C95_kind_partial`, `C95_kind_refuted_goto`
* C96 (partial): `C96_level_partial`, `C96_level_refuted_implicit`, `C96_level_refuted_macro`, `C96_level_refuted_file`, `C96_order_partial`, `C96_order_refuted_macro`, `C96_order_refuted_file`, `C96_all`, `C96_forest`, `C96_total`, `C96_unique_partial`, `C96_unique_refuted_macro`
* C97 (partial): `C97_collect_partial`, `C97_collect_refuted_null`, `C97_collect_refuted_include`, `C97_only_partial`, `C97_only_refuted_null`, `C97_only_refuted_define`, `C97_total_partial`, `C97_total_refuted_null`, `C97_total_refuted_include`, `C97_total_refuted_define`, `C97_search_partial`, `C97_search_refuted_null`, `C97_search_refuted_include`, `C97_search_refuted_outside`, `C97_once`, `C97_noassert_partial`, `C97_noassert_refuted_null`, `C97_assert`, `C97_checked_partial`, `C97_checked_refuted_end`
* C98 (partial): `C98_files_partial`, `C98_files_refuted_shared`, `C98_kinds`, `C98_variables`, `C98_functions_partial`, `C98_functions_refuted_units`, `C98_user_partial`, `C98_user_refuted_common`, `C98_loops_partial`, `C98_loops_refuted_units`, `C98_parallel_partial`, `C98_parallel_refuted_common`, `C98_traits_partial`, `C98_traits_refuted_common`, `C98_traits_refuted_mixed`, `C98_order_partial`, `C98_order_refuted_loops`
* C99 (partial): `C99_fresh`, `C99_valid_partial`, `C99_valid_refuted_spec`, `C99_valid_refuted_label`, `C99_valid_refuted_array`, `C99_same_partial`, `C99_same_refuted_scope`, `C99_same_refuted_label`, `C99_same_refuted_array`, `C99_replaced`, `C99_identity_partial`, `C99_identity_refuted_array`, `C99_declared`
* C100 (partial): `C100_created`, `C100_class_partial`, `C100_class_refuted`, `C100_scope`, `C100_reported_partial`, `C100_reported_refuted`, `C100_replace_partial`, `C100_replace_refuted`, `C100_insert_partial`, `C100_insert_refuted`, `C100_modified_partial`, `C100_modified_refuted`, `C100_noticed`
* C101 (partial): `C101_stops_partial`, `C101_stops_refuted_loop`, `C101_stops_refuted_group`, `C101_sound_partial`, `C101_complete_partial`, `C101_complete_refuted`
* C102 (partial): `C102_namespace_partial`, `C102_namespace_refuted`, `C102_directive_partial`, `C102_directive_refuted`, `C102_clause_partial`, `C102_clause_refuted`, `C102_prototype`, `C102_found_partial`, `C102_found_refuted_body`, `C102_found_refuted_name`, `C102_unknown_partial`, `C102_unknown_refuted`, `C102_select`, `C102_realign_refuted`
* C103 (partial): `C103_tree`, `C103_root`, `C103_count_partial`, `C103_count_refuted`, `C103_find_partial`, `C103_find_refuted`
