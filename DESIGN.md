# Formal model of the CAL BDD package: design

Source: `/repo` (SSoelvsten/cal), read as text.  Prover: Coq 8.16.1, standard library only
(`List`, `NArith`, `ZArith`, `Lia`, `QArith`).

## 1. Trusted base

* Coq's kernel and `vm_compute` (used for concrete examples and refutation witnesses).
* What `Print Assumptions` lists under each property theorem.  The target is
  "Closed under the global context" for every theorem; any standard-library axiom that
  does appear is listed in section 6.
* Fidelity of the hand-written model to the C source.  Every model definition cites the
  file and lines it models and says where it simplifies.

## 2. Layers of the model

| Layer | Files | Code modelled |
|---|---|---|
| Words | `BitsModel`, `RandModel`, `CodecModel` | tagged pointers, packed reference counts, mark bits (calInt.h), hash index arithmetic, CeilLog2, transform negation, random numbers, byte codec of the dump format |
| Store and engine | `Base`, `BFModel`, `ITEModel` | node memory, unique tables, request queues, apply and reduce sweeps, forwarding, reference transfers (calApplyReduce.c, calBddOp.c, calBddITE.c, calTerminal.c) |
| Manager | `MgrModel`, `ApiModel` | user handles, garbage collection, variable creation, node limit, interface functions of cal.c, calBddOp.c, calUtil.c, calGC.c, calBddManager.c |
| Algorithms | `GraphModel`, `QuantModel`, `QuantBFModel`, `QuantApiModel`, `ComposeModel`, `CofactorModel`, `BatchModel`, `ReduceOpModel`, `SubstModel`, `SwapModel`, `PipeModel` | traversals (size, profile, support, satisfy, fraction, cube, function profile), quantification with the computed table, composition, generalized cofactor, reduction, simultaneous substitution, exchange of two variables, pipelined operations |
| Compaction | `PackModel` (proofs in `PackTrans`, `PackTable`, `PackProof`) | moving nodes together after a collection (calGC.c:209-373) and updating handles, associations and the computed table |
| Associations | `AssocModel` | calAssociation.c |
| Reordering | `InteractModel`, `BlockModel`, `SearchModel`, `ReorderModel` | interaction matrix, variable blocks, window and sifting searches; depth-first reordering of the node store (calReorderDF.c): conversion, exchange of neighbours, sweeping, reallocation, conversion back |
| Breadth-first reordering | `BFReorderModel` (proofs in `BFReorderSim`, `BFReorderSwap`, `BFReorderMove`, `BFReorderNode`, `BFReorderExch`, `BFReorderPass`, `BFReorderFree`, `BFReorderInv`, `MoveTrans`, `BFReorderMgr`) | window reordering by forwarding of cells (calReorderBF.c, calReorderUtil.c): exchange, repair of edges and user handles, release of forwardings, windows of two and three variables, passes |
| Breadth-first sifting | `BFSiftModel` (proofs in `BFSiftProof`, `BFSiftMgr`; memory: `SpecMem`, `BFReorderMem`) | sifting of one variable in both directions with the repairs on the way, choice of variables (calReorderBF.c:137-164, 562-586, 721-1114) |
| Function profile of an array | `FProfModel` (proof in `FProfMulti`), `FProfPrint` | `Cal_BddFunctionProfileMultiple` with the growing hash table (calBddSize.c:267-320, calHashTableOne.c); the printed profiles of an array (calPrintProfile.c:106-123, 152-167) |
| C++ queries on ranges | `RangeQModel` (proof in `RangeQProof`) | `Cal::Size`, `Profile`, `FunctionProfile` of a range (calObj.hh:1347-1361, 1951-1969, 2063-2077) |
| Printing profiles of ranges | `RangePModel` (proof in `RangePProof`) | `Cal::PrintProfile`, `PrintFunctionProfile` of a range (calObj.hh:2009-2024, 2123-2137) |
| Automatic reordering | `AutoModel` (proof in `AutoProof`) | the check between operations with the chosen technique and method (cal.c:446-450, calUtil.c:214-255) |
| Tables | `HashModel` | bins and links of the chained hash tables: find, add, delete, re-key, resize (calHashTable.c, calHashTableOne.c, calHashTableThree.c) |
| Memory | `PoolModel` | page manager, node managers, record managers with their free lists in memory (calMemoryManagement.c, calInt.h, calMem.c) |
| Memory | `BuddyModel` | the block allocator: headers, free lists, segments and the break as memory; sizes as 64-bit words where they matter (calMem.c) |
| Files | `CodecModel`, `DumpModel` | writing a BDD to a file and reading it back (calDump.c) |
| Printing | `PrintModel`, `SpecPrint`, `PrintProof`, `PrintFacts`, `PropsPrint` | printed profiles, C++ profiles, collection mode |
| Printed BDDs | `BddPrintModel` | calPrint.c (text of a BDD), calUtil.c: Cal_BddFunctionPrint |
| C++ layer | `CppModel`, `RangeModel` | calObj.hh: handles, operations on ranges |

Each `XModel.v` holds definitions only; `Spec*.v` holds the vocabulary of the theorems; `Props*.v`
holds the theorems named in `MANIFEST.json` and examples; every other file holds proofs.

The state space of the interface theorems is `SpecApi.reachable`: the worlds (a manager and the handles
the client holds) that any finite sequence of modelled calls can lead to, for any operands, any iteration
order of the hash tables, any outcome of the decisions that depend on sizes and any hash function of the
computed table.

Semantics: an edge (variable id, address, complement bit) is evaluated under an assignment
`id -> bool` by walking then/else edges.  The specification of every Boolean operation is
stated with that evaluation only, never with model helpers.

Outcomes: undefined behaviour, fatal exits and exhausted fuel are distinct outcomes in the
model, never a normal-looking value.

## 3. Per property plan

The numbers refer to `properties.jsonl`.

* C01, C02, C04, C05 - store + breadth-first engine; per-level invariants for apply and
  reduce; induction over levels.
* C03 - canonicity theorem for ordered, reduced, then-positive, unique stores; invariant
  over histories.
* C06 - from store invariant plus canonicity (dependence on the top variable).
* C07 - model of the array version with its single queue bound; expected to be refuted
  (see findings), partial theorem under the condition that makes it work.
* C08 - multiway pairing modelled as list recursion over the engine.
* C09, C10, C11 - depth-first recursion with the computed table, validity of the table as
  invariant.  Above 2^19 nodes C10 and C11 use breadth-first routines (`QuantBFModel`): an engine instance in which a request at a
  quantified variable has one request only as its child, and the operands of the other cofactor in its second field.  Its reduce
  sweep runs a nested pass over the variables below, and then a batch of disjunctions (`QuantBFProof`); the passes nest as deep as
  there are variables, so `existB_ok` and `relprodB_ok` are by induction on the number of variables left.
* C12 - model of 16-bit temporary opcodes; refutation by wrap-around.
* C13-C16 - engine instances with substitution semantics.  In C14 and C15 a request is finished in the reduce sweep by a nested
  if-then-else on the image, or by a node at the variable of the image (`PlaceProof`, `SubstProof`).
  In C16 the apply sweep also makes nodes of the lower variable at once (`SwapStep`), with five queues of requests.
* C17-C19 - constrain/restrict recursion; refutation for the empty care set.  Reduction runs a second breadth-first operation
  (a batch of disjunctions) in the middle of its own sweep: `NestProof` hides the requests of the outer operation, runs the
  inner one and shows them again.
* C20-C25, C48 - traversals over well-formed stores.
* C26, C27 - reference count invariant over histories; sweep order argument.
* C28 - bit-level model on machine words; finite sweep over the bits lifted by lemma.
* C29 - object heap model of the C++ wrapper.
* C30, C31 - chained tables with rehash refine finite maps; cache validity.
* C32, C36 - order tables and association bound under creation and exchange.
* C33 - model of the depth-first method on the node store; the exchanges form an arbitrary sequence, so the result holds
  for every search.  Proof by a renaming between the three layouts (before, during, after) and an invariant of the
  exchange.  Refutations when an association image, or a saturated node nobody holds, is not covered by the interaction matrix.
* C34 - search procedures over an abstract size function of the order.
* C35 - association list with counts.
* C37-C39 - byte level codec and recursive dump/undump.
* C40 - pipelines: creation assigns levels, execution runs the engine over batches of levels with locked results and collections in
  between; invariant over the requests, their answers and the locks. Refutation at the depth bound.
* C41, C42, C43 - state machines over manager fields.
* C44 - invariant: every segment is tiled by aligned blocks whose headers are intact and the free lists are exactly the free blocks; the client may overwrite its blocks and move the break.  Coalescing: complete when no segment has grown, refuted otherwise.
* C45 - allocators over addresses.
* C46, C47, C50, C51 - arithmetic.
* C49 - model of the control flow of the printing functions and of the vector the C++ class returns; layout proved for
  `Cal_BddPrintProfile`, the rest refuted.
* C52 - the field `gcMode` beside the manager; refutation by a call that collects.
* C53 - nodes of each table in address order; invariant of the bottom-up pass (a renaming of addresses, injective per variable); transport of the manager invariant along the renaming; refutation after a reordering.
* C54 - ranges as steps of C++ programs (C29): temporaries are copies with fresh names; the C call between them; the copies destroyed; then the theorems on the C calls apply.
* C55 - `SpecBddPrint.v` has a reader that evaluates the text line by line; the text and the file of C37 come from one script (`DumpProof.script_step`), so that the marking and numbering passes are proved once; reading the script's text follows its evaluation.
* C56 - model of the breadth-first method on the node store.  Each exchange is simulated by an exchange of the depth-first model (C33)
  up to a renaming of addresses; the forwardings are the part of the renaming that is not yet applied.  After the last window no
  forwarding is left, and the manager invariant is transported along the renaming (`MoveTrans`).
* C57 - the exchange of C56 under the control of sifting: every repair (handles and images, the nodes of some levels, double
  forwardings) keeps the simulation, whatever levels it is called for; the final check of the code that no forwarding is left is a
  test of the model.
* C58 - cells are followed through exchanges, sweeps and the end of a pass; for sifting a counterexample.
* C59 - the check between operations is one of the calls of `reachable`; its branches are C33, C56, C57 and the check without
  reordering (`AutoProof.post_none`), composed with setting the limit, the overflow flag and the rehash of the cache.
* C60 - the searches and the summing of C48, for several roots; a root is counted as referenced from above because its entry -1 hides
  the one of the searches as long as the table does not grow.
* C61 - the printing of C49 applied to the counts of C22 and C60, after the pre-processing of the array.
* C62 - the shape of C54 (convert, call, give back) around the calls of C22, C60 and C61.
* C63 - the counts of C61 are unique for a set of functions, and the text is a function of the counts (`ProfSame`).
* C64 - from C22: the subfunctions of joined arrays are those of either, and counting is monotone and subadditive (`SizeSum`).
* C65 - from C22 and C61: every function has exactly one top level, so that the counts of the levels are counts of disjoint parts (`ProfTotal`).

## 4. Findings

Each is a theorem with suffix `_refuted` (or named as given) with a concrete witness.

| Theorem | Behaviour of the code |
|---|---|
| `C06_on_constants_refuted` | `Cal_BddIf`, `Cal_BddThen`, `Cal_BddElse` applied to a constant read through a null node. |
| `C07_pairwise_refuted` | `Cal_BddPairwise*`: the array version of the engine starts its sweeps at the top level of the *last* pair only; requests of other pairs above that level are never expanded and are returned as results. |
| `C12_refuted` | The operation codes of the temporary association are 16 bits wide and come round; a stale cached result of an older association is then returned. |
| `C13_null_refuted` | `Cal_BddCompose` does not test its operands for null before reading them. |
| `C15_variables_needed` | `Cal_BddVarSubstitute` with an image that is not a variable (the header assumes it is, the comment at the routine does not): the result is wrong without any report. |
| `C17_empty` | `Cal_BddCofactor` by the empty care set answers one (with a warning). |
| `C18_refuted`, `C19_refuted` | `Cal_BddReduce` by the empty care set, and `Cal_BddBetween` from zero to one, wrap the null node and then measure its size: undefined behaviour. |
| `C24_zero_refuted` | `Cal_BddIsCube` on zero ends the program. |
| `C31_duplicate_refuted` | Adding a key twice to a table of one (which never looks first): which of the two entries is found changes at the next resize. |
| `C29_self_move_loses_value` | Move-assigning a C++ handle to itself leaves a null handle. |
| `C35_current_refuted` | Giving up one of several holds of the current association deselects it although it still exists. |
| `C35_duplicate_refuted` | A variable listed twice in an association of pairs leaks a reference. |
| `C36_constant_refuted` | A constant in a plain association makes the last index of the association the largest index value. |
| `C33_association_refuted` | The interaction matrix is computed from the handles of the client only: when two variables occur together only in an image of an association, their exchange skips the rewriting of nodes; the image changes its function and points to released memory. |
| `C33_saturated_refuted` | The same for a node that nobody refers to but whose reference count is saturated: it stays in its table with a child that has been released. |
| `C40_levels_refuted` | The 257th level of a pipeline is refused with a null handle, but the depth of the pipeline has been raised already: `Cal_PipelineExecute` and `Cal_PipelineQuit` then read the array of request lists beyond its end. |
| `C40_unknown_operation` | `Cal_PipelineInit` with an operation it does not know returns 0 but leaves the pipeline in use, so that every later initialisation fails until `Cal_PipelineQuit`. |
| `C40_depth_example`, `C40_overflow_example` | `Cal_PipelineExecute` overwrites the execution depth set with `Cal_PipelineSetDepth` by the size of its last batch; after an overflow it returns 0 with the results of earlier levels still locked. |
| `C41_null_refuted` | `Cal_BddNot`, `Cal_BddIdentity`, `Cal_BddFree` read through a null handle. |
| `C42_limit_refuted` | Lifting a node limit leaves a collection limit that is below the documented minimum. |
| `C49_print_function_profile_refuted` | The test of the handle is inverted: nothing is printed for any valid handle, and for a null one an array that was never written is printed. |
| `C49_cpp_profile_refuted`, `C49_cpp_function_profile_refuted` | The C++ `Profile()` and `FunctionProfile()` return empty vectors: the storage is reserved but the size stays 0. |
| `C52_mode_refuted` | `Cal_BddSetGCMode(0)` has no effect: the mode is read only by a function that nobody calls. |
| `C53_refuted` | Compaction does not update the manager's record of the nodes of the variables (`varBdds`). As long as the variable's node is the first of its pages it never moves; after a depth-first reordering it can lie in a page that is given back, and `Cal_BddManagerGetVarWithId` then returns a handle to released memory. |
| (hypothesis `tnum <= tden` of C53) | `Cal_BddManagerSetParameters` accepts a repacking threshold above 1. A variable whose pages are completely full then qualifies for compaction, which sets its number of pages to one more than it has. |
| `C54_pairwise_refuted` | C++ `PairwiseAnd/Or/Xor`: `From_C_Array` reads until a null element, but the array of the C function has exactly one element per result and no final null: every call reads past the end of a heap block and wraps whatever is there as a handle. With an odd number of elements (or none) the nil array is read. |
| `C54_null_refuted`, `C54_null_ignored` | C++ operations on ranges: a null element (e.g. the result of an overflow) is taken for the end of the list, so that it and the elements behind it are silently ignored; the result is a proper BDD of the wrong function. |
| `C54_wrapped_identifier` | Integers in a range are converted to 16 bits: 65537 names variable 1. |
| `C55_function_text_refuted` | `Cal_BddFunctionPrint` names the variable with number i by the byte 'a'+i-1 computed modulo 256: variables 256 apart are printed alike (beyond 26 the byte is not a letter, and variable 208 is printed as the digit 0). |
| `C55_null_refuted` | `Cal_BddPrintBdd` and `Cal_BddFunctionPrint` follow a null handle. |
| `C60_rehash_refuted` | `Cal_BddFunctionProfileMultiple` inserts each function of the array a second time in its hash table and relies on the new entry being found first. If the table grows meanwhile (1280 entries), `HashTableOneRehash` reverses the bins and the old entries are found: a function of the array that also arises from another one is not counted (the first entry says 1 for an array with two different functions). |
| `C62_profile_refuted`, `C62_function_profile_refuted` | C++ `Cal::Profile` and `Cal::FunctionProfile` of a range write through `data()` of a vector that has only reserved storage: the vector returned is empty, as for a single BDD (C49). |
| `C58_sift_refuted` | Sifting by the breadth-first method never gives back the cells of forwarded nodes. An exchange pushes forwardings in front of the list and leaves `endNode`, which for an empty list is the address of the list's start; `CalBddReorderReclaimForwardedNodes` then writes the free list over the start of the list and takes it as the new free list. The cells stay allocated and unreachable until `Cal_BddManagerQuit`; each sifting leaks more. |
| (`BFReorderModel`, by reading) | `BddReorderFixAndFreeForwardingNodes` frees nothing: it marks the cells a chain of forwardings passes through, but then tests the mark of the cell where the chain ends; the cells are only given back when the pass is over. In the window search the flag `even` never changes, so the branch that goes through the windows upwards is dead. A window whose best arrangement has the size of the first reports "not moved" although the order may have changed. |
| `C39_refuted` | `Cal_BddUndumpBdd` trusts the number of shared nodes that the file announces: a file that defines more nodes writes beyond the table. |
| `C39_silent_refuted` | `Cal_BddUndumpBdd` with a list that is not all variables returns null and leaves the error code 0. |
| (rule `st_dump` of `SpecApi`) | `Cal_BddDumpBdd` never gives back the handles it gets from `Cal_BddSupport`: every file written leaves references to the variables of the support. |
| `C44_coalesce_refuted` | When the block allocator extends its last segment, the new storage goes on the free lists without being merged with a free neighbour: after freeing everything two halves stay apart. |
| `C46_refuted` | With more than 46341 variables the size of the interaction matrix overflows an `int`. |
| `C50_random_refuted`, `C50_seed_overflow_refuted` | Large seeds make the generator leave its range, then index outside its table; the largest negative seed overflows. |
| `C51_transform_defined_refuted` | Negating the word 2^63 as a signed number overflows. |

## 5. Not modelled

* `Cal_BddSwapVars` applied to two different functions with the same topmost variable (such as a variable and its complement).
* The entries `Cal_BddVarSubstitute` and the breadth-first quantification routines make in the computed table for intermediate
  requests (C10, C11, C15): within the operation they only repeat what the request queue already finds; afterwards only the entry
  of the whole operation is modelled.
* In breadth-first reordering by windows (C56) the reclaiming and packing in the middle of a pass when there are more forwardings than
  `maxForwardedNodes` (the model stops there), in sifting (C57) the packing of the nodes of the sifted variable; that the assertions of calReorderBF.c never fail
  and that the passes end is not proved, C56 and C57 are about calls that return. The searches are modelled over an arbitrary size function (C34).
* Other operations between the calls of one pipeline (C40): `run_pipeline` is the documented sequence of calls. (From the source:
  `Cal_BddMultiway*` and `Cal_BddCompose` called while provisional BDDs are pending use and clear the very lists these are in; a
  request holds no reference on its operands, so freeing one before the execution leaves it dangling.)
* Automatic reordering inside an operation (C59): it is the step `st_post_auto` before or after the operation. That the check before
  an operation comes before any argument becomes an internal edge is by reading.
* Compaction as part of each call: the modelled post-processing collects only; the step `st_repack` (collection and compaction) may
  follow any call. That a client which never reorders always satisfies its condition on the nodes of variables is by reading (the
  first node ever allocated for a variable is the variable's own), not proved. Compaction while a pipeline is pending is not modelled
  (from the source: request nodes in its pages are taken for table nodes).
* The bucket level of the hash tables is modelled by itself (HashModel, C31); the engine sees a table as the list of its
  entries in an arbitrary order.
* `Cal_BddStats`, `Cal_ImageDump` and other statistics output, time measurement, and concurrency (the package has none). Printing of
  BDDs and profiles is modelled (C49, C55).
* Machine level: addresses are numbers; allocation never fails; `int` and `long` counters are unbounded unless the property is about them.

## 6. Assumptions reported by `Print Assumptions`

Every property theorem is reported as "Closed under the global context": no axiom, of the standard library or otherwise, is used.
