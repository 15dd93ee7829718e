{"id": "C01", "title": "Binary Boolean operators return the pointwise combination", "statement": "Cal_BddAnd, Nand, Or, Nor, Xor and Xnor return a handle whose function is, under every assignment of the variables, the named Boolean combination of the functions of the two argument handles.", "quantifier": "every manager state reachable from initialisation, every pair of handles, every assignment", "why_tests_cant": "Operands range over all Boolean functions and the breadth-first algorithm's queues depend on the whole shared graph; tests sample a few graphs.", "anchors": ["src/calBddOp.c:Cal_BddAnd", "src/calBddOp.c:CalBddOpBF", "src/calApplyReduce.c:CalHashTableApply", "src/calApplyReduce.c:CalHashTableReduce", "src/calTerminal.c"]}
{"id": "C02", "title": "If-then-else returns (f and g) or (not f and h)", "statement": "Cal_BddITE(f,g,h) returns a handle that, under every assignment, has the value of g where f is true and of h where f is false.", "quantifier": "every reachable state, every triple of handles, every assignment", "why_tests_cant": "The terminal-case table of ITE has many normalisation branches which interact with complement edges; only some combinations are hit by tests.", "anchors": ["src/calBddITE.c:Cal_BddITE", "src/calTerminal.c:CalOpITE"]}
{"id": "C03", "title": "Equal handles if and only if equal functions", "statement": "Two handles obtained from a manager compare equal with Cal_BddIsEqual exactly when the functions they stand for agree on all assignments.", "quantifier": "every state reachable by any sequence of API operations, every pair of live handles", "why_tests_cant": "Canonicity is a global invariant over the node graph and must survive every operation in any order.", "anchors": ["src/cal.c:Cal_BddIsEqual", "src/calHashTable.c:CalUniqueTableForIdFindOrAdd", "src/calApplyReduce.c:CalHashTableReduce"]}
{"id": "C04", "title": "Operations do not disturb existing handles", "statement": "An operation that creates new BDDs never changes the function denoted by any handle that existed before it.", "quantifier": "every reachable state, every operation, every pre-existing handle, every assignment", "why_tests_cant": "Aliasing inside the shared graph means that damage may show only on unrelated handles much later.", "anchors": ["src/calApplyReduce.c", "src/calQuant.c", "src/calHashTable.c"]}
{"id": "C05", "title": "Negation, constants and constant tests", "statement": "Cal_BddNot denotes the complement and is an involution; Cal_BddOne/Zero denote the constants; Cal_BddIsBddOne/IsBddZero/IsBddConst answer yes exactly for the tautology/contradiction/either.", "quantifier": "every reachable state, every handle", "why_tests_cant": "Deciding a tautology by one pointer comparison is right only if the graph is canonical, a property of all histories.", "anchors": ["src/cal.c:Cal_BddNot", "src/cal.c:Cal_BddIsBddOne", "src/cal.c:Cal_BddIsBddConst"]}
{"id": "C06", "title": "If, Then and Else give the Shannon expansion", "statement": "For a non-constant f, Cal_BddIf(f) is the variable of smallest index on which f depends, and f equals ITE(If(f), Then(f), Else(f)); Then(f) and Else(f) do not depend on that variable.", "quantifier": "every reachable state, every non-constant handle, every assignment", "why_tests_cant": "Complement edges and every possible variable order must be covered.", "anchors": ["src/cal.c:Cal_BddIf", "src/cal.c:Cal_BddThen", "src/cal.c:Cal_BddElse"]}
{"id": "C07", "title": "Pairwise operations agree with the single operation", "statement": "Cal_BddPairwiseAnd/Or/Xor return, for an array of pairs, an array whose i-th entry is the And/Or/Xor of the i-th pair.", "quantifier": "every reachable state, every array of pairs of any length", "why_tests_cant": "The batch shares one set of level queues; whether an entry is processed depends on the other entries.", "anchors": ["src/calBddOp.c:Cal_BddPairwiseAnd", "src/calBddOp.c:BddArrayOpBF"]}
{"id": "C08", "title": "Multiway operations agree with folding the binary operation", "statement": "Cal_BddMultiwayAnd/Or/Xor over an array of n>=1 handles denote the conjunction/disjunction/parity of all of them, for every n up to the library's limit.", "quantifier": "every reachable state, every list of handles", "why_tests_cant": "The divide-and-conquer pairing has a separate remainder path at every level; list lengths are unbounded.", "anchors": ["src/calBddOp.c:Cal_BddMultiwayAnd", "src/calBddOp.c:BddMultiwayOp", "src/calBddOp.c:CalRequestNodeListArrayOp"]}
{"id": "C09", "title": "Intersects and implies witnesses", "statement": "Cal_BddIntersects(f,g) implies f and g and is zero exactly when f and g is zero; Cal_BddImplies(f,g) is zero exactly when f implies g and otherwise is a non-zero function implying f and not g.", "quantifier": "every reachable state, every pair of handles", "why_tests_cant": "The claim is about emptiness of an arbitrary conjunction.", "anchors": ["src/cal.c:Cal_BddIntersects", "src/cal.c:Cal_BddImplies", "src/cal.c:BddIntersectsStep"]}
{"id": "C10", "title": "Existential and universal quantification", "statement": "Cal_BddExists / Cal_BddForAll denote the function that is true where some / every re-assignment of the variables of the current association makes f true.", "quantifier": "every reachable state, every association, every handle, every assignment", "why_tests_cant": "The answer quantifies over exponentially many re-assignments and depends on caching across calls.", "anchors": ["src/calQuant.c:Cal_BddExists", "src/calQuant.c:Cal_BddForAll", "src/calQuant.c:BddExistsStep"]}
{"id": "C11", "title": "Relational product equals exists of and", "statement": "Cal_BddRelProd(f,g) denotes the existential quantification over the current association of (f and g).", "quantifier": "every reachable state, every association, every pair of handles, every assignment", "why_tests_cant": "Early-termination cases and three interleaved caches must agree with the two-step computation on all graphs.", "anchors": ["src/calQuant.c:Cal_BddRelProd", "src/calQuant.c:BddRelProdStep"]}
{"id": "C12", "title": "Answers do not depend on earlier operations", "statement": "An operation performed with a temporary association returns the same function however many operations with other temporary associations were performed before it.", "quantifier": "every history of operations of any length", "why_tests_cant": "The defect needs tens of thousands of preceding operations and an unlucky cache hit.", "anchors": ["src/calQuant.c:Cal_BddExists", "src/calBddVarSubstitute.c:Cal_BddVarSubstitute", "src/calInt.h:tempOpCode"]}
{"id": "C13", "title": "Compose substitutes a function for a variable", "statement": "Cal_BddCompose(f,g,h), with g a variable, denotes f with h substituted for that variable.", "quantifier": "every reachable state, every f, h, every variable, every assignment", "why_tests_cant": "Substitution under arbitrary variable orders, including h above and below the variable.", "anchors": ["src/calBddCompose.c:Cal_BddCompose", "src/calBddCompose.c:CalHashTableComposeApply"]}
{"id": "C14", "title": "Substitute is simultaneous substitution", "statement": "Cal_BddSubstitute(f) denotes f with all variables of the current association replaced simultaneously by their images.", "quantifier": "every reachable state, every association, every handle, every assignment", "why_tests_cant": "Simultaneity differs from sequential substitution only on overlapping supports.", "anchors": ["src/calBddSubstitute.c:Cal_BddSubstitute"]}
{"id": "C15", "title": "Variable substitution", "statement": "Cal_BddVarSubstitute(f) denotes f with each variable of the current association replaced by its image variable simultaneously.", "quantifier": "every reachable state, every association from variables to variables, every handle", "why_tests_cant": "Renaming may reverse the order of variables arbitrarily deep in the graph.", "anchors": ["src/calBddVarSubstitute.c:Cal_BddVarSubstitute"]}
{"id": "C16", "title": "SwapVars exchanges two variables", "statement": "Cal_BddSwapVars(f,g,h) denotes f with the variables g and h exchanged.", "quantifier": "every reachable state, every handle, every two variables, every assignment", "why_tests_cant": "Three mutually dependent queues whose interplay depends on the shape of f.", "anchors": ["src/calBddSwapVars.c:Cal_BddSwapVars"]}
{"id": "C17", "title": "Cofactor is the generalised cofactor", "statement": "For non-zero c, Cal_BddCofactor(f,c) agrees with f wherever c holds (and is the constrain operator: the value at an assignment is that of f at the projection of the assignment onto c).", "quantifier": "every reachable state, every f, every non-zero c, every assignment", "why_tests_cant": "Agreement must hold on all assignments satisfying c.", "anchors": ["src/calReduce.c:Cal_BddCofactor", "src/calReduce.c:BddCofactorBF"]}
{"id": "C18", "title": "Reduce agrees on the care set and never grows", "statement": "Cal_BddReduce(f,c) agrees with f wherever c holds and has no more nodes than f, for every c.", "quantifier": "every reachable state, every f and c", "why_tests_cant": "Agreement on all care assignments, and the extreme care set 0 is easily left out of tests.", "anchors": ["src/calReduce.c:Cal_BddReduce", "src/calReduce.c:BddReduceBF"]}
{"id": "C19", "title": "Between returns a function inside the interval", "statement": "If fMin implies fMax, Cal_BddBetween(fMin,fMax) returns a function f with fMin implies f and f implies fMax.", "quantifier": "every reachable state, every pair fMin <= fMax", "why_tests_cant": "The interval (zero, one) exercises the empty care set.", "anchors": ["src/calReduce.c:Cal_BddBetween"]}
{"id": "C20", "title": "Satisfy and SatisfySupport return cubes implying f", "statement": "For f not zero Cal_BddSatisfy(f) is a non-zero cube implying f; Cal_BddSatisfySupport(f) is in addition a cube that mentions every variable of the current association.", "quantifier": "every reachable state, every non-zero f, every association", "why_tests_cant": "Implication is over all assignments and the traversal choice depends on complement edges.", "anchors": ["src/calBddSatisfy.c:Cal_BddSatisfy", "src/calBddSatisfy.c:Cal_BddSatisfySupport"]}
{"id": "C21", "title": "Satisfying fraction is the exact density", "statement": "Cal_BddSatisfyingFraction(f) equals (up to floating point rounding) the number of assignments satisfying f divided by the number of assignments.", "quantifier": "every reachable state, every handle, any number of variables", "why_tests_cant": "Counting assignments is exponential in the number of variables.", "anchors": ["src/calBddSatisfy.c:Cal_BddSatisfyingFraction"]}
{"id": "C22", "title": "Size and profile count nodes once", "statement": "Cal_BddSize(f) is the number of distinct nodes reachable from f, Cal_BddProfile splits that number by level, and both leave the graph as they found it.", "quantifier": "every reachable state, every handle (or list of handles)", "why_tests_cant": "The traversal keeps mark bits in the graph; forgetting to clear one only harms a later call.", "anchors": ["src/calBddSize.c:Cal_BddSize", "src/calBddSize.c:Cal_BddProfile"]}
{"id": "C23", "title": "Support is the set of essential variables", "statement": "Cal_BddSupport(f) lists exactly the variables on which the function f depends, each once; Cal_BddDependsOn(f,v) answers yes exactly for these.", "quantifier": "every reachable state, every handle, every variable", "why_tests_cant": "Semantic dependency is a statement over all pairs of assignments.", "anchors": ["src/calBddSupport.c:Cal_BddSupport", "src/calBddSupport.c:Cal_BddDependsOn"]}
{"id": "C24", "title": "IsCube recognises cubes", "statement": "Cal_BddIsCube(f) answers yes exactly when f is a conjunction of literals.", "quantifier": "every reachable state, every handle other than zero", "why_tests_cant": "The recogniser walks one path; correctness is a statement about all functions.", "anchors": ["src/cal.c:Cal_BddIsCube", "src/cal.c:CalBddIsCubeStep"]}
{"id": "C25", "title": "Type classifies handles", "statement": "Cal_BddType answers constant / positive variable / negative variable / non-terminal exactly when f is a constant / a variable / a negated variable / anything else.", "quantifier": "every reachable state, every handle", "why_tests_cant": "Requires canonicity.", "anchors": ["src/cal.c:Cal_BddType"]}
{"id": "C26", "title": "Garbage collection never frees a node in use", "statement": "After Cal_BddManagerGC every handle that has not been freed still denotes the same function, and so do the images held by associations.", "quantifier": "every reachable state, every history of operations, frees, un-frees and collections", "why_tests_cant": "Reference counting errors show only after particular histories.", "anchors": ["src/calGC.c:Cal_BddManagerGC", "src/calGC.c:CalHashTableGC", "src/calInt.h:CalBddNodeIcrRefCount"]}
{"id": "C27", "title": "Garbage collection frees everything else", "statement": "After Cal_BddManagerGC every remaining node is reachable from a live handle, a variable, an association or a node whose count was saturated.", "quantifier": "every reachable state", "why_tests_cant": "Leaks depend on the interplay of counts over the whole graph and on the order in which levels are swept.", "anchors": ["src/calGC.c:Cal_BddManagerGC", "src/calGC.c:CalHashTableGC"]}
{"id": "C28", "title": "Packed reference counts behave like one saturating counter", "statement": "The 8-bit reference count scattered over spare pointer bits of a node behaves as one counter that saturates at 255 and stays there, and updating it never disturbs the pointers, complement tags or each other.", "quantifier": "every node content, every sequence of increments and decrements", "why_tests_cant": "All 256 counter values times all pointer values; saturation needs 255 references.", "anchors": ["src/calInt.h:CalBddNodeGetRefCount", "src/calInt.h:CalBddNodePutRefCount", "src/calInt.h:CalBddNodeIcrRefCount", "src/calInt.h:CalBddNodeDcrRefCount"]}
{"id": "C29", "title": "C++ handle objects keep exact counts", "statement": "For any sequence of constructions, copies, moves, assignments and destructions of C++ BDD objects, the reference count contributed to a handle equals the number of live objects holding it, so no object dangles and none leaks.", "quantifier": "every sequence of object operations, including self-assignment", "why_tests_cant": "RAII protocols fail only on particular interleavings of copies, moves and self-assignments.", "anchors": ["src/calObj.hh:BDD"]}
{"id": "C30", "title": "A cached result is never stale", "statement": "Computed-table hits return exactly what recomputation would return, also across garbage collections that recycle node addresses.", "quantifier": "every history of operations and collections", "why_tests_cant": "Needs a hit on an entry whose operand address was recycled.", "anchors": ["src/calCacheTableTwo.c:CalCacheTableTwoInsert", "src/calCacheTableTwo.c:CalCacheTableTwoLookup", "src/calCacheTableTwo.c:CalCacheTableTwoGCFlush"]}
{"id": "C31", "title": "Hash tables are finite maps", "statement": "The chained hash tables used for nodes and requests find a key exactly if it was inserted and not deleted since, never hold a key twice, and count their entries correctly, across any number of automatic resizes.", "quantifier": "every sequence of find-or-add, direct add, delete, lookup and rehash operations, every hash function", "why_tests_cant": "Resizing happens at data dependent points; chains are threaded through reused pointer bits.", "anchors": ["src/calHashTable.c", "src/calHashTableThree.c", "src/calHashTableOne.c"]}
{"id": "C32", "title": "The variable order stays a permutation", "statement": "At all times the id-to-index and index-to-id tables are inverse bijections; a new variable lands first, last, immediately before or immediately after the given variable, and the relative order of all the other variables is unchanged.", "quantifier": "every sequence of variable creations and reorderings", "why_tests_cant": "Insertions shift arbitrary suffixes of the order.", "anchors": ["src/calBddManager.c:CalBddManagerCreateNewVar", "src/calReorderDF.c:BddExchange"]}
{"id": "C33", "title": "Reordering preserves every function and canonicity", "statement": "Exchanging adjacent variables, and hence any reordering, leaves the function of every live handle and association image unchanged, and afterwards equal handles still mean equal functions.", "quantifier": "every reachable state, every adjacent pair, every handle", "why_tests_cant": "In-place mutation of shared nodes guided by an interaction matrix; damage may be confined to a node not referenced by any handle.", "anchors": ["src/calReorderDF.c:BddExchange", "src/calReorderDF.c:BddExchangeAux", "src/calInteract.c:CalInitInteract"]}
{"id": "C34", "title": "Window and sift searches keep the best order seen", "statement": "Window permutation and sifting end at an order whose size is the smallest size they saw, never larger than at the start, and they terminate.", "quantifier": "every size behaviour of the graph under exchanges, every number of variables", "why_tests_cant": "The search inspects sizes in data-dependent sequences and must undo exchanges exactly.", "anchors": ["src/calReorderDF.c:Window2", "src/calReorderDF.c:BddReorderWindow3", "src/calReorderDF.c:SiftBlock"]}
{"id": "C35", "title": "Associations: equal pairs share an id, counts protect them", "statement": "Initialising an association equal to an existing one returns its id; an id stays usable until it was quit as often as it was initialised.", "quantifier": "every sequence of association init, quit and selection", "why_tests_cant": "Sequences of sharing and quitting are unbounded.", "anchors": ["src/calAssociation.c:Cal_AssociationInit", "src/calAssociation.c:Cal_AssociationQuit"]}
{"id": "C36", "title": "The last quantified index of an association is exact", "statement": "For each association the bound below which quantification and substitution stop equals the largest order position of an associated variable, also after variables are created or moved.", "quantifier": "every sequence of association, variable creation and reordering steps", "why_tests_cant": "A stale bound silently drops quantifications only for particular orders.", "anchors": ["src/calAssociation.c", "src/calReorderUtil.c:CalFixupAssoc", "src/calBddManager.c:CalBddManagerCreateNewVar"]}
{"id": "C37", "title": "Dump then undump restores the function", "statement": "Cal_BddUndumpBdd applied to the bytes written by Cal_BddDumpBdd with the same variable list returns the original handle; with another list of the same length it returns the function with the variables renamed accordingly.", "quantifier": "every handle, every variable list containing its support, any number of variables", "why_tests_cant": "The file format shares subgraphs by numbers whose width depends on sizes.", "anchors": ["src/calDump.c:Cal_BddDumpBdd", "src/calDump.c:Cal_BddUndumpBdd"]}
{"id": "C38", "title": "The dump byte codec round-trips", "statement": "Reading back a number written with a given byte width returns it, the number of bytes chosen for a range suffices for every member of the range, and the reserved codes never collide with a variable or node number.", "quantifier": "every 32-bit number, every width, every count", "why_tests_cant": "Boundary values at each width.", "anchors": ["src/calDump.c:Write", "src/calDump.c:Read", "src/calDump.c:BytesNeeded"]}
{"id": "C39", "title": "Undump of a malformed file reports an error", "statement": "For every input byte sequence Cal_BddUndumpBdd either returns a BDD or null with an error code, and never accesses memory outside its tables.", "quantifier": "every byte sequence", "why_tests_cant": "The set of malformed files is infinite.", "anchors": ["src/calDump.c:BddUndumpBddStep"]}
{"id": "C40", "title": "Pipelined operations equal immediate operations", "statement": "A chain of operations issued through Cal_PipelineCreateProvisionalBdd and executed later yields, for every provisional BDD, the same function as issuing them one after another.", "quantifier": "every sequence of provisional operations up to the documented maximum depth", "why_tests_cant": "Results depend on queue depth assignment over the whole DAG of requests; the depth bound is 256.", "anchors": ["src/calPipeline.c"]}
{"id": "C41", "title": "Null and overflow handling", "statement": "Every operation applied to a null handle returns null without touching memory, and exceeding the node limit yields null and leaves existing handles intact.", "quantifier": "every operation, every argument position", "why_tests_cant": "Each function has its own preprocessing code.", "anchors": ["src/calUtil.c:CalBddPreProcessing", "src/calBddCompose.c:Cal_BddCompose", "src/calBddManager.c"]}
{"id": "C42", "title": "GC limit policy stays within its bounds", "statement": "The node count at which collection is triggered is at least the minimum limit, and does not exceed a non-zero node limit unless that limit is below the minimum.", "quantifier": "every sequence of limit changes and collections", "why_tests_cant": "Arithmetic on all sizes.", "anchors": ["src/calGC.c:Cal_BddSetGCLimit", "src/cal.c:Cal_BddNodeLimit"]}
{"id": "C43", "title": "Variable blocks partition correctly", "statement": "Variable block creation keeps the block tree well nested, finds the smallest enclosing block, and moving blocks keeps the variables of a block contiguous.", "quantifier": "every sequence of valid block creations and variable creations", "why_tests_cant": "Binary search over a changing tree.", "anchors": ["src/calBlk.c"]}
{"id": "C44", "title": "The buddy allocator hands out disjoint aligned blocks", "statement": "Blocks obtained from the block allocator never overlap, lie in the segments obtained from the system, have at least the requested size, and freeing everything coalesces memory completely.", "quantifier": "every sequence of allocations, resizes and frees", "why_tests_cant": "Fragmentation histories are unbounded.", "anchors": ["src/calMem.c"]}
{"id": "C45", "title": "Record and page managers hand out disjoint memory", "statement": "Records and pages handed out and not yet returned never overlap, and returned ones are handed out again.", "quantifier": "every sequence of allocations and frees", "why_tests_cant": "Histories are unbounded.", "anchors": ["src/calMem.c:Cal_MemNewRec", "src/calMemoryManagement.c"]}
{"id": "C46", "title": "The interaction matrix records exactly the recorded pairs", "statement": "Testing a pair of variables answers yes exactly if that pair (in either order) was recorded, and all accesses are inside the bit array.", "quantifier": "every number of variables, every set of recorded pairs", "why_tests_cant": "Triangular index arithmetic over all n.", "anchors": ["src/calInteract.c:CalSetInteract", "src/calInteract.c:CalTestInteract"]}
{"id": "C47", "title": "Hashing ignores complement tags and sizes are powers of two", "statement": "The hash positions are always inside the table, and the logarithm helper returns the least exponent whose power of two reaches its argument.", "quantifier": "every pointer, every table size, every number", "why_tests_cant": "All machine words.", "anchors": ["src/calInt.h:CalDoHash2", "src/calCacheTableTwo.c", "src/calHashTable.c:CeilLog2"]}
{"id": "C48", "title": "Function profile counts subfunctions", "statement": "For every variable position i on which f depends, Cal_BddFunctionProfile(f)[i] is the number of distinct subfunctions of f obtained by fixing the variables at positions before i; for positions f does not depend on it is 0.", "quantifier": "every reachable state, every handle", "why_tests_cant": "Number of restrictions is exponential.", "anchors": ["src/calBddSize.c:Cal_BddFunctionProfile"]}
{"id": "C49", "title": "Printed and C++ profiles report the profile", "statement": "Cal_BddPrintFunctionProfile prints the function profile of every valid handle, and the C++ Profile()/FunctionProfile() return a vector with one entry per level.", "quantifier": "every handle", "why_tests_cant": "A caller-side check on one handle would reveal it, but no such test exists.", "anchors": ["src/calPrintProfile.c:Cal_BddPrintFunctionProfile", "src/calObj.hh:Profile"]}
{"id": "C50", "title": "The pseudo-random generator stays in range and reproducible", "statement": "For each seed the generator used for unbiased choices is deterministic, every value lies in its documented range and no intermediate computation overflows.", "quantifier": "every seed, every number of draws", "why_tests_cant": "Overflow occurs only for specific internal states.", "anchors": ["src/calUtil.c:CalUtilSRandom", "src/calUtil.c:CalUtilRandom"]}
{"id": "C51", "title": "Terminal transform negates a 128-bit value", "statement": "The default transform of terminal values is two's complement negation over the pair of words, hence an involution.", "quantifier": "every pair of 64-bit words", "why_tests_cant": "2^128 inputs.", "anchors": ["src/calBddManager.c:BddDefaultTransformFn"]}
{"id": "C52", "title": "Switching automatic collection off", "statement": "After Cal_BddSetGCMode(manager, 0) no call collects garbage until the mode is set again or Cal_BddManagerGC is called.", "quantifier": "every history of calls", "why_tests_cant": "Whether a collection happened is invisible from results.", "anchors": ["src/calGC.c:Cal_BddSetGCMode", "src/calUtil.c:CalBddPostProcessing"]}
{"id": "C53", "title": "Compaction of node memory keeps every function", "statement": "When a garbage collection triggered at the end of a call goes on to compact the memory of nodes, it ends normally, every handle and every image of an association keeps its function, equality of handles stays equality of functions, every variable can still be obtained from the manager, no node is lost, and the pages of a thinly filled variable shrink to what its nodes need.", "quantifier": "every history of calls before it, every page size and threshold up to 1", "why_tests_cant": "Compaction needs several pages of nodes of one variable of which most have died, and mistakes show only when moved nodes are visited later.", "anchors": ["src/calGC.c:CalRepackNodesAfterGC", "src/calHashTable.c:CalUniqueTableForIdRehashNode", "src/calUtil.c:CalBddPostProcessing"]}
{"id": "C54", "title": "C++ operations on ranges are the operations on their elements", "statement": "And, Or and Xor of the C++ class Cal over a range of BDDs or of variable identifiers return the conjunction, disjunction and parity of all elements (null if an element is null), PairwiseAnd/Or/Xor return one BDD for each pair, an association can be made from a range; in each case the elements keep their functions and reference counts and nothing is leaked.", "quantifier": "every C++ program, every range up to the documented number of operands", "why_tests_cant": "Wrong counts of temporaries show only after later collections; reads past the end of an array depend on the heap; null elements occur only after overflows.", "anchors": ["src/calObj.hh:BDD::C_Bdd_vector", "src/calObj.hh:BDD::From_C_Array", "src/calObj.hh:Cal::And", "src/calObj.hh:Cal::PairwiseAnd", "src/calObj.hh:Cal::AssociationInit"]}
{"id": "C55", "title": "The printed text of a BDD describes its function", "statement": "The text Cal_BddPrintBdd prints, read as nested branchings with labelled shared parts, has under every assignment the value of the function of the BDD, for all names the caller supplies for variables and constants; labels are given once and before they are used, and BDDs with the same text are equal if the names are distinct. Printing leaves no trace in the manager. Cal_BddFunctionPrint prints a sum of products with the same property.", "quantifier": "every reachable manager and BDD, every naming function and assignment", "why_tests_cant": "Sharing, signs of shared parts and the three ways a node can be met again multiply; a wrong sign shows only on particular graphs.", "anchors": ["src/calPrint.c:Cal_BddPrintBdd", "src/calPrint.c:BddPrintBddStep", "src/calPrint.c:CalBddMarkSharedNodes", "src/calPrint.c:CalBddNumberSharedNodes", "src/calUtil.c:Cal_BddFunctionPrint"]}
{"id": "C56", "title": "Breadth-first window reordering keeps every function", "statement": "Cal_BddReorder with the breadth-first method and the window technique changes neither the function of a handle the client owns nor the function of an image in an association; afterwards handles are equal exactly when their functions are, the order is a permutation of the old one, and the manager works as before (every property of later calls still holds).", "quantifier": "every reachable manager, every sequence of calls before and after, any number of passes", "why_tests_cant": "Nodes move while edges to their old cells remain to be repaired; whether an edge is missed depends on the sharing between levels and on which windows moved before.", "anchors": ["src/calReorderBF.c:CalBddReorderAuxBF", "src/calReorderBF.c:BddReorderSwapVarIndex", "src/calReorderBF.c:BddReorderVarWindow", "src/calReorderBF.c:BddReorderWindow2", "src/calReorderBF.c:BddReorderWindow3", "src/calReorderUtil.c:CalBddReorderFixUserBddPtrs", "src/calReorderUtil.c:CalBddReorderFixCofactors", "src/calReorderUtil.c:CalBddReorderReclaimForwardedNodes"]}
{"id": "C57", "title": "Breadth-first sifting keeps every function", "statement": "Cal_BddReorder with the breadth-first method and the sifting technique changes neither the function of a handle the client owns nor the function of an image in an association; afterwards handles are equal exactly when their functions are, the order is a permutation of the old one, and the manager works as before (every property of later calls still holds).", "quantifier": "every reachable manager, every sequence of calls before and after, all limits on variables, exchanges, growth and forwardings", "why_tests_cant": "A variable passes all others while nodes above still point to old cells; edges are repaired only at some turning points, and which ones depends on the sizes met on the way.", "anchors": ["src/calReorderBF.c:BddReorderVarSift", "src/calReorderBF.c:BddReorderSiftToBestPos", "src/calReorderBF.c:BddSiftPerfromPhaseIV", "src/calReorderBF.c:CofactorFixAndReclaimForwardedNodes", "src/calReorderBF.c:BddReorderFixForwardingNodes"]}
{"id": "C58", "title": "Breadth-first reordering loses no node memory", "statement": "Every cell of node memory that held a node or was free for new nodes before Cal_BddReorder with the breadth-first method holds a node or is free for new nodes afterwards.", "quantifier": "every manager, both techniques, all limits", "why_tests_cant": "A lost cell is never noticed by results; memory only grows from one reordering to the next.", "anchors": ["src/calReorderUtil.c:CalBddReorderReclaimForwardedNodes", "src/calReorderBF.c:BddReorderSwapVarIndex", "src/calReorderBF.c:BddReorderFixForwardingNodes"]}
{"id": "C59", "title": "Automatic reordering keeps every function", "statement": "With any technique and method chosen by Cal_BddDynamicReordering, the check the package makes between operations (collection, possibly reordering, new collection limit, overflow test) changes neither the function of a handle the client owns nor the function of an image in an association; afterwards handles are equal exactly when their functions are and the manager works as before; an overflow is reported exactly when the nodes left exceed the node limit; the order is left alone when no technique is chosen or the nodes left are not above the threshold.", "quantifier": "every reachable manager, every technique, method, threshold and limit, every sequence of calls before and after", "why_tests_cant": "The check runs inside ordinary operations, at sizes no unit test reaches, and combines collection, a reordering and the limits.", "anchors": ["src/cal.c:Cal_BddDynamicReordering", "src/calUtil.c:CalBddPostProcessing", "src/calReorderBF.c:CalBddReorderAuxBF", "src/calReorderDF.c:CalBddReorderAuxDF", "src/calGC.c:Cal_BddManagerSetGCLimit"]}
{"id": "C60", "title": "Function profile of several functions", "statement": "Cal_BddFunctionProfileMultiple gives, for every variable that one of the functions of the array depends on, the number of different functions that arise from the functions of the array by fixing the variables above it in the order; for the other variables it gives 0. The last entry is the number of constant functions that arise in this way.", "quantifier": "every reachable manager, every array of owned handles, with repetitions and functions that arise from each other", "why_tests_cant": "The number is found by one search with a shared table for all functions; that no function is counted twice or missed depends on the sharing between them and on the sizes at which the table grows.", "anchors": ["src/calBddSize.c:Cal_BddFunctionProfileMultiple", "src/calBddSize.c:BddHighestRefStep", "src/calBddSize.c:BddDominatedStep", "src/calHashTableOne.c:CalHashTableOneInsert", "src/calHashTableOne.c:HashTableOneRehash"]}
{"id": "C61", "title": "Printed profiles of several functions", "statement": "Cal_BddPrintProfileMultiple prints one line for every level with nodes, with the number of nodes of the functions of the array at that level (shared ones once), a line for the leaves and the total; Cal_BddPrintFunctionProfileMultiple prints in the same way the function profile of the array.", "quantifier": "every reachable manager, every array of owned handles, every naming function and line length", "why_tests_cant": "The text combines the counts of arbitrarily shared functions with a layout that depends on the largest count and the longest name.", "anchors": ["src/calPrintProfile.c:Cal_BddPrintProfileMultiple", "src/calPrintProfile.c:Cal_BddPrintFunctionProfileMultiple", "src/calPrintProfile.c:CalBddPrintProfileAux", "src/calUtil.c:CalBddArrayPreProcessing"]}
{"id": "C62", "title": "C++ queries on ranges of BDDs", "statement": "Cal::Size of a range of BDD objects is the number of nodes of their functions, shared ones counted once; Cal::Profile and Cal::FunctionProfile of a range return the vector of the counts of every level, and Cal::PrintProfile and Cal::PrintFunctionProfile of a range print these counts. The objects keep their functions, and the program holds the same handles as before.", "quantifier": "every C++ program using the package, every range of live objects that are not null", "why_tests_cant": "The elements are counted once more before the C function is called and given back afterwards; a slip loses a reference, which shows only at a later collection.", "anchors": ["src/calObj.hh:Cal::Size", "src/calObj.hh:Cal::Profile", "src/calObj.hh:Cal::FunctionProfile", "src/calObj.hh:Cal::PrintProfile", "src/calObj.hh:Cal::PrintFunctionProfile", "src/calObj.hh:BDD::C_Bdd_vector", "src/calObj.hh:BDD::Free"]}
{"id": "C63", "title": "Printed profiles depend on the set of functions only", "statement": "Cal_BddPrintProfileMultiple prints the same text for any two arrays with the same functions, whatever their order, repetitions and handles, and whatever collections happen during the calls; so does Cal_BddPrintFunctionProfileMultiple.", "quantifier": "every history of calls, every two arrays of owned handles whose functions are the same, every naming function and line length", "why_tests_cant": "The counts come from one marking pass over shared nodes that starts at each element in turn; order and repetition can matter only through rare states of marks and tables.", "anchors": ["src/calPrintProfile.c:Cal_BddPrintProfileMultiple", "src/calPrintProfile.c:Cal_BddPrintFunctionProfileMultiple", "src/calBddSize.c:Cal_BddProfileMultiple"]}
{"id": "C64", "title": "Sizes of joined arrays", "statement": "Cal_BddSizeMultiple of two arrays put together is at least the size of either array and at most the sum of both, for both ways of counting and whatever collections happen during the calls.", "quantifier": "every history of calls, every two arrays of owned handles", "why_tests_cant": "Nodes shared between the arrays are found by marks in the nodes; a mark left over or missed changes the count only for particular shapes of sharing.", "anchors": ["src/calBddSize.c:Cal_BddSizeMultiple"]}
{"id": "C65", "title": "Profiles add up to the size", "statement": "The counts Cal_BddProfileMultiple gives for all levels add up to the result of Cal_BddSizeMultiple for the same array, for both ways of counting; the total in the last line Cal_BddPrintProfileMultiple prints is the size of the array.", "quantifier": "every history of calls, every array of owned handles", "why_tests_cant": "Size and profile are separate traversals with their own marks; a node missed or counted twice by one of them shows only for particular shapes of sharing.", "anchors": ["src/calBddSize.c:Cal_BddSizeMultiple", "src/calBddSize.c:Cal_BddProfileMultiple", "src/calPrintProfile.c:Cal_BddPrintProfileMultiple"]}
