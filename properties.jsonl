{"id": "C01", "title": "In-edge and out-edge lists always mirror each other", "statement": "After any history of addNode, addEdge, addNewEdge, removeEdge, clearAllEdges and removeNode calls on a DirectedGraph, for every ordered pair of nodes (s,t) the edges s->t found in s.getOutEdges() and the edges from s found in t.getInEdges() are the same edge objects in the same order; no node lists an edge whose endpoints are not in the graph.", "quantifier": "every finite call history over the public mutators, every pair of nodes", "why_tests_cant": "The invariant must hold after every history, including parallel edges, self loops and interleaved removals; a test fixes one short history.", "anchors": ["include/netlist/DirectedGraph.hpp::Node::addEdge", "include/netlist/DirectedGraph.hpp::Node::addNewEdge", "include/netlist/DirectedGraph.hpp::Node::removeEdge", "include/netlist/DirectedGraph.hpp::Node::clearAllEdges", "include/netlist/DirectedGraph.hpp::DirectedGraph::removeNode"]}
{"id": "C02", "title": "The lazily built out-edge index is unobservable", "statement": "addEdge(t) returns the oldest surviving edge to t when one exists and otherwise creates exactly one, whatever the out-degree and whenever the hash index was (or was not) built; i.e. the indexed implementation is observationally equal to a linear scan.", "quantifier": "every call history, every index threshold (16 in the code), every target", "why_tests_cant": "The index exists only above 16 out-edges and is maintained by five different code paths; tests cover a handful of the exponentially many orders of add/new/remove/clear around the threshold.", "anchors": ["include/netlist/DirectedGraph.hpp::Node::lookupOutEdge", "include/netlist/DirectedGraph.hpp::Node::insertOutEdgeIndex", "include/netlist/DirectedGraph.hpp::Node::tryInsertOutEdgeIndex", "include/netlist/DirectedGraph.hpp::Node::buildOutEdgeIndex", "include/netlist/DirectedGraph.hpp::Node::removeEdge"]}
{"id": "C03", "title": "addEdge never creates parallel edges and is idempotent", "statement": "In any history that uses addEdge, removeEdge, clearAllEdges and removeNode but never addNewEdge, there is at most one edge per ordered node pair; a repeated addEdge(s,t) returns the same edge and changes nothing.", "quantifier": "every history without addNewEdge, all node pairs", "why_tests_cant": "Absence of duplicates over all histories is a universal statement.", "anchors": ["include/netlist/DirectedGraph.hpp::Node::addEdge", "include/netlist/DirectedGraph.hpp::Node::lookupOutEdge"]}
{"id": "C04", "title": "removeEdge removes exactly one edge, from both ends", "statement": "removeEdge(s,t) returns true iff an s->t edge exists; when it does it deletes precisely the oldest s->t edge object from s's out list and the same object from t's in list, preserving the order of everything else; the in-edge-missing assertion never fires.", "quantifier": "every reachable graph, every node pair", "why_tests_cant": "The assertion and the 'same object' claim depend on the relative order of two lists maintained in different nodes, over all histories.", "anchors": ["include/netlist/DirectedGraph.hpp::Node::removeEdge", "include/netlist/DirectedGraph.hpp::Node::removeInEdge"]}
{"id": "C05", "title": "removeNode deletes every incident edge and nothing else; edge counts stay exact", "statement": "removeNode(n) returns false and changes nothing if n is not in the graph; otherwise afterwards no edge in the graph touches n, every edge between other nodes survives in order, assert(inEdges.empty()) holds, and numEdges() always equals both the sum of out-degrees and the sum of in-degrees.", "quantifier": "every reachable graph (parallel edges and self loops included), every node", "why_tests_cant": "Existing tests remove nodes in graphs of 2-3 nodes without parallel edges.", "anchors": ["include/netlist/DirectedGraph.hpp::Node::clearAllEdges", "include/netlist/DirectedGraph.hpp::DirectedGraph::removeNode", "include/netlist/DirectedGraph.hpp::DirectedGraph::numEdges"]}
{"id": "C06", "title": "Concurrent addEdge calls never deadlock", "statement": "Any set of threads calling addEdge concurrently on one graph can always make progress: no reachable interleaving leaves all unfinished calls blocked on each other's edge mutexes.", "quantifier": "every number of threads, every set of (source,target) pairs, every interleaving", "why_tests_cant": "A lock-order deadlock needs one specific interleaving of two threads; tests under a scheduler practically never hit it and cannot show absence.", "anchors": ["include/netlist/DirectedGraph.hpp::Node::addEdge", "include/netlist/DirectedGraph.hpp::Node::edgeMutex", "source/PendingRvalueQueue.cpp::resolveParallel"]}
{"id": "C07", "title": "Concurrent edge insertion is linearizable for addEdge and keeps both ends consistent", "statement": "For every interleaving of concurrent addEdge/addNewEdge calls that runs to completion, both ends agree on the set of edges, addEdge yields at most one edge per pair when only addEdge is used and all callers for a pair get that one edge; and after addNewEdge calls, a later removeEdge still removes the same object from both ends.", "quantifier": "every number of threads, every interleaving of lock regions", "why_tests_cant": "Interleavings grow exponentially and the observable damage appears only in a later removeEdge.", "anchors": ["include/netlist/DirectedGraph.hpp::Node::addEdge", "include/netlist/DirectedGraph.hpp::Node::addNewEdge", "include/netlist/DirectedGraph.hpp::Node::removeEdge"]}
{"id": "C08", "title": "Depth-first search visits exactly the reachable nodes, each once", "statement": "DepthFirstSearch from s with an edge predicate terminates, calls visitNode exactly once for every node reachable from s through edges accepted by the predicate (s included, first) and for no other node, and calls visitEdge only for accepted edges leaving visited nodes to previously unvisited ones.", "quantifier": "every finite graph (cyclic or not, parallel edges), every start node, every predicate, forward and backward direction", "why_tests_cant": "Reachability is a statement over all graphs, including arbitrary cycles.", "anchors": ["source/DepthFirstSearch.hpp::DepthFirstSearch::run", "source/DepthFirstSearch.hpp::DepthFirstSearch::setup"]}
{"id": "C09", "title": "Combinational fan-out/fan-in cones are exactly combinational reachability", "statement": "getCombFanOut(n) returns, without duplicates and starting with n, exactly the nodes reachable from n by enabled edges whose targets are not State; getCombFanIn(n) exactly the nodes that reach n by enabled edges whose sources are not State.", "quantifier": "every netlist graph, every start node", "why_tests_cant": "Exactness (nothing missed, nothing extra) over all graphs.", "anchors": ["source/NetlistGraph.cpp::NetlistGraph::getCombFanOut", "source/NetlistGraph.cpp::NetlistGraph::getCombFanIn"]}
{"id": "C10", "title": "Fan-out and fan-in are dual", "statement": "For non-State nodes a and b: b is in getCombFanOut(a) iff a is in getCombFanIn(b). (For State end points the two queries treat registers differently; the exact relation is stated.)", "quantifier": "every netlist graph, every pair of nodes", "why_tests_cant": "Duality relates two separately coded traversals over all graphs.", "anchors": ["source/NetlistGraph.cpp::NetlistGraph::getCombFanOut", "source/NetlistGraph.cpp::NetlistGraph::getCombFanIn", "include/netlist/DirectedGraph.hpp::Node::getInEdges"]}
{"id": "C11", "title": "A returned path is a real path", "statement": "If PathFinder::find(s,e) returns a non-empty path then it starts at s, ends at e, visits no node twice and every consecutive pair is joined by an edge of the graph (so reportPath's 'edge between nodes not found' assertion cannot fire); buildPath terminates and never walks past the map.", "quantifier": "every graph, every pair of nodes", "why_tests_cant": "The path is reconstructed from a parent map filled by a traversal; correctness is an invariant of all traversals.", "anchors": ["source/PathFinder.cpp::PathFinder::find", "source/PathFinder.cpp::buildPath", "tools/driver/driver.cpp::reportPath"]}
{"id": "C12", "title": "A path is found whenever one exists", "statement": "PathFinder::find(s,e) returns a non-empty path whenever e is reachable from s by one or more edges (the user-guide's connectivity check); it is empty otherwise.", "quantifier": "every graph, every pair of nodes including s = e", "why_tests_cant": "Existence over all graphs; tests check a few designs, none with s = e on a loop.", "anchors": ["source/PathFinder.cpp::PathFinder::find", "source/PathFinder.cpp::buildPath"]}
{"id": "C13", "title": "findComb never passes through a register and finds a combinational path when one exists", "statement": "A non-empty findComb(s,e) is a real path in which no node after s is a State node; it is non-empty iff e (distinct from s) is reachable from s through non-State nodes.", "quantifier": "every graph, every pair of nodes", "why_tests_cant": "Universal over graphs and register placements.", "anchors": ["source/PathFinder.cpp::PathFinder::findComb", "source/PathFinder.cpp::CombEdgePredicate"]}
{"id": "C14", "title": "Every reported combinational loop is a real, simple, canonical loop", "statement": "Each loop from CombLoops::getAllLoops() is a closed walk over combinational edges, repeats no node, starts at its lowest ID, and no loop is reported twice; the list is sorted.", "quantifier": "every netlist graph with distinct node IDs", "why_tests_cant": "Loop soundness is an invariant of a recursive search over all graphs.", "anchors": ["source/CycleDetector.hpp::CycleDetector::detectCycles", "source/CycleDetector.hpp::CycleDetector::dfs", "source/CombLoops.cpp::CombLoops::getAllLoops"]}
{"id": "C15", "title": "Combinational loop detection is complete: no loop means no loop", "statement": "getAllLoops() is empty iff the graph has no combinational cycle, and every node that lies on some combinational cycle lies on at least one reported loop.", "quantifier": "every netlist graph", "why_tests_cant": "'No combinational loops detected' is a claim about every cycle of the graph; a pruned search could miss some.", "anchors": ["source/CycleDetector.hpp::CycleDetector::detectCycles", "source/CycleDetector.hpp::CycleDetector::dfs"]}
{"id": "C16", "title": "All elementary combinational loops are reported", "statement": "getAllLoops() (documented as returning all loops) contains every elementary combinational cycle of the graph up to rotation.", "quantifier": "every netlist graph", "why_tests_cant": "Needs enumeration of all elementary cycles of all graphs.", "anchors": ["include/netlist/CombLoops.hpp::CombLoops::getAllLoops", "source/CycleDetector.hpp::CycleDetector::dfs"]}
{"id": "C17", "title": "Named lookup by bit range is exact", "statement": "lookup(name, range) returns, in graph order, exactly the named nodes whose hierarchical path equals name and whose bounds overlap range; lookup(name) returns the first node with that path or null.", "quantifier": "every graph at the time the name index is built, every name and range, ranges in either orientation", "why_tests_cant": "Exactness over all graphs and ranges.", "anchors": ["source/NetlistGraph.cpp::NetlistGraph::lookup", "source/NetlistGraph.cpp::NetlistGraph::buildIndex"]}
{"id": "C18", "title": "Lookup reflects the current graph", "statement": "lookup(name) returns a node with that path whenever the graph currently contains one, and never returns a node that has been removed.", "quantifier": "every interleaving of addNode/removeNode/lookup calls", "why_tests_cant": "Requires a history in which a query precedes a mutation; tests query once after the build.", "anchors": ["source/NetlistGraph.cpp::NetlistGraph::buildIndex", "source/NetlistGraph.cpp::NetlistGraph::lookup"]}
{"id": "C19", "title": "getDrivers and getBitDrivers are per-bit exact and agree", "statement": "For a symbol name and range: node d drives bit b according to getBitDrivers iff d is the source of an edge annotated with that name whose bounds contain b, and b is in the query; results are clipped to the query, sorted by bit position, duplicate free; the set of nodes in getBitDrivers equals the set returned by getDrivers.", "quantifier": "every graph, every name, every range, every bit", "why_tests_cant": "Per-bit equivalence of two separately coded queries on all graphs.", "anchors": ["source/NetlistGraph.cpp::NetlistGraph::getDrivers", "source/NetlistGraph.cpp::NetlistGraph::getBitDrivers"]}
{"id": "C20", "title": "Sensitivity is exactly the clocking edges of the registers concerned", "statement": "getSensitivity(n) for a State node returns exactly the (source, edge kind) pairs of its enabled in-edges with edge kind other than None, without duplicates; for any other node the union over every State node one enabled edge away from its combinational fan-out cone.", "quantifier": "every graph, every node", "why_tests_cant": "Exactness over all graphs.", "anchors": ["source/NetlistGraph.cpp::NetlistGraph::getSensitivity"]}
{"id": "C21", "title": "Constant drivers are reported only for tied-off sinks", "statement": "getConstantDrivers(n) is non-empty only if no State node and no undriven input port reaches n combinationally, in which case it returns exactly the Constant nodes in the fan-in.", "quantifier": "every graph, every sink", "why_tests_cant": "A sink fed by both a register and a constant must be excluded in every graph.", "anchors": ["source/NetlistGraph.cpp::NetlistGraph::getConstantDrivers", "include/netlist/NetlistGraph.hpp::getConstantDrivers"]}
{"id": "C22", "title": "Black-box coverage query is exact and order-independent", "statement": "getBlackBoxCoverage(node) is Contained iff the node's path equals a recorded black-box path or lies below one without being a Port directly below it, Boundary iff it is not Contained and is a Port directly below some recorded path, Outside otherwise; the answer does not depend on the order in which black boxes were recorded.", "quantifier": "every list of recorded black-box paths, every node", "why_tests_cant": "All path sets and orders; segment boundary pitfalls.", "anchors": ["source/NetlistGraph.cpp::NetlistGraph::getBlackBoxCoverage"]}
{"id": "C23", "title": "Glob matching equals its documented pattern language", "statement": "wildcardMatch(text, pattern) is true iff text is in the language denoted by the documented syntax: `*` any dot-free run, `?` one non-dot character, `**`/`...` any run with adjacent dots acting as optional segment boundaries, everything else literal; `**` and `...` are interchangeable; matching terminates.", "quantifier": "every text and every pattern", "why_tests_cant": "Infinite language equivalence with backtracking.", "anchors": ["include/common/Wildcard.hpp::wildcardMatch"]}
{"id": "C24", "title": "Scope filtering is segment-aware prefix containment", "statement": "pathInScope(p, s) holds iff p = s or p starts with s followed by '.'; it is reflexive and transitive; it agrees with the glob s.** for wildcard-free s.", "quantifier": "every pair of strings", "why_tests_cant": "Universal over strings.", "anchors": ["include/common/Wildcard.hpp::pathInScope", "tools/driver/driver.cpp::passesFilters"]}
{"id": "C25", "title": "The CLI name/range parser inverts the range printer", "statement": "Parsing path ++ toString(range) with parseNameAndRange yields the path and the same bit range, for every path and 32-bit range; strings that do not end in a well-formed bracketed range are returned whole.", "quantifier": "every path string and every int32 range", "why_tests_cant": "Round trip over all 2^64 ranges and all strings.", "anchors": ["tools/driver/driver.cpp::parseNameAndRange", "include/netlist/DriverBitRange.hpp::toString"]}
{"id": "C26", "title": "Bit-range operations have their set meaning", "statement": "For DriverBitRange: intersection denotes the set intersection (nullopt iff disjoint), unionWith of contiguous or overlapping ranges denotes exactly the set union, isContiguousWith holds iff the union of the two bit sets has no gap, and none of these operations overflows int32 arithmetic.", "quantifier": "every pair of int32 ranges in either orientation", "why_tests_cant": "2^128 pairs, including the INT32_MAX sentinel used by the whole-signal query.", "anchors": ["include/netlist/DriverBitRange.hpp::isContiguousWith", "include/netlist/DriverBitRange.hpp::unionWith", "include/netlist/DriverBitRange.hpp::intersection"]}
{"id": "C27", "title": "Edge annotations are never lost when dependencies are added", "statement": "After any sequence of addDependency calls, for every call (source, target, symbol, bounds) some edge source->target is annotated with that symbol and covers those bounds.", "quantifier": "every sequence of addDependency calls", "why_tests_cant": "Loss requires specific repeated (source,target) pairs with different symbols or gaps; unbounded sequences.", "anchors": ["source/NetlistBuilder.cpp::NetlistBuilder::addDependency", "include/netlist/NetlistEdge.hpp::NetlistEdge::setVariable"]}
{"id": "C28", "title": "Interval difference is exact", "statement": "IntervalMapUtils::difference(a,b) covers a bit iff a covers it and b does not.", "quantifier": "every pair of interval maps", "why_tests_cant": "All interval configurations, in particular single-bit intervals at the end of a range.", "anchors": ["source/IntervalMapUtils.hpp::IntervalMapUtils::difference", "source/IntervalMapUtils.hpp::IntervalMapUtils::subtractSingle"]}
{"id": "C29", "title": "ExternalManager handles behave like a heap", "statement": "A handle returned by allocate is valid and distinct from every other live handle, reads back its own object until erased, and is unaffected by operations on other handles; erase then allocate may reuse it; clones are independent.", "quantifier": "every sequence of allocate/erase/get/clone", "why_tests_cant": "Unbounded histories of reuse through the free list.", "anchors": ["source/ExternalManager.hpp::ExternalManager::allocate", "source/ExternalManager.hpp::ExternalManager::erase", "source/ExternalManager.hpp::ExternalManager::valid"]}
{"id": "C30", "title": "Driver intervals stay disjoint and cover exactly what was driven", "statement": "After any sequence of addDrivers calls (merging or replacing) the stored intervals of a symbol are well formed and pairwise disjoint, and a bit is covered iff some call drove it; the interval-map insertion precondition left <= right is never violated.", "quantifier": "every sequence of addDrivers calls with arbitrary ranges", "why_tests_cant": "The case analysis in addDrivers has nine overlap shapes per step; sequences compose them without bound.", "anchors": ["source/ValueTracker.cpp::ValueTracker::addDrivers"]}
{"id": "C31", "title": "Each bit reports exactly its current drivers", "statement": "After any sequence of addDrivers calls, the drivers recorded for a bit are those of the last replacing call covering that bit together with all later merging calls covering it, and nothing else.", "quantifier": "every sequence of addDrivers calls, every bit", "why_tests_cant": "Aliasing of driver-list handles after a split needs particular three-step histories.", "anchors": ["source/ValueTracker.cpp::ValueTracker::addDrivers", "source/DriverMap.hpp::DriverMap"]}
{"id": "C32", "title": "Merging never loses a driver", "statement": "In a history of merging addDrivers calls only, every driver ever added for a bit is still reported for that bit, and no handle is dangling.", "quantifier": "every merge-only sequence, every bit", "why_tests_cant": "Unbounded histories.", "anchors": ["source/ValueTracker.cpp::ValueTracker::addDrivers"]}
{"id": "C33", "title": "Driver lookup returns every driver of the queried bits", "statement": "getDrivers(symbol, range) returns every driver recorded for at least one bit of range and no driver of bits outside range only.", "quantifier": "every tracker state, every range", "why_tests_cant": "Ranges that straddle stored intervals in every possible way.", "anchors": ["source/ValueTracker.cpp::ValueTracker::getDrivers"]}
{"id": "C34", "title": "Symbol slots are unique and stable under concurrency", "statement": "For every interleaving of concurrent addDrivers calls, each symbol gets exactly one slot, distinct symbols get distinct slots, and every slot index used is inside the resized vector.", "quantifier": "every number of threads and interleaving", "why_tests_cant": "Double-checked locking errors show up only in rare interleavings.", "anchors": ["source/ValueTracker.cpp::ValueTracker::addDrivers", "source/ValueTracker.hpp::ValueTracker"]}
{"id": "C35", "title": "A bit-slice list tiles its expression", "statement": "BitSliceList::build(e) yields slices of non-zero width that are contiguous, start at 0 and end at the width of e, for every nesting of concatenation, replication, conversion and conditional, whatever the cut hints.", "quantifier": "every expression tree, every cut set", "why_tests_cant": "Unbounded expression nesting.", "anchors": ["source/BitSliceList.cpp::BitSliceList::build", "source/BitSliceList.cpp::BitSliceList::buildInto", "source/BitSliceList.cpp::BitSliceList::pushLsp"]}
{"id": "C36", "title": "Bit provenance of a slice list is correct", "statement": "For every bit k of an expression the slice covering k attributes it to exactly the bits of the operands that produce bit k under SystemVerilog concatenation/replication/extension/conditional semantics (plus the condition), or to an opaque sub-expression containing them.", "quantifier": "every expression tree built from the structural operators, every bit", "why_tests_cant": "Offsets compose through arbitrary nesting.", "anchors": ["source/BitSliceList.cpp::BitSliceList::buildInto", "source/BitSliceList.cpp::BitSliceList::pushLsp", "source/BitSlice.hpp::BitSliceSource"]}
{"id": "C37", "title": "Segment alignment is a common refinement", "statement": "alignSegments(lhs, rhs) partitions [0,width) into non-empty consecutive segments, each inside exactly one slice of each side, and is the coarsest such partition.", "quantifier": "every pair of tiled slice lists of equal width", "why_tests_cant": "All pairs of partitions.", "anchors": ["source/BitSliceList.cpp::BitSliceList::alignSegments", "source/BitSliceList.cpp::BitSliceList::findSliceContaining"]}
{"id": "C38", "title": "Bit-aligned assignment edges are exactly the bit-level flow", "statement": "For an assignment lhs = rhs with structural operands of equal width, lhs variable bit i is recorded as depending on rhs variable bit j iff some position k carries j on the right and i on the left; no cross-bit dependency is introduced and none missed.", "quantifier": "every pair of structural lhs/rhs expressions of equal width", "why_tests_cant": "Unbounded expression pairs.", "anchors": ["source/DataFlowAnalysis.cpp::DataFlowAnalysis::handle", "source/DataFlowAnalysis.cpp::driveLhsLspSegment", "source/DataFlowAnalysis.cpp::driveRhsLspSegment"]}
{"id": "C39", "title": "Cut hints only refine", "statement": "Supplying cut hints changes neither the tiling nor the provenance of any bit of a slice list; it only adds boundaries, and every hinted cut strictly inside an LSP's range becomes a boundary.", "quantifier": "every expression, every cut registry", "why_tests_cant": "All cut positions.", "anchors": ["source/BitSliceList.cpp::BitSliceList::pushLsp", "source/CutRegistry.hpp::CutRegistry::addCuts"]}
{"id": "C40", "title": "Sign and zero extension are attributed correctly", "statement": "Widening conversion of an expression attributes the added high bits to padding (signed) or to a constant zero (unsigned) and leaves the low bits' provenance unchanged; narrowing becomes opaque.", "quantifier": "every operand width and target width, signed and unsigned", "why_tests_cant": "All width pairs.", "anchors": ["source/BitSliceList.cpp::BitSliceList::buildInto"]}
{"id": "C41", "title": "Serialise/deserialise round-trips the graph", "statement": "deserialize(serialize(g)) yields a graph isomorphic to g: same nodes in order with equal attributes, the same edges with equal kind, symbol, bounds and disabled flag, the same file table and black boxes; in particular the same number of edges.", "quantifier": "every netlist graph, parallel edges included", "why_tests_cant": "Round trip over all graphs; parallel edges only arise from particular designs.", "anchors": ["source/NetlistSerializer.cpp::NetlistSerializer::serialize", "source/NetlistSerializer.cpp::NetlistSerializer::deserialize"]}
{"id": "C42", "title": "Loading rejects malformed input instead of building a wrong graph", "statement": "deserialize succeeds only on documents with the right version, known kind/direction/edge-kind strings and edges whose end points exist; every string codec is a bijection on its enumerators.", "quantifier": "every JSON document", "why_tests_cant": "All malformed documents.", "anchors": ["source/NetlistSerializer.cpp::NetlistSerializer::deserialize", "source/NetlistSerializer.cpp::nodeKindFromString"]}
{"id": "C43", "title": "File table interning is linearizable", "statement": "For every interleaving of concurrent addFile calls, no filename is stored twice, each call returns an index i with getFilename(i) equal to its argument, and indices never change afterwards.", "quantifier": "every number of threads, every interleaving of the lock regions, fewer than 2^32-1 distinct names", "why_tests_cant": "Double-checked locking bugs need specific interleavings.", "anchors": ["include/netlist/TextLocation.hpp::FileTable::addFile", "include/netlist/TextLocation.hpp::FileTable::getFilename"]}
{"id": "C44", "title": "Symbol interning is linearizable and keyed by hierarchical path", "statement": "For every interleaving of concurrent intern calls exactly one SymbolReference exists per path and all callers with that path receive it, at a stable address.", "quantifier": "every number of threads, every interleaving", "why_tests_cant": "As above.", "anchors": ["include/netlist/SymbolReference.hpp::SymbolTable::intern"]}
{"id": "C45", "title": "Draining deferred work is schedule-independent", "statement": "The sequence of pending R-values after the drain phase is the concatenation of each block's own sequence in block order, whatever order and thread the blocks were executed in.", "quantifier": "every assignment of blocks to threads and completion order", "why_tests_cant": "All schedules.", "anchors": ["source/PendingRvalueQueue.cpp::PendingRvalueQueue::drain", "source/BuildPipeline.cpp"]}
{"id": "C46", "title": "Parallel R-value resolution partitions the work", "statement": "resolveParallel splits the pending R-values into runs such that every pending item with a node belongs to exactly one run, all items of one target node are in the same run, and two different runs never touch the same target's in-edges or the same edge.", "quantifier": "every list of pending items", "why_tests_cant": "All lists and key collisions, with an unstable sort.", "anchors": ["source/PendingRvalueQueue.cpp::PendingRvalueQueue::resolveParallel"]}
{"id": "C47", "title": "Parallel and sequential resolution build the same dependency graph", "statement": "resolveParallel and resolveSequential produce the same set of (source,target) edges with the same annotations.", "quantifier": "every list of pending items, every order within a run and every interleaving of runs", "why_tests_cant": "Order-dependent merging of annotations needs specific collisions.", "anchors": ["source/PendingRvalueQueue.cpp::PendingRvalueQueue::resolveParallel", "source/PendingRvalueQueue.cpp::PendingRvalueQueue::resolveSequential", "source/PendingRvalueQueue.cpp::emitEdgesFor"]}
{"id": "C48", "title": "Every bit of an R-value is accounted for", "statement": "When a block reads bits of a symbol, every bit with a definition earlier in the block gets a dependency on that definition's node and every other bit is queued as a pending R-value; no bit is dropped and none is handled twice.", "quantifier": "every analysis state, every read range", "why_tests_cant": "All partial overlaps between the read and the definitions.", "anchors": ["source/DataFlowAnalysis.cpp::DataFlowAnalysis::handleRvalue"]}
{"id": "C49", "title": "Branch joins keep the definitions of both branches", "statement": "After an if/else join, the drivers of every bit are the union of the drivers from both branches, the current control node is a merge of both branch nodes (or the common node), and neither branch's information is lost; an unreachable branch contributes nothing.", "quantifier": "every pair of branch states", "why_tests_cant": "All pairs of states, in particular identical branch nodes.", "anchors": ["source/DataFlowAnalysis.cpp::DataFlowAnalysis::mergeStates", "source/DataFlowAnalysis.cpp::DataFlowAnalysis::joinState", "source/NetlistBuilder.cpp::NetlistBuilder::merge"]}
{"id": "C50", "title": "Blocking assignments take effect immediately, non-blocking ones at the end", "statement": "In a procedural block a read sees earlier blocking writes to the same bits and never sees non-blocking writes of the same block; at the end of the block the last write to each bit wins.", "quantifier": "every straight-line block over arbitrary ranges", "why_tests_cant": "All statement sequences.", "anchors": ["source/DataFlowAnalysis.cpp::DataFlowAnalysis::handleLvalue", "source/DataFlowAnalysis.cpp::DataFlowAnalysis::finalize"]}
{"id": "C51", "title": "Clocked blocks are recognised exactly", "statement": "collectSensitivity classifies a block as sequential iff its timing control consists only of edge events (posedge/negedge/edge), and then lists exactly the edge-sensitive signals with their kinds.", "quantifier": "every timing-control tree", "why_tests_cant": "All event-control nestings.", "anchors": ["source/NetlistBuilder.cpp::NetlistBuilder::collectSensitivity"]}
{"id": "C52", "title": "Every driven output bit is hooked to its port node", "statement": "For every driver recorded for an output port's internal symbol, each driven bit that belongs to a port node gets an edge from the driver to that node.", "quantifier": "every set of port nodes partitioning the port and every driver interval", "why_tests_cant": "All combinations of port cuts and driver intervals.", "anchors": ["source/NetlistBuilder.cpp::NetlistBuilder::hookupOutputPort", "source/VariableTracker.hpp::VariableTracker::lookup"]}
{"id": "C53", "title": "Port nodes partition the port", "statement": "materializePortNodes creates port nodes whose bounds are exactly the driver ranges split at the recorded cuts: pairwise disjoint when the ranges are, covering the same bits, none crossing a cut.", "quantifier": "every list of ranges and every cut set", "why_tests_cant": "All cut/range combinations.", "anchors": ["source/PortConnectionHandler.cpp::PortConnectionHandler::materializePortNodes"]}
{"id": "C54", "title": "The cut registry holds a sorted set of interior cuts", "statement": "After any sequence of addCuts calls cutsFor(symbol) is strictly increasing, contains exactly the cuts ever added that lie strictly inside the symbol's width, and is independent of call order.", "quantifier": "every sequence of addCuts calls", "why_tests_cant": "All sequences.", "anchors": ["source/CutRegistry.hpp::CutRegistry::addCuts", "source/CutRegistry.hpp::CutRegistry::cutsFor"]}
{"id": "C55", "title": "Constant slices carry the right bits", "statement": "For a constant split into segments, the value of the Constant node created for a segment equals the corresponding bit slice, and concatenating the segments gives back the constant.", "quantifier": "every constant value and every segmentation", "why_tests_cant": "All values and splits.", "anchors": ["source/NodeFactory.cpp::NodeFactory::createConstantForSegment"]}
{"id": "C56", "title": "Merge nodes and drivers of sequential blocks become registers", "statement": "mergeDrivers adds, for each procedurally driven range in a clocked block, one State node receiving every driver and every clock edge, and the register becomes the sole driver seen by readers; for combinational blocks the drivers themselves are recorded.", "quantifier": "every driver set, every sensitivity list", "why_tests_cant": "All driver interval configurations.", "anchors": ["source/NetlistBuilder.cpp::NetlistBuilder::mergeDrivers"]}
{"id": "C57", "title": "Non-canonical instances map symbols consistently", "statement": "CanonicalBodyResolver maps a symbol of a non-canonical instance body to the symbol at the same structural position of the canonical body, is the identity on canonical symbols, and memoisation does not change results.", "quantifier": "every pair of structurally identical scope trees, every query order", "why_tests_cant": "All trees and query histories.", "anchors": ["source/CanonicalBodyResolver.cpp::CanonicalBodyResolver::getCanonicalValueSymbol", "source/CanonicalBodyResolver.cpp::CanonicalBodyResolver::getCanonicalBody", "source/CanonicalBodyResolver.cpp::CanonicalBodyResolver::populatePairedBodies"]}
{"id": "C58", "title": "DOT output is a faithful induced subgraph", "statement": "NetlistDot::render writes one node statement per in-scope node and one edge statement per enabled edge with both ends in scope, in graph order, and nothing else.", "quantifier": "every graph, every scope set", "why_tests_cant": "All graphs and scopes.", "anchors": ["include/netlist/NetlistDot.hpp::NetlistDot::render"]}
{"id": "C59", "title": "Tables are aligned and lossless", "statement": "formatTable prints header and rows so that each column starts at the same offset on all lines, is as wide as its widest cell, and no cell text is truncated.", "quantifier": "every table whose rows have the header's arity", "why_tests_cant": "All tables.", "anchors": ["include/common/Utilities.hpp::Utilities::formatTable"]}
{"id": "C60", "title": "Path reporting never reaches undefined behaviour", "statement": "For every path returned by find/findComb/getAllLoops, reportPath terminates normally: the edge lookup succeeds, the port switch never hits SLANG_UNREACHABLE, and size()-1 does not underflow.", "quantifier": "every netlist graph and every path the tool can produce", "why_tests_cant": "Inout ports on a reported path are not covered by tests.", "anchors": ["tools/driver/driver.cpp::reportPath", "tools/driver/driver.cpp::reportNodeText", "include/netlist/NetlistNode.hpp::Port"]}
{"id": "C61", "title": "Task statistics are consistent", "statement": "recordTaskStats reports min <= median <= max, min <= mean <= max and total = sum of the task times for a non-empty set of tasks.", "quantifier": "every non-empty list of task times", "why_tests_cant": "All lists; off-by-one in the median index.", "anchors": ["source/BuildPipeline.cpp::recordTaskStats"]}
{"id": "C62", "title": "Black-boxed instances expose only their boundary", "statement": "If an instance matches a black-box pattern by definition name or hierarchical path, no node below its boundary is created while its ports still are; instances not matched are traversed.", "quantifier": "every instance tree, every pattern list", "why_tests_cant": "All hierarchies and globs.", "anchors": ["source/NetlistBuilder.cpp::NetlistBuilder::isBlackBoxInstance", "source/NetlistBuilder.cpp::NetlistBuilder::handle"]}
{"id": "C63", "title": "Variable tracker lookup is exact", "statement": "lookup(symbol, bounds) returns the node inserted with exactly those bounds, else null; lookup(symbol) returns every inserted node once, in bit order.", "quantifier": "every insertion history with disjoint ranges", "why_tests_cant": "All histories.", "anchors": ["source/VariableTracker.hpp::VariableTracker"]}
{"id": "C64", "title": "CLI endpoint aliasing selects the documented query", "statement": "For every combination of --from/--to/--fan-out/--fan-in the driver runs the documented query: a lone --from acts as --fan-out, a lone --to as --fan-in, explicit cone flags win, both endpoints give a path query.", "quantifier": "every combination of options", "why_tests_cant": "Interactions between options are combinatorial.", "anchors": ["tools/driver/driver.cpp::main"]}
{"id": "C65", "title": "Reads through a modport reach every driver of the bits read", "statement": "When a process reads bits of an interface member through a modport, an edge is added from every node that carries any of those bits, whatever part of the member the modport read covers.", "quantifier": "every set of modport nodes and every read range", "why_tests_cant": "Partial and overlapping ranges multiply; tests read whole members.", "anchors": ["source/NetlistBuilder.cpp::NetlistBuilder::addRvalue"]}
{"id": "C66", "title": "A select with a variable index depends on its index and on every bit it may read", "statement": "For an expression containing a select with a non-constant index, bit k is attributed to all variable bits its value can depend on, including the index, so no real dependency is missed.", "quantifier": "every expression and every bit", "why_tests_cant": "Needs all index values and all nestings; a missing edge is invisible unless looked for.", "anchors": ["source/BitSliceList.cpp::BitSliceList::pushLsp", "source/DataFlowAnalysis.cpp::DataFlowAnalysis::driveRhsLspSegment"]}
{"id": "C67", "title": "Recording a bit-aligned assignment never fails", "statement": "For every assignment between operands of equal width, aligning the two slice lists and noting each segment completes without dereferencing a null root symbol and without failing an assertion.", "quantifier": "every pair of operands of equal width", "why_tests_cant": "The failing operand shapes are unusual selects of non-variables.", "anchors": ["source/DataFlowAnalysis.cpp::DataFlowAnalysis::driveLhsLspSegment", "source/DataFlowAnalysis.cpp::DataFlowAnalysis::driveRhsLspSegment"]}
{"id": "C68", "title": "Resolving a pending R-value emits exactly the shared bits of each driver", "statement": "emitEdgesFor calls addDependency exactly for the drivers of each stretch of the pending range, annotated with exactly the bits the stretch and the range share; a register with exactly the range's bits is used instead of the drivers, and a null node emits nothing.", "quantifier": "every driver map, every variable tracker, every pending R-value", "why_tests_cant": "Interval splits and partial overlaps multiply.", "anchors": ["source/PendingRvalueQueue.cpp::PendingRvalueQueue::emitEdgesFor"]}
{"id": "C69", "title": "Phase 4 annotates exactly the bits that each source supplies to each target", "statement": "After resolving any queue, sequentially or in parallel, the bits annotated on the edges from a to b are those annotated before plus those that a supplies, as register or driver, to a pending R-value of b.", "quantifier": "every queue, driver map and starting graph; every schedule", "why_tests_cant": "Composes driver tracking, emission, annotation and concurrency over all histories.", "anchors": ["source/PendingRvalueQueue.cpp::PendingRvalueQueue::resolveSequential", "source/PendingRvalueQueue.cpp::PendingRvalueQueue::resolveParallel", "source/PendingRvalueQueue.cpp::PendingRvalueQueue::resolve"]}
{"id": "C70", "title": "Every statement of a branch depends on the branch's condition", "statement": "Every node that an assignment inside a branch of an if or case creates is reachable by control edges from the node of the condition, and no node outside the conditional has a control edge from the condition itself.", "quantifier": "every conditional or case statement and every body", "why_tests_cant": "Tests use one assignment per branch.", "anchors": ["source/DataFlowAnalysis.cpp::DataFlowAnalysis::updateNode", "source/DataFlowAnalysis.cpp::DataFlowAnalysis::handle"]}
{"id": "C71", "title": "A bit that some path leaves unwritten still depends on the value from outside the block", "statement": "If some path to a read has not written a bit that is read, the bit is queued as a pending R-value, so that the value held before the block (a latch or a feedback) remains a source.", "quantifier": "every structured block, every read, every path", "why_tests_cant": "Needs all combinations of paths; the missing edge is invisible in a golden file.", "anchors": ["source/DataFlowAnalysis.cpp::DataFlowAnalysis::handleRvalue", "source/DataFlowAnalysis.cpp::DataFlowAnalysis::mergeStates"]}
{"id": "C72", "title": "Non-blocking writes of every branch drive the variable", "statement": "Every non-blocking write that is the last one to a bit on some path is a driver of the bit at the end of the block.", "quantifier": "every structured block, every path", "why_tests_cant": "Golden files record whichever driver the code leaves.", "anchors": ["source/DataFlowAnalysis.cpp::DataFlowAnalysis::processNonBlockingLvalues", "source/DataFlowAnalysis.cpp::DataFlowAnalysis::addNonBlockingLvalue"]}
{"id": "C73", "title": "Reaching definitions of structured blocks", "statement": "The analysis finishes; its data edges are those from each definition that reaches a read on some path (when no write straddles an end of the read); bits no path has written are queued; the drivers at the end are the last non-blocking write in source order or else the last blocking writes over all paths.", "quantifier": "every block of assignments, sequences, conditionals and cases without constant conditions whose writes to a symbol have equal or disjoint ranges and whose blocking assignments do not read what they write", "why_tests_cant": "All programs and all paths.", "anchors": ["source/DataFlowAnalysis.cpp::DataFlowAnalysis::handle", "source/DataFlowAnalysis.cpp::DataFlowAnalysis::handleRvalue", "source/DataFlowAnalysis.cpp::DataFlowAnalysis::handleLvalue", "source/DataFlowAnalysis.cpp::DataFlowAnalysis::finalize"]}
{"id": "C74", "title": "Code that a constant condition excludes contributes nothing", "statement": "No driver, no data edge and no pending R-value comes from an assignment that a constant condition excludes.", "quantifier": "every structured block with constant conditions", "why_tests_cant": "All programs; tests use few constant conditions.", "anchors": ["source/DataFlowAnalysis.cpp::DataFlowAnalysis::handle", "source/DataFlowAnalysis.cpp::DataFlowAnalysis::noteReference", "source/DataFlowAnalysis.cpp::DataFlowAnalysis::driveLhsLspSegment"]}
{"id": "C75", "title": "Automatic variables are not tracked", "statement": "An automatic variable never has a driver, a data edge or a pending R-value, whichever way assignments are recorded.", "quantifier": "every block, both settings of resolveAssignBits", "why_tests_cant": "Each recording path needs its own test.", "anchors": ["source/DataFlowAnalysis.cpp::DataFlowAnalysis::noteReference", "source/DataFlowAnalysis.cpp::DataFlowAnalysis::driveLhsLspSegment", "source/DataFlowAnalysis.cpp::DataFlowAnalysis::driveRhsLspSegment"]}
{"id": "C76", "title": "Writes to interface members reach the interface nodes", "statement": "A write to bits of an interface variable, directly or through a modport, gets an edge to every variable node that carries one of the written bits.", "quantifier": "every modport reference, every set of variable nodes, every driver", "why_tests_cant": "Tests write whole members; a lost edge for a partial write leaves a golden file plausible.", "anchors": ["source/NetlistBuilder.cpp::NetlistBuilder::mergeDrivers", "source/NetlistBuilder.cpp::NetlistBuilder::resolveInterfaceRef", "source/VariableTracker.hpp::VariableTracker::lookup"]}
{"id": "C77", "title": "The formal side of a port connection names exactly the nodes of each bit", "statement": "The slice list built for a port covers it without gap or overlap; every slice names exactly the port nodes that carry its bits.", "quantifier": "every set of port nodes within the port, every width", "why_tests_cant": "Overlapping nodes of inout ports give grids no test enumerates.", "anchors": ["source/PortConnectionHandler.cpp::PortConnectionHandler::buildPortSliceList"]}
{"id": "C78", "title": "Port connections connect bit by bit", "statement": "For an integral connection of equal widths, the nodes of bit k of the port read (input) or drive (output) exactly the origins of bit k of the actual; input connections drive nothing, output connections read nothing.", "quantifier": "every set of port nodes, every connection expression", "why_tests_cant": "Composition of slices, alignment and segment mapping over all expressions.", "anchors": ["source/PortConnectionHandler.cpp::PortConnectionHandler::handlePortConnection", "source/PortConnectionHandler.cpp::PortConnectionHandler::drivePortSegment"]}
{"id": "C79", "title": "Cuts recorded from an actual are its slice boundaries", "statement": "The cuts recorded for the symbol behind a port are exactly the interior slice boundaries of the actual, so no port node straddles one.", "quantifier": "every list of connections, every registry, every connection expression", "why_tests_cant": "collectActualCuts re-implements the traversal of buildInto; agreement needs all expressions.", "anchors": ["source/PortConnectionHandler.cpp::collectActualCuts", "source/PortConnectionHandler.cpp::PortConnectionHandler::recordCutsFromPortConnections"]}
{"id": "C80", "title": "Port nodes follow the cut grid of the parent over a whole traversal", "statement": "After the collecting traversal with propCutsAcrossPorts, no node of a connected port straddles a slice boundary of its actual.", "quantifier": "every instance tree, every black-box list, every connection expression", "why_tests_cant": "Depends on the order in which cuts are recorded and ports materialised over whole hierarchies.", "anchors": ["source/NetlistBuilder.cpp::NetlistBuilder::handle", "source/PortConnectionHandler.cpp::PortConnectionHandler::recordCutsFromPortConnections", "source/PortConnectionHandler.cpp::PortConnectionHandler::materializePortNodes"]}
{"id": "C81", "title": "Per instance, cuts are recorded first and connections made last", "statement": "For every instance visited, recording its cuts precedes everything else done for it, and its connections are made after everything else done for it.", "quantifier": "every instance tree with distinct instances, every black-box list", "why_tests_cant": "A reordering only shows in hierarchies where the cut matters.", "anchors": ["source/NetlistBuilder.cpp::NetlistBuilder::handle"]}
{"id": "C82", "title": "DOT text reads back as the induced subgraph", "statement": "Read by the DOT grammar, the text written by NetlistDot::render denotes exactly the node and edge statements of the induced subgraph, whatever the names and constants are.", "quantifier": "every graph, every scope set, every name", "why_tests_cant": "Tests use plain identifiers; escaped identifiers with quotes or backslashes never occur.", "anchors": ["include/netlist/NetlistDot.hpp::NetlistDot::writeNode", "include/netlist/NetlistDot.hpp::NetlistDot::renderImpl"]}
{"id": "C83", "title": "Reported values belong to the edges the path takes", "statement": "Each value line between two nodes of a reported path comes from an enabled edge between them.", "quantifier": "every loaded or built netlist graph, every path the tool can produce", "why_tests_cant": "Parallel enabled and disabled edges only arise in particular netlists.", "anchors": ["tools/driver/driver.cpp::reportPath", "tools/driver/driver.cpp::reportEdgeText"]}
{"id": "C84", "title": "A flag switched off has no effect", "statement": "Passing a command flag as false (--report-registers=false, --comb-loops=false) is the same as not passing it.", "quantifier": "every combination of options, every netlist", "why_tests_cant": "Tests never pass a flag as false.", "anchors": ["tools/driver/driver.cpp::main"]}
{"id": "C85", "title": "Listing commands list exactly the nodes of the query that pass the filters", "statement": "--report-registers, --fan-out, --fan-in, --sensitivity, --constant-drivers and --drivers print one row per node of the specified set whose path passes --scope and --name, with its location, and nothing else; an unknown name is an error.", "quantifier": "every netlist, every name, every list of filters", "why_tests_cant": "Composition of lookup, traversal and filters over all graphs and options.", "anchors": ["tools/driver/driver.cpp::main"]}
{"id": "C86", "title": "Searches find exactly the nodes whose path matches", "statement": "--find and --find-regex list every named node whose path matches the pattern and passes the filters, once each, whatever the order of the hash map.", "quantifier": "every netlist, every pattern, every iteration order", "why_tests_cant": "All graphs, patterns and hash orders.", "anchors": ["source/NetlistGraph.cpp::NetlistGraph::findNodes", "source/NetlistGraph.cpp::NetlistGraph::findNodesRegex", "tools/driver/driver.cpp::main"]}
{"id": "C87", "title": "--drivers accepts the name of every node", "statement": "If a node of the netlist has hierarchical path x then --drivers x reports the drivers of x.", "quantifier": "every netlist, every name in it", "why_tests_cant": "Names ending like a bit range need escaped identifiers, which tests do not use.", "anchors": ["tools/driver/driver.cpp::main"]}
{"id": "C88", "title": "A queried name stands for all of its nodes", "statement": "--fan-out/--fan-in list the cones of all nodes that carry the name, and --from/--to finds a path whenever some node of the one name reaches some node of the other.", "quantifier": "every netlist, every name", "why_tests_cant": "Signals split into several nodes of one name only arise with bit-aligned resolution; tests query names with a single node.", "anchors": ["tools/driver/driver.cpp::main", "source/NetlistGraph.cpp::NetlistGraph::lookup"]}
{"id": "C89", "title": "JSON tables have the same cells as text tables", "statement": "In JSON form every row is an object with one member per column, keyed by the lower-cased header; keys are distinct and the values are the cells.", "quantifier": "every table the driver emits", "why_tests_cant": "All tables.", "anchors": ["tools/driver/driver.cpp::main"]}
{"id": "C90", "title": "Scoped DOT output is the cone or path selected", "statement": "--netlist-dot with a cone or path selector writes exactly the subgraph induced by the nodes of that cone or path, and the whole netlist without a selector.", "quantifier": "every netlist, every combination of selectors", "why_tests_cant": "Composition of selection, traversal and rendering.", "anchors": ["tools/driver/driver.cpp::main", "include/netlist/NetlistDot.hpp::NetlistDot::render"]}
{"id": "C91", "title": "The wildcard test of the report tool is exact", "statement": "A --scope value is treated as a pattern exactly when it contains *, ? or an ellipsis of three dots; for any other value, matching it as a pattern would be equality of names.", "quantifier": "every scope text, every path", "why_tests_cant": "All texts; the shortcut to lookupName is sound only if no pattern slips past the test.", "anchors": ["tools/report/report.cpp::hasGlobChar", "include/common/Wildcard.hpp::wildcardMatch"]}
{"id": "C92", "title": "Scope options select the symbols they name, each once, in order", "statement": "The symbols selected by the --scope options are the symbols named or matched by the options, in option order and declaration order, each once; at least one if any option is given.", "quantifier": "every symbol tree, every list of scope options", "why_tests_cant": "All symbol trees and option lists, including overlapping patterns.", "anchors": ["tools/report/report.cpp::collectGlobMatches", "tools/report/report.cpp::main"]}
{"id": "C93", "title": "A scope option is rejected only if nothing answers to it", "statement": "slang-report stops with an error about a --scope option only if no symbol has that name or matches that pattern.", "quantifier": "every symbol tree, every list of scope options", "why_tests_cant": "Needs overlapping options in a particular order, which tests do not combine.", "anchors": ["tools/report/report.cpp::main", "tools/report/report.cpp::collectGlobMatches"]}
{"id": "C94", "title": "A report lists each symbol once", "statement": "No port, variable or value is listed twice in a report.", "quantifier": "every symbol tree, every list of scope options", "why_tests_cant": "Needs scopes nested in one another, such as those a multi-level pattern selects.", "anchors": ["tools/report/report.cpp::main", "include/report/ReportVisitorBase.hpp::ReportVisitorBase::nameMatches"]}
{"id": "C95", "title": "A report lists exactly the ports, variables or values in the scopes that pass the name filter", "statement": "--ports, --variables and --drivers print the specified rows for each symbol of the kind in the selected scopes (the whole design if none) whose path passes --name, in declaration order, and nothing else.", "quantifier": "every symbol tree, every combination of scopes and name filters, both formats", "why_tests_cant": "Composition of scope selection, walk, filter and formatting over all trees and options.", "anchors": ["tools/report/report.cpp::main", "include/report/ReportPorts.hpp::ReportPorts::appendItemRows", "include/report/ReportVariables.hpp::ReportVariables::appendItemRows", "include/report/ReportDrivers.hpp::ReportDrivers::appendItemRows"]}
{"id": "C96", "title": "The table of a report is a function of its JSON form", "statement": "For the same options, the rows of the table can be computed from the JSON array alone: both formats carry the same data.", "quantifier": "every symbol tree, every combination of options", "why_tests_cant": "All reports; the two renderings are written separately.", "anchors": ["include/report/ReportVisitorBase.hpp::ReportVisitorBase::report", "include/report/ReportPorts.hpp::ReportPorts::emitJsonItem", "include/report/ReportVariables.hpp::ReportVariables::emitJsonItem", "include/report/ReportDrivers.hpp::ReportDrivers::emitJsonItem"]}
{"id": "C97", "title": "Every operand of an expression is recorded for the node that evaluates it", "statement": "When the analysis walks an expression, every variable it reads is recorded as read by the node that evaluates the expression.", "quantifier": "every expression built from references, operators, negation, &&, || and conditional expressions, from every analysis state built by driver writes", "why_tests_cant": "All nestings of conditional and short-circuit operators; tests read one operand at a time.", "anchors": ["source/DataFlowAnalysis.hpp::DataFlowAnalysis::handle", "source/DataFlowAnalysis.cpp::DataFlowAnalysis::mergeStates", "source/DataFlowAnalysis.cpp::DataFlowAnalysis::handleAssignmentLegacy", "source/DataFlowAnalysis.cpp::DataFlowAnalysis::joinState"]}
{"id": "C98", "title": "Both branches of an if statement are control dependent on its condition", "statement": "Every assignment that opens a branch of an if statement has a control edge from the node of the condition.", "quantifier": "every condition built from references, operators, negation, &&, || and conditional expressions, every pair of branches", "why_tests_cant": "All conditions; tests use a single variable.", "anchors": ["source/DataFlowAnalysis.cpp::DataFlowAnalysis::handle", "source/DataFlowAnalysis.cpp::DataFlowAnalysis::mergeStates", "source/DataFlowAnalysis.cpp::DataFlowAnalysis::updateNode"]}
{"id": "C99", "title": "Combinational fan-in covers functional dependence", "statement": "In the netlist built for a design, the value of every bit of every port is determined by the values of the input bits of the design whose port nodes are in the combinational fan-in cone of the port's node, whenever that cone is acyclic; building never fails and every driven bit of a port has a node.", "quantifier": "every design of ports, port connections and continuous assignments, with or without resolveAssignBits, with any recorded cuts; no sign extension where bits are passed through, no variable index on the left, cuts not inside a reference when bits are not resolved", "why_tests_cant": "All designs and all pairs of valuations; end-to-end composition of slicing, analysis, driver merge, port connection, phase 4 and the query.", "anchors": ["source/NetlistBuilder.cpp::NetlistBuilder::handle", "source/NetlistBuilder.cpp::NetlistBuilder::mergeDrivers", "source/DataFlowAnalysis.cpp::DataFlowAnalysis::handle", "source/PortConnectionHandler.cpp::PortConnectionHandler::handlePortConnection", "source/BuildPipeline.cpp::BuildPipeline::run", "source/NetlistGraph.cpp::NetlistGraph::getCombFanIn"]}
{"id": "C100", "title": "Fan-in covers functional dependence for signed operands and for every combination of options", "statement": "The statement of the previous property without its restrictions: also when a signed operand is extended by an assignment, and also when resolveAssignBits is switched off while propCutsAcrossPorts stays on.", "quantifier": "every design of ports, port connections and continuous assignments, every combination of the two options", "why_tests_cant": "Needs the combination of two independent options, or the sign bit of an extension, which tests do not query.", "anchors": ["source/BitSliceList.cpp::BitSliceList::build", "source/DataFlowAnalysis.cpp::DataFlowAnalysis::handle", "source/NetlistBuilder.cpp::NetlistBuilder::hookupOutputPort", "include/netlist/BuilderOptions.hpp::BuilderOptions"]}
{"id": "C101", "title": "Constant-driven sinks are listed exactly", "statement": "find_constant_driven_sinks lists, in text order, each path of a variable or output port node that has a constant in its combinational fan-in and no undriven port, once, with exactly the values of those constants, sorted and without repetition.", "quantifier": "every graph and every assignment of kinds, paths and constant values", "why_tests_cant": "All graphs; the result merges several nodes of one path.", "anchors": ["examples/constant_driven_sinks.py::find_constant_driven_sinks", "source/NetlistGraph.cpp::NetlistGraph::getConstantDrivers"]}
{"id": "C102", "title": "A listed sink is fed by constants only", "statement": "Every end point of the fan-in of a node whose path find_constant_driven_sinks lists is a literal constant.", "quantifier": "every graph", "why_tests_cant": "Needs a vector with one tied slice, or a register next to a constant.", "anchors": ["examples/constant_driven_sinks.py::find_constant_driven_sinks", "source/NetlistGraph.cpp::NetlistGraph::getConstantDrivers"]}
{"id": "C103", "title": "The clock-domain map is exact and its rows are sorted and counted", "statement": "clock_domain_map lists a register path under a clock and edge exactly if a register of that path has such an event, and under <unclocked> exactly if one has none; the rows are in the documented order, with the distinct names sorted and counted.", "quantifier": "every graph, every assignment of edge kinds, paths and names", "why_tests_cant": "All graphs and all mixtures of named and unnamed sources.", "anchors": ["examples/clock_domain_map.py::clock_domain_map", "examples/clock_domain_map.py::source_path", "source/NetlistGraph.cpp::NetlistGraph::getSensitivity"]}
{"id": "C104", "title": "Registers of one clock domain share a clock", "statement": "Any two registers in one row of the clock-domain map (other than <unclocked>) have a clock source node in common.", "quantifier": "every graph", "why_tests_cant": "Needs a clock vector whose bits are separate nodes of one path.", "anchors": ["examples/clock_domain_map.py::clock_domain_map", "examples/clock_domain_map.py::source_path"]}
{"id": "C105", "title": "Undriven input bits are merged exactly", "statement": "For each input port path that is not a port of the top module, find_undriven_bit_ranges gives ascending, non-adjacent ranges that hold exactly the bits of the nodes of that path without an in-edge; find_unconnected_inputs gives exactly these nodes.", "quantifier": "every graph, every top name, every set of slice bounds", "why_tests_cant": "All overlaps, orders and adjacencies of slices.", "anchors": ["examples/unconnected_inputs.py::find_undriven_bit_ranges", "examples/unconnected_inputs.py::find_unconnected_inputs"]}
{"id": "C106", "title": "Every undriven bit of an instance input is listed", "statement": "If no edge into an input port node of an instance covers a bit of it, find_undriven_bit_ranges lists the bit.", "quantifier": "every graph", "why_tests_cant": "Needs an input connected to a signal that is assigned in part without a split of the port.", "anchors": ["examples/unconnected_inputs.py::find_undriven_bit_ranges", "include/netlist/NetlistNode.hpp::Port::isDriven"]}
{"id": "C107", "title": "A driver row lists every driver of the bits once", "statement": "driver_row labels the bits and joins the texts of exactly the nodes with an edge annotated with the signal that covers one of the bits, sorted and without repetition, or says that there are none.", "quantifier": "every graph, signal and bit range", "why_tests_cant": "All graphs and ranges; repeated texts of different nodes.", "anchors": ["examples/driver_lookup.py::driver_row", "examples/driver_lookup.py::describe", "source/NetlistGraph.cpp::NetlistGraph::getDrivers"]}
{"id": "C108", "title": "path_exists decides connectivity of two names", "statement": "path_exists answers True exactly if a node of the source name reaches a node of the sink name, and raises ValueError exactly for a name without a node.", "quantifier": "every graph, every pair of names", "why_tests_cant": "Needs a name of several nodes, or a name that feeds itself.", "anchors": ["examples/connectivity_check.py::Connectivity::path_exists", "source/NetlistGraph.cpp::NetlistGraph::lookup", "source/PathFinder.cpp::PathFinder::find"]}
{"id": "C109", "title": "Access to a path from Python is defined and gives its nodes", "statement": "front, back and indexing of a path found by PathFinder give its first, last and i-th node; size, iteration, add and reverse agree with them.", "quantifier": "every path, every index, every graph and pair of end points", "why_tests_cant": "Undefined behaviour on the empty path does not show up reliably in a run.", "anchors": ["bindings/python/pyslang_netlist.cpp::PYBIND11_MODULE", "include/netlist/NetlistPath.hpp::NetlistPath"]}
{"id": "C110", "title": "Every edge of the netlist is accounted for by the source", "statement": "In the netlist built for a design, every node stands for bits of a port, for a piece of an assignment or for a constant of it; every edge that is not cut goes from a piece that writes a bit to a piece that reads that bit, or from a constant to the piece that contains it; so every port in a combinational fan-in cone is connected through the source to the port queried.", "quantifier": "every design of ports, port connections and continuous assignments in which every bit has one driver, with or without resolveAssignBits, with any recorded cuts", "why_tests_cant": "Absence of spurious edges over all designs; tests check that expected paths exist and a few that do not.", "anchors": ["source/NetlistBuilder.cpp::NetlistBuilder::mergeDrivers", "source/PendingRvalueQueue.cpp::PendingRvalueQueue::emitEdgesFor", "source/DataFlowAnalysis.cpp::DataFlowAnalysis::handleLvalue", "source/PortConnectionHandler.cpp::PortConnectionHandler::handlePortConnection", "source/BuildPipeline.cpp::BuildPipeline::run", "source/NetlistGraph.cpp::NetlistGraph::getCombFanIn"]}
{"id": "C111", "title": "Fan-in cones hold only connected ports also when a net has several drivers", "statement": "The statement of the previous property for designs in which a bit of a net may have more than one driver: every port in a combinational fan-in cone is connected through the source to the port queried.", "quantifier": "every design of ports, port connections and continuous assignments", "why_tests_cant": "Needs three overlapping drivers of one net, so that an interval that was split is later matched exactly.", "anchors": ["source/ValueTracker.cpp::ValueTracker::addDrivers", "source/NetlistBuilder.cpp::NetlistBuilder::mergeDrivers", "source/NetlistGraph.cpp::NetlistGraph::getCombFanIn"]}
{"id": "C112", "title": "The netlist has exactly the edges of the source", "statement": "In the netlist built for a design, a node other than a constant is connected to another exactly if it stands for a piece of the source that writes a bit which the other reads; a node has an edge from a constant exactly if its piece has a constant; every position of an assignment and every driven port bit has its node. So a node is in a combinational fan-in cone exactly if bits are passed from it to the node queried through a chain of such pieces.", "quantifier": "every design of ports, port connections and continuous assignments in which every bit has one driver, with or without resolveAssignBits, with any recorded cuts", "why_tests_cant": "Presence and absence of every edge over all designs.", "anchors": ["source/NetlistBuilder.cpp::NetlistBuilder::mergeDrivers", "source/PendingRvalueQueue.cpp::PendingRvalueQueue::emitEdgesFor", "source/DataFlowAnalysis.cpp::DataFlowAnalysis::handleLvalue", "source/PortConnectionHandler.cpp::PortConnectionHandler::handlePortConnection", "source/BuildPipeline.cpp::BuildPipeline::run", "source/NetlistGraph.cpp::NetlistGraph::getCombFanIn"]}
{"id": "C113", "title": "Building the netlist of a design succeeds", "statement": "For a design whose driven bits have indices below the largest 32-bit integer, every phase of the build completes: no node looked up is missing, no arithmetic on bit ranges overflows, and a netlist results.", "quantifier": "every design of ports, port connections and continuous assignments in which every bit has one driver and a small index", "why_tests_cant": "Totality over all designs; overflow needs extreme ranges.", "anchors": ["source/BuildPipeline.cpp::BuildPipeline::run", "source/NetlistBuilder.cpp::NetlistBuilder::addDependency", "include/netlist/NetlistEdge.hpp::NetlistEdge::setVariable"]}
{"id": "C114", "title": "Edges are annotated with exactly the bits passed along them", "statement": "In the netlist built for a design, an edge between two nodes is annotated with a bit of a variable exactly if the source node writes that bit and the target node reads it.", "quantifier": "every design of ports, port connections and continuous assignments in which every bit has one driver", "why_tests_cant": "Needs an instance output connected to a part of a wider variable whose bit range differs from that of the port.", "anchors": ["source/NetlistBuilder.cpp::NetlistBuilder::addDependency", "include/netlist/NetlistEdge.hpp::NetlistEdge::setVariable", "source/NetlistGraph.cpp::NetlistGraph::getBitDrivers"]}
{"id": "C115", "title": "Combinational fan-in covers functional dependence through combinational blocks", "statement": "In the netlist built for a design, if two settled valuations agree on the unconnected input ports in the combinational fan-in cone of a port node and on the bits that nothing drives, they agree on the bits of that node; the analysis of the blocks does not fail. A block settles when running it gives the bits it writes their values.", "quantifier": "every design of ports, port connections, continuous assignments and combinational blocks of blocking assignments and if and case statements, nested, with single statements as branches, no latches, reads after writes on all or no paths, and aligned ranges; every meaning of the operators, the conditions and the matches of case items; with or without resolveAssignBits, with any recorded cuts", "why_tests_cant": "All nestings of conditions and orders of writes; a missing edge in one merge of branches shows up only if a test has that shape.", "anchors": ["source/NetlistBuilder.cpp::NetlistBuilder::handleProceduralBlock", "source/DataFlowAnalysis.cpp::DataFlowAnalysis::handleRvalue", "source/DataFlowAnalysis.cpp::DataFlowAnalysis::handleLvalue", "source/DataFlowAnalysis.cpp::DataFlowAnalysis::joinState", "source/NetlistBuilder.cpp::NetlistBuilder::mergeDrivers", "source/PendingRvalueQueue.cpp::PendingRvalueQueue::emitEdgesFor", "source/NetlistGraph.cpp::NetlistGraph::getCombFanIn"]}
{"id": "C116", "title": "Combinational fan-in covers functional dependence for every combinational block", "statement": "The statement of the previous property with branches of several statements, with reads of ranges that overlap several writes, and with reads of variables that were written on some paths only.", "quantifier": "every design with such combinational blocks", "why_tests_cant": "Needs a condition that selects between values in the second statement of its branches, or a part select across two written parts.", "anchors": ["source/DataFlowAnalysis.cpp::DataFlowAnalysis::updateNode", "source/DataFlowAnalysis.cpp::DataFlowAnalysis::handleRvalue", "source/DataFlowAnalysis.cpp::DataFlowAnalysis::joinState"]}
{"id": "C117", "title": "Combinational fan-in covers what registers and outputs depend on", "statement": "In the netlist built for a design with clocked blocks, if two settled valuations agree on the unconnected input ports in the combinational fan-in cone of the State node of a register, on the registers whose State nodes have edges into the cone, on the register itself and on the bits that nothing drives, then the register takes the same value at the clock edge; for an output port in the same way the port has the same value. The analysis of the blocks does not fail, every bit that a clocked block assigns has a State node and every State node stands for such bits.", "quantifier": "every design of ports, port connections, continuous assignments, combinational blocks as before, and clocked blocks of non-blocking assignments and if and case statements in which all assignments to a bit but the last assign constants (as a reset does); registers read in the ranges in which they are written, or all registers agreeing; every meaning of the operators, the conditions and the matches of case items", "why_tests_cant": "All nestings of conditions in blocks of every shape; a register whose State node lacks one driver is found only by a test of that shape.", "anchors": ["source/NetlistBuilder.cpp::NetlistBuilder::handleProceduralBlock", "source/NetlistBuilder.cpp::NetlistBuilder::mergeDrivers", "source/DataFlowAnalysis.cpp::DataFlowAnalysis::finalize", "source/DataFlowAnalysis.cpp::DataFlowAnalysis::handleLvalue", "source/PendingRvalueQueue.cpp::PendingRvalueQueue::emitEdgesFor", "source/NetlistGraph.cpp::NetlistGraph::getCombFanIn"]}
{"id": "C118", "title": "Combinational fan-in covers what registers and outputs depend on, for every clocked block", "statement": "The statement of the previous property with registers assigned in several places of a block, and with reads of parts of registers.", "quantifier": "every design with such clocked blocks and reads", "why_tests_cant": "Needs a register with different sources in the branches of a condition, or a part select of a register.", "anchors": ["source/DataFlowAnalysis.cpp::DataFlowAnalysis::finalize", "source/DataFlowAnalysis.cpp::DataFlowAnalysis::handleLvalue", "source/PendingRvalueQueue.cpp::PendingRvalueQueue::emitEdgesFor"]}
{"id": "C119", "title": "Commands answer on a saved and loaded netlist as on the netlist itself", "statement": "A command run on the netlist that deserialize makes from the serialized netlist gives the table (up to the order of rows), the DOT text or the error it gives on the netlist itself; so does a run of the tool with --load-netlist after a run with --save-netlist.", "quantifier": "every netlist, every command that prints a table or DOT, all filters, every order of hash tables and addresses", "why_tests_cant": "Relates two runs over all graphs and commands; the loss shows up only with several edges between the same nodes.", "anchors": ["tools/driver/driver.cpp::main", "source/NetlistSerializer.cpp::NetlistSerializer::deserialize", "source/NetlistSerializer.cpp::NetlistSerializer::serialize"]}
{"id": "C120", "title": "A run that succeeds has done what its options ask for", "statement": "If the tool exits with 0 and neither help nor version is asked for, the netlist is in the file of --save-netlist if that is given, and the answer of the command is in the place the options name if a command is given.", "quantifier": "every combination of options, every result of the compiler and the file system", "why_tests_cant": "The space of option combinations; a request that is silently ignored looks like success.", "anchors": ["tools/driver/driver.cpp::main"]}
{"id": "C121", "title": "A failing run writes no file and no output, and exit codes are 1 or 2", "statement": "If the exit code is not 0, nothing was written to standard output or to a file; the code is 1 or 2, and 2 exactly if the run gets as far as building a netlist and the compiler rejects its options. Every file a run writes is named by --output, --save-netlist or --netlist-dot.", "quantifier": "every combination of options, every result of the compiler and the file system", "why_tests_cant": "Failures of each external step in combination with each option.", "anchors": ["tools/driver/driver.cpp::main"]}
{"id": "C122", "title": "With --format json standard output is one JSON document", "statement": "A tabular command with --format json that succeeds leaves one JSON document, or nothing, on standard output.", "quantifier": "every tabular command and combination of options", "why_tests_cant": "Needs the combination of --format json with --stats-json.", "anchors": ["tools/driver/driver.cpp::main"]}
{"id": "C123", "title": "A flag of the tool given the value false acts as if it was absent", "statement": "For --help, --version, --no-colours, --stats, --stats-json, --no-resolve-assign-bits and --no-prop-cuts-across-ports: a run in which the flag has the value false has the outcome of the run without the flag.", "quantifier": "every combination of options", "why_tests_cant": "Tests give flags without a value.", "anchors": ["tools/driver/driver.cpp::main"]}
{"id": "C124", "title": "If no combinational loop is reported, inputs and registers determine all values", "statement": "In the netlist built for a design, if detection of combinational loops returns no loop, then two settled valuations of the design that agree on the unconnected input ports, on the registers and on the bits that nothing drives agree on every bit of every variable, and every register takes the same value at the clock edge: the design is a synchronous machine.", "quantifier": "every design of ports, port connections, continuous assignments, combinational and clocked blocks as in C115 and C117; every meaning of the operators, the conditions and the matches of case items", "why_tests_cant": "A loop that is missed shows only in a design that has this loop and two solutions; the claim is about all designs and all pairs of valuations.", "anchors": ["source/CombLoops.cpp::CombLoops::getAllLoops", "source/CycleDetector.hpp::CycleDetector::detectCycles", "source/NetlistBuilder.cpp::NetlistBuilder::handleProceduralBlock", "source/PendingRvalueQueue.cpp::PendingRvalueQueue::emitEdgesFor"]}
{"id": "C125", "title": "An assignment drives every bit it may write, and depends on the index that decides which", "statement": "For an assignment whose target is made of constant selects, selects with a variable index and concatenations: for every value of the indices, each bit the assignment writes is among the bits its nodes are recorded to drive, and two valuations that agree on all bits the nodes are recorded to read put the bits in the same place. Without variable indices the bits driven are exactly the bits written.", "quantifier": "every target and right-hand side, every valuation", "why_tests_cant": "Tests look at a few targets; the claim relates the recorded ranges to where values land under every index value.", "anchors": ["source/DataFlowAnalysis.cpp::DataFlowAnalysis::driveLhsLspSegment", "source/DataFlowAnalysis.cpp::DataFlowAnalysis::handle", "source/DataFlowAnalysis.cpp::DataFlowAnalysis::handleAssignmentLegacy", "source/DataFlowAnalysis.hpp::DataFlowAnalysis::handle"]}
{"id": "C126", "title": "A force statement drives nothing and depends only on its right-hand side", "statement": "Handling a procedural force statement adds no definition and no non-blocking write for its target, and all bits it is recorded to read are read by its right-hand side, with and without resolved assignment bits.", "quantifier": "every analysis state, target and right-hand side, both settings of resolveAssignBits", "why_tests_cant": "The tests check a force statement in the default mode only.", "anchors": ["source/DataFlowAnalysis.cpp::DataFlowAnalysis::handle", "source/DataFlowAnalysis.cpp::DataFlowAnalysis::handleAssignmentLegacy"]}
{"id": "C127", "title": "Queries on a design give the same answers when the pending R-values are resolved by threads", "statement": "For a design that builds with sequential resolution: whatever the node addresses, the order std::sort gives to the items of one node, the split of the runs into blocks and the schedule of the threads, the netlist that parallel resolution leaves behind has the same nodes and the same enabled connections; the cones have the same members, a path (and a combinational path) exists between the same nodes, a loop is reported in the same cases and the same nodes are on loops. So the theorems of C117 and C124 about outputs, registers and synchronous designs hold for this netlist.", "quantifier": "every design of ports, port connections, continuous assignments and procedural blocks; every address order, split and interleaving of atomic steps", "why_tests_cant": "A test runs a few of the schedules; the order of the edges does differ between runs.", "anchors": ["source/PendingRvalueQueue.cpp::PendingRvalueQueue::resolveParallel", "source/PendingRvalueQueue.cpp::PendingRvalueQueue::resolveSequential", "source/PendingRvalueQueue.cpp::PendingRvalueQueue::emitEdgesFor"]}
{"id": "C128", "title": "A design for which no combinational loop is reported settles, and as a clocked machine has one run for each sequence of inputs", "statement": "If nothing in the design is driven twice and getAllLoops reports no loop for its netlist, then for every value of the inputs, the registers and what nothing drives there is exactly one valuation in which all assignments, connections and combinational blocks hold; and for every sequence of inputs and first state there is exactly one run. So a design that has no stable values for some input, or more than one, always has a loop reported.", "quantifier": "every design of ports, port connections, continuous assignments, combinational and clocked blocks in the class of C117; every valuation and every infinite sequence of inputs", "why_tests_cant": "The loop tests check that given loops are listed; that the absence of a report means anything for the values is a statement about all inputs of all designs.", "anchors": ["source/CombLoops.cpp::CombLoops::getAllLoops", "source/CycleDetector.hpp::CycleDetector::detectCycles", "source/NetlistBuilder.cpp::NetlistBuilder::handleProceduralBlock", "source/PendingRvalueQueue.cpp::PendingRvalueQueue::emitEdgesFor"]}
{"id": "C129", "title": "Every edge of the netlist of a design with procedural blocks, and every port in a fan-in cone, is accounted for by the source", "statement": "If every bit has one driver, each node of the netlist stands for a range of a port, a piece of an assignment, a constant, a block or a register of a clocked block, State nodes stand for exactly the registers, and every edge joins a piece that writes a bit to one that reads it, or stays within a block and its registers; so every port in the combinational fan-in cone of a port is connected to it in the source on a way that leaves no register.", "quantifier": "every design of ports, port connections, continuous assignments and blocks, combinational or clocked, with latches, blocking and non-blocking assignments, reads of what the block writes; ranges that one block writes are equal or apart", "why_tests_cant": "Tests look for expected paths in given designs; that no design gets an extra edge between blocks needs a statement about all of them.", "anchors": ["source/NetlistBuilder.cpp::NetlistBuilder::handleProceduralBlock", "source/NetlistBuilder.cpp::NetlistBuilder::mergeDrivers", "source/DataFlowAnalysis.cpp::DataFlowAnalysis::handleRvalue", "source/PendingRvalueQueue.cpp::PendingRvalueQueue::emitEdgesFor"]}
{"id": "C130", "title": "Several blocks may write parts of one variable without appearing in each other's cones", "statement": "C129 without the condition that two blocks write no common bit: what is in the fan-in cone of a port is connected to it in the source.", "quantifier": "as C129, with blocks that write overlapping ranges of a variable", "why_tests_cant": "The extra driver shows only after an interval of the driver map was split, which takes three blocks.", "anchors": ["source/NetlistBuilder.cpp::NetlistBuilder::mergeDrivers", "source/ValueTracker.cpp::ValueTracker::addDrivers"]}
{"id": "C131", "title": "The order in which continuous assignments and procedural blocks are found does not matter for what queries say", "statement": "Phase 2 handles the deferred blocks in the order in which the traversal has found them. For every order: a continuous assignment is handled as the always block that assigns the same; the build of the nodes does not fail and the State nodes stand for the registers; the inputs in the fan-in cone of an output port, and the registers that feed it, determine the output; the same for the next value of a register; and if no combinational loop is reported, the inputs and the registers determine every value and the design as a machine has exactly one run.", "quantifier": "every list of continuous assignments, combinational and clocked blocks in any order, in the class of C117; every valuation and sequence of inputs", "why_tests_cant": "Node numbers, the order of edges and the order of drivers change with the order of the blocks, so a test sees only one of the orders for each design.", "anchors": ["source/BuildPipeline.cpp::BuildPipeline::runPhase2Sequential", "source/BuildPipeline.cpp::BuildPipeline::deferBlock", "source/NetlistBuilder.cpp::NetlistBuilder::handleProceduralBlock", "source/NetlistBuilder.cpp::NetlistBuilder::handleContinuousAssign"]}
{"id": "C132", "title": "Building the netlist of a design with procedural blocks succeeds", "statement": "If every bit has one driver and bit indices fit int32_t, the build ends with a netlist: no assertion fails and no driver list handle is stale in the analysis of the blocks, in merging their drivers into the global map, in resolving what is read, or in adding the edges.", "quantifier": "every design of ports, port connections, continuous assignments and blocks in the class of C129: combinational or clocked, with latches, blocking and non-blocking assignments; ranges that one block writes are equal or apart", "why_tests_cant": "Assertions are compiled out of release builds and a test meets only the states of its own design.", "anchors": ["source/DataFlowAnalysis.cpp::DataFlowAnalysis::handleRvalue", "source/DataFlowAnalysis.cpp::DataFlowAnalysis::handleLvalue", "source/NetlistBuilder.cpp::NetlistBuilder::mergeDrivers", "source/ValueTracker.cpp::ValueTracker::addDrivers", "source/PendingRvalueQueue.cpp::PendingRvalueQueue::emitEdgesFor"]}
{"id": "C133", "title": "What an edge is annotated with in a design with procedural blocks is passed along it", "statement": "In a design of the class of C129, every bit in the annotation of an edge between two pieces of the design is written by the piece at the start and read by the piece at the end, or it is a bit that the block reads if the edge stays within a block, or a bit of the register if the edge leads from a block to its register; and the name in the annotation is that of the variable.", "quantifier": "every design in the class of C129, every edge and every bit of its annotation", "why_tests_cant": "Tests compare the text of some edges of given designs; a range that is too wide on any other edge goes unnoticed.", "anchors": ["source/NetlistBuilder.cpp::NetlistBuilder::addDriversToNode", "source/NetlistBuilder.cpp::NetlistBuilder::mergeDrivers", "source/NetlistBuilder.cpp::NetlistBuilder::hookupOutputPort", "source/DataFlowAnalysis.cpp::DataFlowAnalysis::handleRvalue", "source/PendingRvalueQueue.cpp::PendingRvalueQueue::emitEdgesFor"]}
{"id": "C134", "title": "An edge within a block is annotated only with bits that the block assigns", "statement": "In a design of the class of C129, every bit in the annotation of an edge is assigned in the source by what the edge leaves.", "quantifier": "every design in the class of C129, every edge and every bit of its annotation", "why_tests_cant": "The extra bits show only if a block assigns part of a variable and then reads more of it.", "anchors": ["source/DataFlowAnalysis.cpp::DataFlowAnalysis::handleRvalue", "source/NetlistBuilder.cpp::NetlistBuilder::addDriversToNode"]}
{"id": "C135", "title": "The sensitivity query says what clocks the registers of a design", "statement": "For every register, the events that getSensitivity reports are events of the event list of its block, each at a node that writes the signal, with the edge that the list gives, and none twice. Conversely, a port, continuous assignment or connection that writes a signal of the event list is reported with its edge, if all signals of the list that it writes have the same edge; and so is a register that is a clock of another block or of its own, if it is one register in the whole width of the clock.", "quantifier": "every design in the class of C129 with combinational and clocked blocks, every register and every node; events with an edge", "why_tests_cant": "A clock reaches a register through the sensitivity list, the pending queue, the driver map, the merging of edges and the query; tests run designs in which one port drives one clock.", "anchors": ["source/NetlistBuilder.cpp::NetlistBuilder::mergeDrivers", "source/PendingRvalueQueue.cpp::PendingRvalueQueue::emitEdgesFor", "source/NetlistBuilder.cpp::NetlistBuilder::addDependency", "include/netlist/NetlistEdge.hpp::setVariable", "include/netlist/NetlistEdge.hpp::setEdgeKind"]}
{"id": "C136", "title": "No event of an event list is lost", "statement": "C135 without the condition on edges: every event of the event list of a block is reported for its registers, at every node that writes the signal.", "quantifier": "as C135", "why_tests_cant": "The loss shows only if one node drives two events with different edges.", "anchors": ["include/netlist/NetlistEdge.hpp::setEdgeKind", "source/NetlistBuilder.cpp::NetlistBuilder::addDependency", "source/NetlistBuilder.cpp::NetlistBuilder::mergeDrivers"]}
{"id": "C137", "title": "A register that holds some bits of a clock is reported by the sensitivity query", "statement": "C135 without the condition on the width of the register: a register that holds some bits of a signal of the event list is reported.", "quantifier": "as C135", "why_tests_cant": "Clock dividers in tests are one-bit registers; a register of which the bits are assigned separately is found by neither of the two lookups.", "anchors": ["source/PendingRvalueQueue.cpp::PendingRvalueQueue::emitEdgesFor", "source/NetlistBuilder.cpp::NetlistBuilder::mergeDrivers"]}
{"id": "C138", "title": "The driver query names the drivers of a design", "statement": "In a design without procedural blocks, a node that getBitDrivers reports for a bit of a variable writes that bit in the source, and something reads it; and a node that passes a bit to another node is reported for it, if it passes no other variable to that node and, being a port, only bits within its range. In a design with procedural blocks, a node that is reported writes the bit, or belongs to a block of which the text reads or assigns the bit.", "quantifier": "every design in the class of C112 and of C129, every variable, every range that is asked for, every assignment of addresses to nodes; variables have distinct names", "why_tests_cant": "A driver passes through the driver map, the pending queue and the merging of annotations before the query sees it; tests compare single bits of given designs.", "anchors": ["source/NetlistGraph.cpp::NetlistGraph::getBitDrivers", "source/NetlistBuilder.cpp::NetlistBuilder::addDependency", "source/PendingRvalueQueue.cpp::PendingRvalueQueue::emitEdgesFor", "include/netlist/NetlistEdge.hpp::setVariable"]}
{"id": "C139", "title": "With bits resolved, the driver query names one driver for a bit", "statement": "In a design without procedural blocks in which the source drives every bit once, no bit of a variable is written by two nodes of the netlist, and getBitDrivers names at most one node for it, whatever range is asked for.", "quantifier": "every design in the class of C112 with resolveAssignBits, every variable and bit, every two ranges that are asked for, every assignment of addresses to nodes; variables have distinct names", "why_tests_cant": "That the pieces of an assignment or of a port connection do not overlap must hold for every way that cuts, concatenations and driver ranges can meet.", "anchors": ["source/NetlistGraph.cpp::NetlistGraph::getBitDrivers", "source/DataFlowAnalysis.cpp::DataFlowAnalysis::handle", "source/PortConnectionHandler.cpp::PortConnectionHandler::handlePortConnection", "source/NetlistBuilder.cpp::NetlistBuilder::addDriversToNode"]}
{"id": "C140", "title": "Without resolving bits, the driver query names one driver for a bit", "statement": "C139 without resolveAssignBits: the query names at most one node for a bit of a variable that the source drives once.", "quantifier": "as C139, without resolveAssignBits", "why_tests_cant": "The annotation is cut to the range of the port node if the two overlap, which hides the error whenever the actual has the same bit numbers as the port.", "anchors": ["source/PortConnectionHandler.cpp::PortConnectionHandler::handlePortConnectionLegacy", "source/NetlistGraph.cpp::NetlistGraph::getBitDrivers"]}
{"id": "C141", "title": "The cuts that are recorded while instances are visited are enough", "statement": "If bits are resolved or no cuts are propagated, then whatever the connections of a design are, recording cuts for them in the order of the visit makes every cut between two bits of what an output is connected to a cut of the output port; so the netlist is built, and the cone of a port determines its value (C99), with no assumption about cuts.", "quantifier": "every design in the class of C99 with instances in instances to any depth, either setting of propCutsAcrossPorts; an instance is visited before what it contains", "why_tests_cant": "A cut has to pass down through every level of instances; tests have one or two levels, and a missing cut loses a dependency only for particular widths.", "anchors": ["source/PortConnectionHandler.cpp::PortConnectionHandler::recordCutsFromPortConnections", "source/PortConnectionHandler.cpp::collectActualCuts", "source/NetlistBuilder.cpp::NetlistBuilder::handle"]}
{"id": "C142", "title": "Everything the builder looks at has been visited before the compilation is frozen", "statement": "VisitAll visits the value symbols, block expressions and port connections of the design, and nothing in an uninstantiated instance. So whenever the collecting traversal succeeds, every expression that the analysis of a deferred block asks for and every connection that the builder handles has been visited, whatever is black-boxed.", "quantifier": "every tree of symbols, every black-box pattern list, every statement tree with local declarations; the analysis does not ask for initializers of static variables", "why_tests_cant": "An unvisited expression is built lazily by a worker thread, which is a data race that a test run need not show.", "anchors": ["include/netlist/VisitAll.hpp::VisitAll::handle", "source/NetlistBuilder.cpp::NetlistBuilder::handle", "tools/driver/driver.cpp::main"]}
{"id": "C143", "title": "With bits resolved, the netlist of a design is exact whatever cuts are propagated", "statement": "For the connections that the traversal of an instance tree finds, with the cuts it records for them: the netlist is built, its edges are exactly the flows between pieces of the source, the fan-in cone of a node is exactly what leads to it through such flows, and every bit of a variable has at most one driver. Nothing is assumed about the cuts.", "quantifier": "every design in the class of C112 whose names are in scope, every instance tree, either setting of propCutsAcrossPorts, every black-box pattern list", "why_tests_cant": "The cuts that arise depend on all levels of the hierarchy at once; a test fixes one hierarchy.", "anchors": ["source/PortConnectionHandler.cpp::PortConnectionHandler::recordCutsFromPortConnections", "source/PortConnectionHandler.cpp::PortConnectionHandler::materializePortNodes", "source/NetlistBuilder.cpp::NetlistBuilder::handle", "source/NetlistGraph.cpp::NetlistGraph::getCombFanIn"]}
{"id": "C144", "title": "A flow of a bit through the hierarchy is found wherever nodes are cut", "statement": "If bit i of an input port flows to bit j of an output port through assignments, into instances and out of them, then the node of the output that has bit j has every node of the input that has bit i in its combinational fan-in cone. With bits resolved this holds for the cuts that are recorded from the source, propagated or not.", "quantifier": "every design in the class of C112, every chain of assignments and connections, every pair of port bits, both settings of resolveAssignBits (with given cuts) and of propCutsAcrossPorts (with bits resolved)", "why_tests_cant": "A test follows a chain of a few steps at chosen bits; at each step the piece that reads a bit has to be the piece that writes the next, wherever the cuts fall.", "anchors": ["source/NetlistBuilder.cpp::NetlistBuilder::handle", "source/PortConnectionHandler.cpp::PortConnectionHandler::materializePortNodes", "source/NetlistGraph.cpp::NetlistGraph::getCombFanIn"]}
{"id": "C145", "title": "An input port is in a fan-in cone only if one of its bits flows to the port queried", "statement": "In the netlist built with bits resolved, if a node of an input port is in the combinational fan-in cone of a node of an output port, then some bit of the one flows to some bit of the other through assignments and connections.", "quantifier": "every design in the class of C112, the cuts that are recorded from it, every pair of port nodes", "why_tests_cant": "Tests compare cones of small designs with what is expected of them; a port of several bits that carries unrelated bits needs the bits to be separated before the port and selected after it.", "anchors": ["source/PortConnectionHandler.cpp::PortConnectionHandler::materializePortNodes", "source/PortConnectionHandler.cpp::collectActualCuts", "source/NetlistGraph.cpp::NetlistGraph::getCombFanIn"]}
