# Design: a machine-checked model of slang-netlist

The subject is the C++ library and tool in `/repo` (jameshanlon/slang-netlist).
The proofs are in Rocq (Coq 8.16.1) under `rocq/theories`, logical prefix `Verif`.
The code is read as text; it is neither built nor run, nor changed.

## Layout

Each area has up to four files.

* `M_<Area>.v` - the model: total computable functions, one per C++ function,
  each with a comment citing the file and lines it transcribes.
* `S_<Area>.v` - the specification: small relations and predicates written
  without reference to the model's helpers (reachability, bit sets, multisets,
  languages of glob patterns, per-bit driver maps, ...).
* `P_<Area>.v` - lemmas and proofs.
* `Properties_<Area>.v` - the theorems named in `MANIFEST.json`, the satisfiability
  `Example` beside each theorem with hypotheses, and `Print Assumptions`.

Theorem names start with the property id in lower case (`c01_...`).
`_partial` marks a theorem that covers only part of the property; the full
statement stays as a definition `Full_...` beside it.  `_refuted` marks a proof,
by concrete witness, that the property as worded is false of the faithful model.

## Modelling conventions

* Nodes, edges, symbols, handles, threads are `nat` identities (C++ object
  addresses).  The *order* of addresses is never used, except where the C++ code
  itself sorts by address, and there it is a parameter.
* Bit positions and ranges are `Z`.  Where int32/uint64 overflow can matter the
  model returns a distinct outcome rather than wrapping silently.
* `SLANG_ASSERT` failures, `SLANG_UNREACHABLE`, dereferences of freed objects and
  other undefined behaviour are distinct outcomes (`None` / `UB`), never a
  silently defined value; theorems show they are not reached, or a `_refuted`
  theorem exhibits the input that reaches them.
* Loops without a syntactic bound use fuel; running out of fuel is a distinct
  outcome and a theorem gives a fuel that always suffices.
* Concurrent code is an interleaving small-step model: one step is one lock
  acquisition, release, or one action performed under a lock / one atomic.
  Sequential consistency is assumed (see Trusted base).
* Maps are functions with pointwise equality or association lists; no functional
  extensionality is needed.

## Trusted base

* The Coq 8.16.1 kernel.  `Print Assumptions` is run for every theorem in the
  `Properties_*.v` files; the result is recorded at the end of this file.
* That the model definitions transcribe the cited lines.  The mutation log
  `seeded/LOG.jsonl` is evidence that they are at least constrained by the theorems.
* External code, modelled by its documented contract only: the slang AST,
  elaboration and AnalysisManager; `slang::IntervalMap` (modelled as a list of
  intervals ordered by lower bound, `find` = the overlapping ones in order);
  `slang::ConstantRange` (int32 left/right; lower = min, upper = max);
  `nlohmann::json` (modelled as the JSON tree; text printing/parsing is not
  modelled); `boost::concurrent_flat_map` (each visit/emplace is one atomic step);
  `std::unordered_map/set` (contents, iteration order is a parameter or irrelevant);
  `BS::thread_pool`; `fmt`; `SVInt`.
* For bit slices: `slang::ast::ValuePath` gives the root variable and the bounds of the
  longest static prefix; `Expression::eval` folds to the value of the expression;
  conversion follows IEEE 1800 11.8.2 (`S_Slice.v`, `eval`); `SVInt::slice` takes bits.
* For the data-flow analysis: `slang::analysis::AbstractFlowAnalysis` runs branches from copies
  of the state, joins them in the order then, else (for `case`: items in order into a state
  that starts unreachable, then the default), and gives an excluded branch of a constant condition
  `unreachableState`.  Expressions are given by the references they make; loops, jumps,
  calls and event controls are not modelled.  Conditional expressions are trees in `M_Expr.v`:
  the arms are visited from the states of the condition and joined; whether `&&`, `||` and `!`
  split the state is a parameter (the theorems cover both readings).
* For ports and instances: `ValuePath::visitPaths` (the paths of an opaque actual) and
  `AnalysisManager::getDrivers` (driver ranges of a port) are arguments; the instance tree of
  `M_Inst.v` is what slang hands to the handlers, with `ASTVisitor` visiting members in order.
* For runs of the tool (`M_Main.v`): slang's command line parser, `Driver::processOptions`,
  `parseAllSources` and `reportDiagnostics` are results in the record `world`; `OS::readFile` gives
  nothing, text that is not JSON, or a document; `OS::writeFile` writes all or throws, and takes "-"
  as standard output.  The texts of help, version, statistics and parse errors, the headings of
  loop reports, loop output before an exception, --debug and --quiet are not modelled.
* For the Python examples: dict, set, `sorted` and str as in the language reference, with texts of
  bytes; pybind11 hands over nodes and converts vectors to lists in order; tabulate lays out rows.
  `pyslang.ast.EdgeKind` names are those of slang.  The `Netlist` class of `common.py` and the
  checks on sample designs in each `main` are not modelled.
* For the canonical-body resolver: slang's canonical bodies have the shape of the body they stand
  for (`ast_ok` in `S_Canon.v`): the same members in the same order under the same names.
* For output: `fmt` padding fills to the given number of display columns and never truncates;
  the display width of a text is a parameter, equal to its length for ASCII; the constant
  printer `SVInt::toString` is a parameter; a diagnostic is its code and arguments;
  `std::sort` returns an ascending permutation; `double` is IEEE 754 binary64
  (`Coq.Floats.SpecFloat`), rounding to nearest even.
* For the command line: an option is absent or has a value; a flag is absent, true or false
  (`slang::CommandLine` accepts `--flag=false`).
* For the report tool: the symbol tree of `M_Tool.v` is what `ASTVisitor` walks; `lookupName`,
  `AnalysisManager::getDrivers` and the type, width and location printers are arguments;
  `--ast-json` is only the fact that slang's serializer is called.
* For `VisitAll` (`M_Visit.v`): the default traversal of `ASTVisitor` visits members, port connections,
  statements and expressions; `AbstractFlowAnalysis::visitStmt` asks for the initializers of local
  variables that are not static.
* Sequentially consistent memory for the interleaving models.
* Not modelled: Python bindings, command-line parsing library, file I/O, debug
  printing, diagnostics formatting (other than the parts named below), regex search.

## Per property

| id | property | plan | file |
|---|---|---|---|
| C01 | In-edge and out-edge lists always mirror each other | graph model with edge identities, out/in lists, lazily built index; invariant over every operation list | `M_Graph.v` |
| C02 | The lazily built out-edge index is unobservable | an index-free variant of every operation is shown bisimilar | `M_Graph.v` |
| C03 | addEdge never creates parallel edges and is idempotent | corollary of the C01 invariant restricted to addEdge histories | `M_Graph.v` |
| C04 | removeEdge removes exactly one edge, from both ends | frame theorem for removeEdge stated on edge multisets | `M_Graph.v` |
| C05 | removeNode deletes every incident edge and nothing else; edge counts stay exact | frame theorem for removeNode and numEdges = number of distinct live edges | `M_Graph.v` |
| C06 | Concurrent addEdge calls never deadlock | interleaving model of the two-lock addEdge; expected refutation by a two-thread deadlock, and a deadlock-freedom theorem for rank-respecting calls | `M_Conc.v` |
| C07 | Concurrent edge insertion is linearizable for addEdge and keeps both ends consistent | same interleaving model; linearizability of addEdge; expected refutation for same-pair addNewEdge | `M_Conc.v` |
| C08 | Depth-first search visits exactly the reachable nodes, each once | event-trace model of DepthFirstSearch::run; invariants give exactly-once, soundness, completeness, tree edges, termination bound | `M_DFS.v` |
| C09 | Combinational fan-out/fan-in cones are exactly combinational reachability | collect visitor over C08 trace, spec = inductive comb. reachability | `M_DFS.v` |
| C10 | Fan-out and fan-in are dual | both cones characterised by reachability; converse relation | `M_DFS.v` |
| C11 | A returned path is a real path | path visitor parent map + buildPath | `M_Path.v` |
| C12 | A path is found whenever one exists | completeness for distinct ends; refutation for start = end | `M_Path.v` |
| C13 | findComb never passes through a register and finds a combinational path when one exists | same with the combinational predicate | `M_Path.v` |
| C14 | Every reported combinational loop is a real, simple, canonical loop | cycle visitor fold over the trace | `M_Cycle.v` |
| C15 | Combinational loop detection is complete: no loop means no loop | start node stays at the bottom of the recursion stack | `M_Cycle.v` |
| C16 | All elementary combinational loops are reported | expected refutation by a small graph with two loops sharing nodes | `M_Cycle.v` |
| C17 | Named lookup by bit range is exact | list model of the name index; overlap specified bit by bit | `M_Query.v` |
| C18 | Lookup reflects the current graph | expected refutation: index built once | `M_Query.v` |
| C19 | getDrivers and getBitDrivers are per-bit exact and agree | sort/unique model; per-bit spec | `M_Query.v` |
| C20 | Sensitivity is exactly the clocking edges of the registers concerned | stack walk model; reachability spec | `M_Query.v` |
| C21 | Constant drivers are reported only for tied-off sinks | model of the collection loop; expected refutation for registers | `M_Query.v` |
| C22 | Black-box coverage query is exact and order-independent | string model; order independence | `M_Query.v` |
| C23 | Glob matching equals its documented pattern language | recursive matcher model against a denotational language of tokenised patterns | `M_Text.v` |
| C24 | Scope filtering is segment-aware prefix containment | string model against segment-list prefix | `M_Text.v` |
| C25 | The CLI name/range parser inverts the range printer | parser model on ASCII lists, toString model, inverse theorem | `M_Text.v` |
| C26 | Bit-range operations have their set meaning | Z model with int32 overflow outcome, bit-set specs | `M_Range.v` |
| C27 | Edge annotations are never lost when dependencies are added | model of addDependency/annotate on parallel edges; expected refutation | `M_Annot.v` |
| C28 | Interval difference is exact | list model of difference; expected refutation and the exact set it does compute | `M_Interval.v` |
| C29 | ExternalManager handles behave like a heap | slots + free queue model; invariant over operation lists | `M_Heap.v` |
| C30 | Driver intervals stay disjoint and cover exactly what was driven | driver map model incl. shared handles; invariant over addDrivers lists | `M_Drivers.v` |
| C31 | Each bit reports exactly its current drivers | refinement to a per-bit map; expected refutation through shared handles | `M_Drivers.v` |
| C32 | Merging never loses a driver | merge mode never removes a driver of a bit | `M_Drivers.v` |
| C33 | Driver lookup returns every driver of the queried bits | getDrivers/forEachDriverInterval against the per-bit map | `M_Drivers.v` |
| C34 | Symbol slots are unique and stable under concurrency | interleaving model of slot allocation and resize | `M_Slots.v` |
| C35 | A bit-slice list tiles its expression | expression-tree model of BitSliceList::build | `M_Slice.v` |
| C36 | Bit provenance of a slice list is correct | per-bit denotation of the expression tree | `M_Slice.v` |
| C37 | Segment alignment is a common refinement | model of alignSegments | `M_Slice.v` |
| C38 | Bit-aligned assignment edges are exactly the bit-level flow | alignSegments + driveLhs/RhsLspSegment per bit | `M_Slice.v` |
| C39 | Cut hints only refine | model of cut hints | `M_Slice.v` |
| C40 | Sign and zero extension are attributed correctly | padding slices per bit | `M_Slice.v` |
| C41 | Serialise/deserialise round-trips the graph | JSON tree codecs; round trip; expected refutation for parallel edges | `M_Serial.v` |
| C42 | Loading rejects malformed input instead of building a wrong graph | decoder totality and all-or-nothing behaviour | `M_Serial.v` |
| C43 | File table interning is linearizable | FileTable model, sequential and interleaved | `M_Intern.v` |
| C44 | Symbol interning is linearizable and keyed by hierarchical path | SymbolTable model, sequential and interleaved | `M_Intern.v` |
| C45 | Draining deferred work is schedule-independent | queue drain model; permutation invariance | `M_Pending.v` |
| C46 | Parallel R-value resolution partitions the work | partition of work among workers | `M_Pending.v` |
| C47 | Parallel and sequential resolution build the same dependency graph | sequential and parallel resolution give the same edge set | `M_Pending.v` |
| C48 | Every bit of an R-value is accounted for | handleRvalue model | `M_DFA.v` |
| C49 | Branch joins keep the definitions of both branches | mergeStates/join/meet model | `M_DFA.v` |
| C50 | Blocking assignments take effect immediately, non-blocking ones at the end | assignment handling model | `M_DFA.v` |
| C51 | Clocked blocks are recognised exactly | collectSensitivity model | `M_Builder.v` |
| C52 | Every driven output bit is hooked to its port node | hookupOutputPort model | `M_Builder.v` |
| C53 | Port nodes partition the port | materializePortNodes model | `M_Port.v` |
| C54 | The cut registry holds a sorted set of interior cuts | CutRegistry model | `M_Interval.v` |
| C55 | Constant slices carry the right bits | constant slice model | `M_Slice.v` |
| C56 | Merge nodes and drivers of sequential blocks become registers | mergeDrivers model | `M_Builder.v` |
| C57 | Non-canonical instances map symbols consistently | CanonicalBodyResolver model over an abstract instance tree | `M_Canon.v` |
| C58 | DOT output is a faithful induced subgraph | renderer model producing abstract lines | `M_Dot.v` |
| C59 | Tables are aligned and lossless | formatTable model on strings | `M_Table.v` |
| C60 | Path reporting never reaches undefined behaviour | reportPath model with UB outcomes | `M_Report.v` |
| C61 | Task statistics are consistent | recordTaskStats model | `M_Stats.v` |
| C62 | Black-boxed instances expose only their boundary | traversal as a list of events against visible bodies of the tree | `M_Inst.v` |
| C63 | Variable tracker lookup is exact | VariableTracker model | `M_Interval.v` |
| C64 | CLI endpoint aliasing selects the documented query | endpoint aliasing / command precedence model | `M_Cli.v` |
| C65 | Reads through a modport reach every driver of the bits read | model of addRvalue; expected refutation for partial reads | `M_Builder.v` |
| C66 | A select with a variable index depends on its index and on every bit it may read | value semantics of expressions against the slice attribution; expected refutation | `M_Slice.v` |
| C67 | Recording a bit-aligned assignment never fails | crash outcome of the segment notes; expected refutation for selects of non-variables | `M_Slice.v` |
| C68 | Resolving a pending R-value emits exactly the shared bits of each driver | membership in the emitted calls against `seen` (per-bit drivers) and `bit_in`, on top of C33 | `M_Pending.v` |
| C69 | Phase 4 annotates exactly the bits that each source supplies to each target | composition of C68, C27 and C47 into one statement about the final annotations | `M_Pending.v` |
| C70 | Every statement of a branch depends on the branch's condition | control edges of the executed block; expected refutation for the second statement | `M_DFA.v` |
| C71 | A bit that some path leaves unwritten still depends on the value from outside the block | path semantics of blocks against the pending queue; expected refutation | `M_DFA.v` |
| C72 | Non-blocking writes of every branch drive the variable | path semantics against the drivers at the end; expected refutation | `M_DFA.v` |
| C73 | Reaching definitions of structured blocks | path semantics (`paths`, `lreads` in `S_DFA.v`); simulation invariant between the state and the set of paths, by induction on the program | `M_DFA.v` |
| C74 | Code that a constant condition excludes contributes nothing | same invariant with unreachable states; expected refutation | `M_DFA.v` |
| C75 | Automatic variables are not tracked | both recording paths; expected refutation for bit-aligned assignments | `M_DFA.v` |
| C76 | Writes to interface members reach the interface nodes | interface part of mergeDrivers; expected refutation for partial ranges | `M_Builder.v` |
| C77 | The formal side of a port connection names exactly the nodes of each bit | grid lemma for sorted cuts; membership against `carries` | `M_Port.v` |
| C78 | Port connections connect bit by bit | requests of the connection against the documented origins (`bits`) of the actual; expected refutation for opaque outputs | `M_Port.v` |
| C79 | Cuts recorded from an actual are its slice boundaries | induction on expressions relating the two traversals; expected refutation for conditionals | `M_Port.v` |
| C80 | Port nodes follow the cut grid of the parent over a whole traversal | registry monotonicity along the events, C53 at each port; expected refutation for conditionals | `M_Inst.v` |
| C81 | Per instance, cuts are recorded first and connections made last | induction on the tree over splits of the event list | `M_Inst.v` |
| C82 | DOT text reads back as the induced subgraph | relational grammar of DOT statements; unambiguity; expected refutation for quotes | `M_Dot.v` |
| C83 | Reported values belong to the edges the path takes | edge chosen by findEdgeTo against the enabled edges of the walk; expected refutation | `M_Report.v` |
| C84 | A flag switched off has no effect | option values as optionals; expected refutation (has_value) | `M_Cli.v` |
| C85 | Listing commands list exactly the nodes of the query that pass the filters | whole command model composed from C09, C17, C19-C21, C23, C24 | `M_Cli.v` |
| C86 | Searches find exactly the nodes whose path matches | hash order as a parameter, result as a set without repetition | `M_Cli.v` |
| C87 | --drivers accepts the name of every node | name/range parser composed with lookup; expected refutation | `M_Cli.v` |
| C88 | A queried name stands for all of its nodes | first node against all nodes of a name; expected refutation | `M_Cli.v` |
| C89 | JSON tables have the same cells as text tables | emitTable as a JSON tree; arity of all tables | `M_Cli.v` |
| C90 | Scoped DOT output is the cone or path selected | selector composed with C58, C09, C11, C12 | `M_Cli.v` |
| C91 | The wildcard test of the report tool is exact | hasGlobChar against the token reading of C23 | `M_Tool.v` |
| C92 | Scope options select the symbols they name, each once, in order | collectGlobMatches and the scope loop against a relational preorder | `M_Tool.v` |
| C93 | A scope option is rejected only if nothing answers to it | error cases of the scope loop; expected refutation for patterns whose matches are already selected | `M_Tool.v` |
| C94 | A report lists each symbol once | number of reports = number of selected scopes that contain the symbol; expected refutation for nested scopes | `M_Tool.v` |
| C95 | A report lists exactly the ports, variables or values in the scopes that pass the name filter | whole tool model against the relational preorder | `M_Tool.v` |
| C96 | The table of a report is a function of its JSON form | rows computed from the JSON tree | `M_Tool.v` |
| C97 | Every operand of an expression is recorded for the node that evaluates it | short-circuit evaluation paths of expressions; a reference is recorded iff the number of paths that reach it is odd; expected refutation | `M_Expr.v` |
| C98 | Both branches of an if statement are control dependent on its condition | same counting for the outcomes of the condition; expected refutation for conditions with && or \|\| | `M_Expr.v` |
| C99 | Combinational fan-in covers functional dependence | composition of slices, data-flow analysis, driver merge, phase 4 and traversal into one netlist of a module of continuous assignments; two valuations solving the assignments and connections that agree on the input bits in the cone; induction on the acyclic cone | `M_Flow.v` |
| C100 | Fan-in covers functional dependence for signed operands and for every combination of options | the two restrictions of C99 dropped one at a time; expected refutations by a computed netlist and two valuations | `M_Flow.v` |
| C101 | Constant-driven sinks are listed exactly | `sinks_loop` as a collection of (path, value) items into a dict; order and members read off a separate text order and the constants behind each sink | `M_Py.v` |
| C102 | A listed sink is tied off entirely | expected refutations: two slices of one path, one tied; a register behind the sink; the single-node case as partial companion | `M_Py.v` |
| C103 | The clock-domain map is exact, and its rows are sorted and counted | the dict collected from the sensitivity of each register (C20); rows sorted by a separate order on domains | `M_Py.v` |
| C104 | Registers in one clock domain share a clock | expected refutation: two slices of a clock vector share a path; companion for distinct paths | `M_Py.v` |
| C105 | Undriven input bits are merged exactly | bits of the merged ranges = bits of the undriven nodes; ranges ascending with a gap | `M_Py.v` |
| C106 | Every undriven bit of an instance input is listed | expected refutation: a node driven on some bits only; companion where an edge into a node covers it | `M_Py.v` |
| C107 | A driver row lists every driver of the bits once | through C19; text of a driver by a separate relation | `M_Py.v` |
| C108 | path_exists decides connectivity of names | expected refutations: a name of several nodes, a name with itself; exact for the first nodes | `M_Py.v` |
| C109 | Access to a path from Python is defined | front, back and indexing of the path found by PathFinder; undefined on the empty path | `M_Py.v` |
| C110 | Every edge of the netlist is accounted for by the source | dual of C99: each node of the built netlist stands for a port range, a piece of an assignment or a constant (`S_Prec.v`); every edge is between pieces that share a written and read bit; soundness invariant over all phases, for designs with one driver per bit | `M_Flow.v` |
| C111 | The same with several drivers of a net | expected refutation: the shared driver list of C31 makes a false edge; witness design through `flow` | `M_Flow.v` |
| C112 | The netlist has exactly the edges of the source | converse of C110: `exactly` in `S_Prec.v` (edge iff a bit is written by one piece and read by the other, constant edge iff a constant is read, every position has its node); completeness invariant `done` per node carried through the same phases; fan-in cone iff chain of such pieces | `M_Flow.v` |
| C113 | Building the netlist of a design succeeds | no lookup fails, every emitted dependency has its nodes, int32 arithmetic of edge bounds stays in range for small indices | `M_Flow.v` |
| C114 | Edges are annotated with exactly the bits passed along them | invariant over the dependency run for soundness; expected refutation of completeness (bounds of the source port node intersected with the range of another variable); exact companion when the bits lie in the node range and carry one name | `M_Flow.v` |
| C115 | Cones determine outputs of designs with combinational blocks | C99 with always_comb blocks of blocking assignments and if and case statements: values of a block by running it (`S_Proc.v`); each node of a block gets the bits and the condition it stands for in each run, the invariant says which node wrote each bit last; going back through the cone over bits and nodes | `M_Proc.v` |
| C116 | The same with branches of several statements | expected refutation: only the first statement of a branch gets the control edge, so the condition is missing from the cone of what later statements write; also a read of a bit written on some paths only, a read of more bits than one write | `M_Proc.v` |
| C117 | Cones determine registers and outputs of designs with clocked blocks | C115 with always_ff blocks of non-blocking assignments and if and case statements: the next value of a register by running its block on the values before the edge (`S_Seq.v`); nodes get their meaning as in C115, a State node has an edge from the last writer of its bits, and the conditions of earlier constant writes (resets) are reached back from that writer; weak form: all registers agree; strong form: only the registers whose State node has an edge into the cone | `M_Proc.v` |
| C118 | The same for every assignment pattern and every read of a register | expected refutation: two assignments to one register in two branches, only the second has an edge to the State node; a read of part of a register has no edge from it | `M_Proc.v` |
| C119 | Commands answer on a saved and loaded netlist as on the netlist itself | relation between nodes of the two graphs by position (from the round trip of C41); searches, cones by out-edges, paths, loops and DOT are carried over step by step; cones by in-edges, sensitivity, constants and drivers through their specifications (C09, C19-C21), as sets of rows | `M_Cli.v`, `M_Serial.v` |
| C120 | A run of the tool that succeeds has done what its options ask for | model of main: order of checks, load, build, save, dispatch, statistics, exit code; expected refutations: --save-netlist with --load-netlist or with a query; precedence theorem | `M_Main.v` |
| C121 | A run that fails leaves files and standard output alone, and its exit code says who rejected the options | case analysis over main with the outcomes of the external calls as parameters | `M_Main.v` |
| C122 | With --format json standard output is one JSON document | outputs in order; expected refutation: --stats-json writes a second document | `M_Main.v` |
| C123 | A flag of the tool given the value false acts as if it was absent | option values as optionals; expected refutations: --stats, --stats-json, --no-colours test has_value | `M_Main.v` |
| C124 | If no combinational loop is reported, inputs and registers determine all values | completeness of loop detection (C15) turns the empty answer into acyclicity of the whole netlist, then the backward induction of C117 over all nodes instead of one cone; examples: a design without loops, and one with a loop and two solutions | `M_Proc.v` |
| C125 | An assignment drives every bit it may write, and depends on the index that decides which | spec: targets with the bits each position lands on under a valuation; expected refutations with resolved bits (driveLhsLspSegment notes the first bits of the static prefix, the selector is not visited); constant targets exact via the segment theorem of C53; the whole-expression walk (select handler) covers all bits and reads the index | `M_Lhs.v` |
| C126 | A force statement drives nothing and depends only on its right-hand side | prohibitLValue in both paths; no definition or non-blocking write recorded; the segment notes are those of the assignment without targets; expected refutation: the whole-expression path visits the target as a read | `M_Lhs.v` |
| C127 | Queries on a design give the same answers when the pending R-values are resolved by threads | compose the invariant of the parallel run (C46-C48: each pair of nodes belongs to one thread, its annotations are those of the thread's program alone) with the end-to-end build; connections are a function of which pairs have a dependency, so order and merging do not matter; then C09, C12, C13, C15 characterise the answers by connections; example: three threads, descending addresses, edges in another order | `M_Pending.v`, `M_Proc.v` |
| C128 | A design for which no combinational loop is reported settles, and as a clocked machine has one run for each sequence of inputs | spec: who gives a bit its value, `driven_once`, settled valuations, runs; existence: iterate one round in which every driver is evaluated, the induction along the acyclic netlist of C117 bounds the number of rounds after which nothing changes; uniqueness from C124; parallel resolution from C127; examples: a two-stage shift register, and the oscillator `t = ~u; u = t`, which has no settled values and is reported | `M_Cycle.v`, `M_Proc.v` |
| C129 | Every edge of the netlist of a design with procedural blocks, and every port in a fan-in cone, is accounted for by the source | spec: pieces (ports, assignment pieces, blocks, registers), what they read and write from the text, paths that leave no register; containment of one block's analysis (its nodes, its pending reads within the bits its text reads, its drivers within the bits it may write), then the invariant of C110 through mergeDrivers for every block; examples: a clocked and a combinational block, and an input that the register keeps out of the cone | `M_Proc.v`, `M_Builder.v` |
| C130 | Several blocks may write parts of one variable without appearing in each other's cones | expected refutation: the shared driver list of C111 with three blocks | `M_Proc.v`, `M_Drivers.v` |
| C131 | The order in which continuous assignments and procedural blocks are found does not matter for what queries say | an assignment is handled as a combinational block with one statement (node for node, lockstep of the two runs); then the invariant of C117 for any permutation of combinational and clocked blocks, where a task only adds nodes, drivers and pending reads; settled valuations of the two views are the same; examples: the machine of C117 in both orders | `M_Order.v`, `M_Proc.v` |
| C132 | Building the netlist of a design with procedural blocks succeeds | the analysis of a block does not fail while its invariant (valid handles, aligned definitions, a current node after updateNode) holds: induction over the statement beside the containment proof of C129; merging, emission and edge insertion from the invariant of C129; example: the design of C129 | `M_DFA.v`, `M_Builder.v`, `M_Pending.v` |
| C133 | What an edge is annotated with in a design with procedural blocks is passed along it | strengthen the invariant of C129 from "an edge joins pieces that feed each other" to "every bit of every dependency is passed", then C114's argument from dependencies to annotations; spec: `ppasses` | `M_Builder.v`, `M_Pending.v` |
| C134 | An edge within a block is annotated only with bits that the block assigns | expected refutation: handleRvalue hands the whole range that is read to addDriversToNode when a definition covers only part of it | `M_DFA.v` |
| C135 | The sensitivity query says what clocks the registers of a design | extend the invariant of C129 with edge kinds (only clocks of registers have one), with "the clocks of every register are queued" and "drivers are never lost" and "registers are known by their range"; then kinds through the merging of annotations, and C20 for the query; spec: `events_right`, `events_found`, `events_divided`; example: the design of C129 | `M_Builder.v`, `M_Pending.v`, `M_Annot.v`, `M_Query.v` |
| C136 | No event of an event list is lost | expected refutation: setEdgeKind overwrites the kind of an edge that two events share | `M_Annot.v` |
| C137 | A register that holds some bits of a clock is reported by the sensitivity query | expected refutation: registers are found by their exact range only | `M_Pending.v`, `M_Interval.v` |
| C138 | The driver query names the drivers of a design | C19 says what the query reports in terms of annotations, C114 and C133 what annotations mean; compose them, with distinct names for distinct variables; spec: `drivers_right`, `drivers_found`, `pdrivers_right`; examples: the designs of C110 and C129 | `M_Query.v`, `M_Flow.v`, `M_Proc.v` |
| C139 | With bits resolved, the driver query names one driver for a bit | add to the invariants of C110 and C112 that no two nodes of assignments write a bit; ports by the disjointness of their nodes; then C19 and C114; spec: `written_once`, `one_reported`; example: the design of C110 | `M_Query.v`, `M_Flow.v` |
| C140 | Without resolving bits, the driver query names one driver for a bit | expected refutation: every node of an output port drives all of the actual | `M_Port.v`, `M_Query.v` |
| C141 | The cuts that are recorded while instances are visited are enough | a cut between two bits of an L-value is a boundary of its slice list, so by C79 it is collected; connections visited later do not touch the symbols it is about; spec: `outer_first`, `port_widths`, `cuts_of`; example: an instance in an instance; refutations for the other order and for unresolved bits | `M_Port.v`, `M_Flow.v` |
| C142 | Everything the builder looks at has been visited before the compilation is frozen | both traversals as functions on the symbol tree of C80; what is visited is characterised by membership in the design, and the events of the builder come from symbols of the design; spec: `part_of`, `in_design`; example: a design with a local initializer and an uninstantiated module | `M_Visit.v`, `M_Inst.v` |
| C143 | With bits resolved, the netlist of a design is exact whatever cuts are propagated | C141 gives the class of C112, C113 and C139 with the recorded cuts; the order of the visit from the traversal of C62; example: an instance in an instance | `M_Flow.v`, `M_Inst.v`, `M_Port.v` |
| C144 | A flow of a bit through the hierarchy is found wherever nodes are cut | spec: `carries` (one assignment or connection) and its closure; each step has a node that reads the one bit and writes the other (C112), so the chain is one of nodes; examples: through an instance | `M_Flow.v`, `M_Port.v` |
| C145 | An input port is in a fan-in cone only if one of its bits flows to the port queried | refuted by a port of two bits of which one is used; true, and an equivalence, for pieces of one bit: a piece that reads a bit and writes another carries it | `M_Flow.v`, `M_Port.v` |

## Result of Print Assumptions

Every theorem that `MANIFEST.json` names (444 theorems) is reported as `Closed under the global
context`: no axioms, of the standard library or otherwise.  Each `Properties_*.v` file prints this
when it is compiled.  Theorems by file:

`Properties_Annot` 2, `Properties_Bits` 4, `Properties_Builder` 19, `Properties_Canon` 8, `Properties_Cli` 25,
`Properties_Clock` 3, `Properties_Conc` 10, `Properties_Cuts` 7, `Properties_DFA` 26,
`Properties_Dot` 4, `Properties_Drivers` 10, `Properties_Drv` 4, `Properties_Exact` 6,
`Properties_Expr` 10, `Properties_Flow` 4, `Properties_Graph` 10, `Properties_Heap` 6,
`Properties_Inst` 17, `Properties_Intern` 14, `Properties_Interval` 12, `Properties_Lhs` 9,
`Properties_Load` 3, `Properties_Main` 13, `Properties_Order` 7, `Properties_Par` 5,
`Properties_Path` 15, `Properties_Pending` 17, `Properties_Port` 19, `Properties_Prec` 3,
`Properties_Prec2` 3, `Properties_Proc` 5, `Properties_Py` 21, `Properties_Query` 11,
`Properties_Report` 7, `Properties_Seq` 8, `Properties_Serial` 14, `Properties_Settle` 4,
`Properties_Slice` 29, `Properties_Source` 3, `Properties_Stats` 4, `Properties_Sync` 2,
`Properties_Table` 3, `Properties_Text` 14, `Properties_Tool` 16, `Properties_Total` 3,
`Properties_Visit` 5.

`coqchk -o` was run on all modules but `Properties_Source`, `S_Bits`, `P_Bits` and
`Properties_Bits`, which were added after it; it reports no axioms, no type-in-type, no unsafe fixpoints and no assumed
positivity.
