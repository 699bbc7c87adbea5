{"id": "C01", "title": "Adding a range to a character class adds exactly that range", "statement": "After `cc | Range(a,b)` (and `|=`) a character is included in the class iff it was included before or lies in [a,b); when the class was a sorted list of separated ranges and the range touches one contiguous run of them or lies after the last, the result is again sorted and separated.", "quantifier": "every class (any list of ranges), every range, every character", "why_tests_cant": "the result depends on how the new range interleaves with an arbitrary number of existing ranges", "anchors": ["src/core/CharClass.hpp: CharClass::operator|(const Range&), Range::merge, Range::overlaps", "src/core/CharClass.cpp: CharClass::operator|="]}
{"id": "C02", "title": "Union of two character classes contains the characters of both", "statement": "`a | b` includes a character iff `a` or `b` includes it.", "quantifier": "all pairs of sorted, separated classes and every character", "why_tests_cant": "loss of characters only shows for particular overlap patterns of two range lists of unbounded length", "anchors": ["src/core/CharClass.cpp: CharClass::operator|(const CharClass&)"]}
{"id": "C03", "title": "Complement of a character class is exact", "statement": "`~cc` includes a character c (1 <= c < 255) iff `cc` does not, it never includes 0 or 255, it is sorted and separated, and complementing twice gives the class back when it lies in that universe.", "quantifier": "every sorted, separated class and every character", "why_tests_cant": "all boundary positions of an unbounded list of ranges", "anchors": ["src/core/CharClass.hpp: CharClass::operator~"]}
{"id": "C04", "title": "Intersection and overlap test of character classes are exact", "statement": "`a & b` includes a character iff both do, is sorted and non-empty-ranged, and `a.overlaps(b)` is true iff some character is in both.", "quantifier": "all pairs of sorted, separated classes, every character", "why_tests_cant": "merge-style two-list loop over arbitrarily interleaved ranges", "anchors": ["src/core/CharClass.cpp: CharClass::operator&", "src/core/CharClass.hpp: CharClass::overlaps"]}
{"id": "C05", "title": "Splitting two classes into left-only, right-only and common parts is exact", "statement": "`a.diff_and_int(b)` returns three classes: characters only in a, only in b, and in both; the three are pairwise disjoint and cover a and b.", "quantifier": "all pairs of sorted, separated classes, every character", "why_tests_cant": "merge-style two-list loop that mutates the current range; all overlap patterns", "anchors": ["src/core/CharClass.hpp: CharClass::diff_and_int, append"]}
{"id": "C06", "title": "A bracket expression denotes exactly the characters it lists", "statement": "Parsing `[items]` gives a class containing exactly the characters of the listed singles and ranges (with the documented escapes); `[^items]` contains exactly the other characters (1..254).", "quantifier": "every sequence of items, in every order and overlap, and every character", "why_tests_cant": "the parser accumulates ranges one at a time, so the outcome depends on the order and overlap of arbitrarily many items", "anchors": ["src/core/CharClass.cpp: CharClass::parse"]}
{"id": "C07", "title": "The NFA built for a pattern accepts exactly the pattern's language", "statement": "For every pattern (concatenation, alternation, grouping, character class, `*`, `+`, `?` and their suffix variants) the NFA built from it accepts a string iff the string is in the regular language the pattern denotes.", "quantifier": "every pattern of any nesting and every string of any length", "why_tests_cant": "infinitely many patterns and strings; the claim is an equality of languages", "anchors": ["src/core/NFA.hpp: NFA::parse, parse_unit, parse_selection, concat, select"]}
{"id": "C08", "title": "The DFA accepts exactly what the NFA accepts", "statement": "For every NFA whose construction terminates, the unoptimised DFA built from it accepts a string iff the NFA accepts it, and it is deterministic (at most one transition per character).", "quantifier": "every NFA and every string", "why_tests_cant": "subset construction over an arbitrary graph and all strings", "anchors": ["src/core/DFA.hpp: DFA::DFA, fork_states, add_state, run", "src/core/NFA.hpp: NFADepartureSetFactory, epsilon_closure"]}
{"id": "C09", "title": "DFA minimisation does not change the language", "statement": "A DFA built with optimisation on (the default) accepts the same strings as the one built without it.", "quantifier": "every DFA and every string", "why_tests_cant": "state merging can only be judged against all strings and all automata", "anchors": ["src/core/DFA.hpp: DFA::minimize, redirect_transitions, filter_nodes"]}
{"id": "C10", "title": "Compiling a pattern terminates", "statement": "Building a DFA from any syntactically valid pattern terminates.", "quantifier": "every pattern", "why_tests_cant": "non-termination cannot be observed by a finite test and depends on the pattern's shape", "anchors": ["src/core/NFA.hpp: epsilon_closure_sub", "src/core/DFA.hpp: fork_states"]}
{"id": "C11", "title": "The compiled matcher returns the longest match", "statement": "Running the generated code of a DFA on an input returns the end of the longest prefix the DFA accepts, and null iff no prefix is accepted; it never reads past the terminating NUL of the input.", "quantifier": "every DFA (without long-run loops), every NUL-terminated input", "why_tests_cant": "backtracking to the last accepting position depends on the whole input", "anchors": ["src/core/CodeGenEM64T.cpp: DFARoutineEM64T::emit, emit_state"]}
{"id": "C12", "title": "The SIMD long-run loop is equivalent to the byte-wise loop", "statement": "For a state with a long-run self loop (`*+`, `++`) the vectorised loop consumes exactly the maximal run of bytes belonging to the loop's character class, as the byte-wise loop would.", "quantifier": "every character class, every input and every alignment", "why_tests_cant": "depends on class shape (number of ranges, zero byte) and run length modulo 16", "anchors": ["src/core/CodeGenEM64T.cpp: DFARoutineEM64T::emit_state", "src/core/CodeGenUtilsEM64T.hpp: pack_charclass"]}
{"id": "C13", "title": "The literal matcher matches exactly the literal", "statement": "The code generated for a literal succeeds iff the input starts with the literal's bytes and then advances by exactly its length.", "quantifier": "every literal of any length (both the byte-wise and the 16-byte code path) and every input", "why_tests_cant": "any length modulo 16, any first difference position", "anchors": ["src/core/CodeGenEM64T.cpp: MatchRoutineEM64T::emit"]}
{"id": "C14", "title": "Whitespace skipping is maximal and exact", "statement": "The skip routine advances over exactly the maximal run of space, tab, CR and LF bytes.", "quantifier": "every NUL-terminated input", "why_tests_cant": "run length and content unbounded", "anchors": ["src/core/CodeGenEM64T.cpp: SkipRoutineEM64T::emit"]}
{"id": "C15", "title": "Start/end markers round-trip", "statement": "Encoding a rule id, a start/end flag and an input offset into a 64-bit marker and decoding it yields the same triple, distinct triples give distinct markers and no marker is the zero terminator; and every word that decodes as a start marker, end marker or value is the encoding of one.", "quantifier": "every id 1..32767, every offset below 2^48, both flags", "why_tests_cant": "2^64 combinations", "anchors": ["src/core/BaseRunner.hpp: CSTMarker", "src/core/CodeGenEM64T.cpp: ParserEM64T::emit_machine"]}
{"id": "C16", "title": "Every rule has its own valid marker id", "statement": "After a grammar has been read, distinct rules have distinct ids, every id is between 1 and the number of rules, the root is the first rule, and every id fits the 15-bit id field of a marker (larger grammars are refused).", "quantifier": "every sequence of rule definitions of any length", "why_tests_cant": "needs grammars with tens of thousands of rules and all duplicate patterns", "anchors": ["src/core/Grammar.cpp: Grammar::parse", "src/core/Grammar.hpp: get_machine_id, get_machine_num"]}
{"id": "C17", "title": "Attaching a callback to any rule stays inside the callback table", "statement": "`attach(rule, cb)` followed by a parse invokes cb exactly for that rule, for every rule of the grammar, without touching memory outside the callback table.", "quantifier": "every grammar (including one with a repeated rule name) and every attach order", "why_tests_cant": "depends on the history of definitions", "anchors": ["src/core/Context.hpp: Context::attach, callback", "src/core/Grammar.cpp: Grammar::parse"]}
{"id": "C18", "title": "Parsing emits a well-nested marker stream describing the parse tree", "statement": "On an accepted input the marker stream written by the parser is the pre/post-order traversal of the parse tree: properly nested, one start and one end per rule invocation, offsets non-decreasing and within the input.", "quantifier": "every grammar machine and every accepted input", "why_tests_cant": "trees and inputs of unbounded size", "anchors": ["src/core/CodeGenEM64T.cpp: ParserEM64T::emit_machine"]}
{"id": "C19", "title": "Splitting the marker stream into banks loses nothing", "statement": "For every bank size, the concatenation over the banks in order of their contents up to the zero terminator equals the marker stream; no bank is overrun.", "quantifier": "every bank size >= 1 word, every stream length (including exact multiples)", "why_tests_cant": "off-by-one behaviours at bank boundaries appear only for particular length/size combinations", "anchors": ["src/core/CodeGenEM64T.cpp: emit_machine requestpage, init landfill", "src/core/Stage1Runner.hpp: request_page"]}
{"id": "C20", "title": "Parallel reduction equals sequential evaluation", "statement": "For every parse tree, every division of its marker stream into banks and every callback, the value obtained by reducing banks independently (stage 2) and merging them in order (stage 3) equals the value of the sequential bottom-up evaluation of the tree.", "quantifier": "every tree, every chunking, every callback function", "why_tests_cant": "chunk boundaries can fall anywhere in a tree of any shape", "anchors": ["src/core/Stage2RunnerNonRecursive.hpp", "src/core/Stage3RunnerNonRecursive.hpp"]}
{"id": "C21", "title": "Each rule occurrence triggers exactly one callback with its own span and its children's values in order", "statement": "Over the whole parse the multiset of callback invocations (rule, start, end, child values) is exactly that of the sequential evaluation: one per node, each after all its children's, with children values in document order and children that returned 0 omitted.", "quantifier": "every tree, chunking and callback", "why_tests_cant": "same as above, for effects rather than result", "anchors": ["src/core/Stage2RunnerNonRecursive.hpp: reduce_by_end_marker", "src/core/Stage3RunnerNonRecursive.hpp", "src/core/Context.hpp: SymbolContext"]}
{"id": "C22", "title": "A bank is never owned by two stages at once", "statement": "In every interleaving of the parser, any number of reduction workers and the merger, at most one of them has any given bank, and nobody accesses a bank it has not acquired.", "quantifier": "every schedule, any number of workers and banks", "why_tests_cant": "scheduling non-determinism", "anchors": ["src/core/Stage1Runner.hpp", "src/core/Stage2RunnerNonRecursive.hpp: acquire_bank, release_bank", "src/core/Stage3RunnerNonRecursive.hpp", "src/core/BaseRunner.hpp: WindowBankState"]}
{"id": "C23", "title": "Banks reach the merger in production order, each exactly once", "statement": "The merger processes bank 0,1,2,... in the order the parser produced them, none lost, none twice, each after exactly one reduction worker has processed it, and a bank is only re-filled after the merger released it.", "quantifier": "every schedule, any number of workers and banks, any number of produced banks", "why_tests_cant": "scheduling non-determinism and unbounded production", "anchors": ["src/core/Stage1Runner.hpp: acquire_bank, release_bank", "src/core/Stage2RunnerNonRecursive.hpp", "src/core/Stage3RunnerNonRecursive.hpp"]}
{"id": "C24", "title": "The pipeline never deadlocks and always shuts down", "statement": "Whatever has happened so far, the pipeline goes on until the parser has released all banks, every bank is free again and every worker and the merger have returned.", "quantifier": "every fair schedule (every thread is scheduled again and again; compare-exchange does not fail spuriously for ever, as on x86), from every reachable state, every number of workers from 1 to the number of banks, every number of pages", "why_tests_cant": "liveness over all interleavings", "anchors": ["src/core/Stage1Runner.hpp: signal_exit", "src/core/Stage2RunnerNonRecursive.hpp: acquire_bank", "src/core/Stage3RunnerNonRecursive.hpp: acquire_bank"]}
{"id": "C25", "title": "The result does not depend on the degree of parallelism", "statement": "Parsing the same input with any number of workers, banks, bank size and under any schedule gives the same final value and the same multiset of callback invocations.", "quantifier": "all worker counts, bank counts, bank sizes and schedules", "why_tests_cant": "quantifies over pairs of executions", "anchors": ["src/core/Context.hpp: Context::parse", "src/core/Stage1Runner.hpp", "src/core/Stage2RunnerNonRecursive.hpp", "src/core/Stage3RunnerNonRecursive.hpp"]}
{"id": "C26", "title": "The callback sees exactly the text its rule matched", "statement": "`ctx.read()` inside a callback returns the input characters between the start and the end offset of the node; a child's text lies inside its parent's, siblings' texts do not overlap and come in order; `ctx.value(i)`, counted from 1, is the i-th value returned by the callbacks of its children (those that returned 0 left out).", "quantifier": "every accepted input and every node", "why_tests_cant": "trees of unbounded size", "anchors": ["src/core/Context.hpp: SymbolContext::read, start, end, len", "src/core/CodeGenEM64T.cpp: emit_machine"]}
{"id": "C27", "title": "Reducing a bank in place never overruns it", "statement": "In the Python (separate process) mode the reduced stacks written back to a bank fit into that bank.", "quantifier": "every bank size and every content", "why_tests_cant": "depends on the worst-case mixture of unmatched and matched markers", "anchors": ["src/core/Stage2RunnerNonRecursive.hpp: run_impl, bank serialisation", "src/core/Stage3RunnerNonRecursive.hpp"]}
{"id": "C28", "title": "The Python listener yields the same result as the in-process callbacks", "statement": "Running the reduction through the Python listener protocol (values kept on the Python side, markers exchanged through banks) invokes the same handlers with the same children as the sequential evaluation.", "quantifier": "every tree, chunking and handler", "why_tests_cant": "the protocol keeps value iterators in two processes in sync over unbounded sequences", "anchors": ["src/python/centaurus/listener.py", "src/core/Stage2RunnerNonRecursive.hpp", "src/core/Stage3RunnerNonRecursive.hpp"]}
{"id": "C29", "title": "Rule bodies denote the language of their EBNF expression", "statement": "The transition network built for a rule body accepts a sequence of terminals and rule references iff the EBNF expression (sequence, `|`, `|>`, `*`, `+`, `?`, groups) denotes it.", "quantifier": "every rule body of any nesting, every sequence", "why_tests_cant": "language equality", "anchors": ["src/core/ATN.cpp: ATNMachine::parse_atom, parse_selection, parse_sequence, parse"]}
{"id": "C30", "title": "Network optimisation preserves the rule's language", "statement": "Removing pass-through nodes from a transition network leaves the set of accepted sequences unchanged.", "quantifier": "every network and every sequence", "why_tests_cant": "language equality over arbitrary graphs", "anchors": ["src/core/ATN.hpp: ATNMachine::drop_passthrough_nodes, filter_nodes"]}
{"id": "C31", "title": "Network optimisation preserves the declared priorities", "statement": "Removing pass-through nodes keeps the priorities declared with `|>`: the same alternatives have the same relative priority before and after.", "quantifier": "every network", "why_tests_cant": "depends on the shape of every alternative", "anchors": ["src/core/ATN.hpp: ATNMachine::drop_passthrough_nodes"]}
{"id": "C32", "title": "The decision automaton chooses the alternative the input belongs to", "statement": "At a decision point with alternatives whose first k characters differ, the lookahead automaton returns the number of the alternative whose first characters match the input.", "quantifier": "every decision point, every input", "why_tests_cant": "quantifies over all grammars and continuations", "anchors": ["src/core/LookaheadDFA.hpp", "src/core/CompositeATN.cpp", "src/core/CompositeATN.hpp"]}
{"id": "C33", "title": "Rejected input is reported, never silently half-evaluated", "statement": "If the input is not in the language of the grammar, parsing reports it; no value computed from a partial or stale marker stream is presented as the result.", "quantifier": "every grammar, every rejected input, every reject position", "why_tests_cant": "depends on what earlier banks contained when the reject happened", "anchors": ["src/core/Context.hpp: Context::parse", "src/core/Stage1Runner.hpp: thread_runner_impl", "src/core/CodeGenEM64T.cpp"]}
{"id": "C34", "title": "Comments and white space in grammar files are skipped exactly", "statement": "Skipping white space in a grammar text advances over exactly the maximal sequence of white space, `//` line comments and `/* */` comments, and terminates on every text.", "quantifier": "every text and start position", "why_tests_cant": "text of unbounded length with nested comment look-alikes", "anchors": ["src/core/Stream.hpp: skip_whitespace, skip_multiline_comment, skip_oneline_comment"]}
{"id": "C35", "title": "Line endings are normalised consistently", "statement": "Reading a text character by character, a CR LF pair counts as one line end, and the number of line ends seen does not depend on how the characters are interleaved with peeks.", "quantifier": "every text", "why_tests_cant": "texts of unbounded length", "anchors": ["src/core/Stream.hpp: get, peek, discard"]}
{"id": "C36", "title": "Included grammar files are resolved relative to the including file", "statement": "`include \"x\"` in file D/f opens D/x; and if x is in the current directory form (no slash) the path is used as is.", "quantifier": "all paths", "why_tests_cant": "all strings", "anchors": ["src/core/Grammar.cpp: make_include_path"]}
{"id": "C37", "title": "Reading a grammar terminates", "statement": "Reading any grammar text ends with a grammar or an exception.", "quantifier": "every text", "why_tests_cant": "non-termination cannot be observed by a finite test", "anchors": ["src/core/Grammar.cpp: Grammar::parse"]}
{"id": "C38", "title": "Shared-memory regions never overlap", "statement": "The program-wide control block and the banks occupy pairwise disjoint regions within the mapped window for every bank size and bank count.", "quantifier": "all bank sizes and bank counts", "why_tests_cant": "arithmetic over all sizes, incl. alignment", "anchors": ["src/core/BaseRunner.hpp: get_window_size, ALIGN_NEXT", "src/core/Stage1Runner.hpp"]}
{"id": "C39", "title": "Rule priorities form a consistent order", "statement": "The ordering used to keep lookahead configurations in sorted containers is a strict weak order, so no configuration is lost or duplicated.", "quantifier": "all triples of configurations", "why_tests_cant": "transitivity over an infinite domain", "anchors": ["src/core/Util.hpp: ATNPath::compare, PriorityChain::compare", "src/core/CompositeATN.hpp: CATNClosureElement::operator<"]}
{"id": "C40", "title": "Identifiers are read maximally", "statement": "Reading an identifier from a text consumes exactly the longest prefix that starts with a letter or underscore and continues with letters, digits or underscores, and fails iff there is none.", "quantifier": "every text", "why_tests_cant": "all strings", "anchors": ["src/core/Identifier.hpp: Identifier::parse"]}
{"id": "C41", "title": "Parsing ends on every input", "statement": "A call of the generated parser returns, with a result or a rejection, on every NUL-terminated input.", "quantifier": "every grammar and every input", "why_tests_cant": "non-termination depends on the grammar's recursion structure over unbounded inputs", "anchors": ["src/core/CodeGenEM64T.cpp: ParserEM64T::init, emit_machine", "src/core/Stage1Runner.hpp"]}
{"id": "C42", "title": "Texts of the grammar are accepted", "statement": "A text that derives from the first rule of the grammar is accepted by the generated parser, which finds that derivation.", "quantifier": "every grammar and every text", "why_tests_cant": "ranges over all grammars and all texts; which texts are lost depends on the lookahead tables of every decision point", "anchors": ["src/core/CodeGenEM64T.cpp: ParserEM64T::emit_machine", "src/core/LookaheadDFA.hpp: LookaheadDFA", "src/core/CompositeATN.cpp: build_closure_exclusive"]}
{"id": "C43", "title": "Every grammar can be compiled", "statement": "For every grammar without left recursion, the construction of the decision tables ends, and without an exception.", "quantifier": "every grammar", "why_tests_cant": "termination of a recursive construction over all grammars", "anchors": ["src/core/CompositeATN.cpp: build_wildcard_closure, build_closure_exclusive, build_closure_inclusive", "src/core/LookaheadDFA.hpp: fork_closures"]}
{"id": "C44", "title": "Parse after parse in one process", "statement": "Every call of parse is as well equipped as the first: it finds its input mapped, a shared memory and a semaphore of its own, and gives everything it took back to the operating system, so the number and the timing of earlier or simultaneous parses do not matter.", "quantifier": "every history of parse calls, numbers of workers, descriptor limits, concurrent and crashed parses", "why_tests_cant": "leaks and name clashes only show after long histories or with unlucky timing", "anchors": ["src/core/BaseRunner.hpp: BaseRunner, acquire_memory, release_memory, create_semaphore, open_semaphore, close_semaphore", "src/core/Context.hpp: Context::parse", "src/python/centaurus/context.py: Context.parse"]}
{"id": "C45", "title": "The text parsed is the file", "statement": "For every input file, the text the parser sees is the contents of the file: whatever its size and bytes, no byte behind the end of the file is read as text or kills the process.", "quantifier": "every file, of every size and contents, and every grammar", "why_tests_cant": "depends on the size modulo the page size and on what happens to be mapped behind the file", "anchors": ["src/core/BaseRunner.hpp: BaseRunner::BaseRunner, get_input", "src/core/Stage1Runner.hpp: thread_runner_impl", "src/core/CodeGenEM64T.cpp: MatchRoutineEM64T::emit, DFARoutineEM64T::emit"]}
{"id": "C46", "title": "A parser without output gives the same answer", "statement": "A parser created with dry = true (ParserCreate(grammar, true), DryParserEM64T) called on an input returns exactly when the ordinary parser of the same grammar would, and returns the same value: the address behind the matched text, or NULL. It calls the listener for no page, stores nothing, restores all registers, and never reads outside the mapped input.", "quantifier": "every grammar the generator can compile, every input text, every content of output memory and every register content at the call", "why_tests_cant": "the two code generators are separate pieces of code; agreement has to hold for every grammar and input", "anchors": ["src/core/CodeGenEM64T.cpp: DryParserEM64T::DryParserEM64T, DryParserEM64T::emit_machine", "src/core/CodeGenEM64T.hpp: DryParserEM64T::operator()", "src/pydll/PyCentaurus.cpp: ParserCreate"]}
{"id": "C47", "title": "A stage-1 runner alone, dry and captured runs", "statement": "A Stage1Runner constructed with is_dry = true ends its run without any worker, whatever the number of banks, and with is_result_captured = true result_chunks() then holds the parser's pages in order, so that the markers read from it (each chunk up to its first zero word) are exactly those of the derivation of an accepted input. A run with an ordinary parser and neither workers nor is_dry does not end.", "quantifier": "every number of banks and pages, every previous content of the shared memory, every pattern of spurious compare-exchange failures that is not all failures", "why_tests_cant": "the number of pages depends on the input and can exceed the number of banks by any factor; non-termination cannot be observed", "anchors": ["src/core/Stage1Runner.hpp: acquire_bank, release_bank, signal_exit, result_chunks", "benchmarks/cpp/dry.cpp", "tests/CodeGenTest.cpp: ParserGenTest1"]}
{"id": "C48", "title": "Each rule is handled by its own listener method", "statement": "When a Python listener is attached to a grammar, the method called for every node of the parse tree is parse<Rule> for the rule of that node, or defaultact if the listener has no such method; no other method is ever called for it. Attaching a listener fails exactly if some rule has neither method, and names such a rule; creating the Python grammar object fails exactly if a rule name is declared twice.", "quantifier": "every grammar file that is read, every set of methods of the listener, every derivation", "why_tests_cant": "ids, names and handler positions are numbered in three different places and must agree for every grammar and every listener", "anchors": ["src/python/centaurus/corelib.py: Grammar", "src/python/centaurus/listener.py: BaseListenerAdapter", "src/core/Grammar.hpp: enum_machines, get_machine_id", "src/pydll/PyCentaurus.cpp: GrammarEnumMachines"]}
{"id": "C49", "title": "The chaser reports the symbols of a rule and agrees with the parser", "statement": "Calling the chaser's function for a rule at a place in the text calls the listener, in order, for the symbols of one alternative of that rule: terminal_callback with number, begin and end of each numbered terminal, nonterminal_callback with the rule number and the place of each reference, going on where the listener says; it returns the place behind the last symbol, or NULL if the text does not fit, leaves all other registers and the stack alone, and never reads outside the text as long as the listener's answers lie in it. A listener that answers by calling the chaser again builds exactly the tree the parser writes, and succeeds exactly if the parser does.", "quantifier": "every grammar that compiles to code in the modelled way, every text, every place in it, every listener (its answers and what it does to scratch registers may depend on everything reported before), every register and stack contents", "why_tests_cant": "the listener's answers are arbitrary and decide where the generated code goes on reading; the agreement with the parser is a statement about all grammars, texts and nesting depths", "anchors": ["src/core/CodeGenEM64T.cpp: ChaserEM64T::init, emit_machine, request_nonterminal, push_terminal", "src/core/CodeGenUtilsEM64T.hpp: call_abs", "src/core/CodeGenEM64T.hpp: ChaserEM64T", "src/core/BaseListener.hpp: BaseListener"]}
{"id": "C50", "title": "Grammar verification decides whether the parser can be built", "statement": "Grammar::verify (the tool's verify-grammar) says yes exactly if every rule name used in a rule that counts is declared and at every decision of every rule the construction of the decision table succeeds; it gives one answer, throws nothing, and ends for every grammar without empty repetitions. After a yes the construction of the parser builds every table and every pattern automaton (patterns without empty repetitions), so the parser has what its correctness needs; after a no (with declared references) it never succeeds; and whenever it succeeds, verification says yes.", "quantifier": "every grammar file, every order in which the rules are stored, optimised or not, every number of steps", "why_tests_cant": "verification and code generation must agree on all grammars, not on the ones tried; 'never succeeds' and 'ends' quantify over all running times", "anchors": ["src/core/Grammar.cpp: Grammar::verify", "src/core/ATN.cpp: ATNMachine::verify_invocations", "src/core/CompositeATN.cpp: CompositeATN::verify_decisions", "src/core/CodeGenEM64T.cpp: ParserEM64T::init, emit_machine", "src/tool/main.cpp: verify-grammar"]}
{"id": "C51", "title": "Malformed patterns, rules and grammar files are refused", "statement": "Reading a grammar never silently accepts nonsense: every text accepted as a pattern, as a rule body or as a grammar file has a written form (brackets closed, escapes of escapable characters only, quotes and bodies closed, numbers in braces, rules separated by bars, declarations in a row), the grammar then has exactly the declared rules in their order with the meaning of their text, and every other text raises an exception.", "quantifier": "every text (patterns: any characters; bodies and files: without NUL), every set of included files", "why_tests_cant": "refusing everything outside a language is a statement about all texts", "anchors": ["src/core/NFA.hpp: parse, parse_unit, parse_selection", "src/core/CharClass.hpp: CharClass::parse", "src/core/ATN.cpp: ATNNode::parse, ATNMachine::parse, parse_atom, parse_selection, parse_sequence", "src/core/Grammar.cpp: Grammar::parse", "src/core/Stream.hpp: skip_whitespace"]}
{"id": "C52", "title": "A place named to the tool is that place", "statement": "A place of a grammar is written Rule.number, a path of places Rule.number/Rule.number/.... Whatever path the tool prints it reads back as the same path; exactly such texts (numbers that fit an int) are accepted, all others refused. generate-nfa at the k-th pattern's place of a rule draws the automaton of the k-th pattern in the rule's text, at other places of the rule nothing, and an undeclared rule is refused. verify-grammar answers no because of a decision exactly if it names a place, and the place is a decision whose table cannot be built. generate-ldfa at that place fails in the same way (refuted: the number is taken in the numbering of generate-catn, so a table of another node can be drawn).", "quantifier": "all texts, all paths, all grammar files, all rules and nodes", "why_tests_cant": "there are infinitely many grammars, places and texts; a test sees a few of them, and the numbering mismatch only shows for nodes behind a literal of two characters or more or a pattern", "anchors": ["src/core/Util.cpp:operator<<(ATNPath)", "src/core/Util.cpp:ATNPath::parse", "src/core/Grammar.hpp:resolve,print_nfa,print_dfa", "src/core/Grammar.cpp:print_ldfa", "src/core/CompositeATN.cpp:verify_decisions", "src/tool/main.cpp"]}
{"id": "C53", "title": "A drawing shows the automaton", "statement": "What generate-nfa, generate-dfa, generate-ldfa and generate-catn write is a graph in the DOT language, called after the rule (NFA or DFA for a pattern given with -e), that shows the automaton: one node for each state, in order, with its number as name and label (the deterministic automaton: the set of source states; double circles exactly for accepting states; an invisible node pointing at the start; generate-ldfa: double circles for the alternatives up to the largest that can be chosen; generate-catn: the name of the rule invoked); one arrow for each transition, in order, from its source to its target, whose label displays the class of characters, characters that are not visible as backslash x and hexadecimal digits, and the ways possessive repetition is marked. Two classes whose ends are visible characters other than a dash are displayed differently. Refuted: in general the label does not determine the class ([!\\-~] and [!-~] are drawn alike), and a rule named like a keyword of DOT (Node, Edge, Graph, ...) gives a text that is not a graph.", "quantifier": "all automata with labels of byte ranges, in particular of all patterns and all places of all grammar files; all rule names", "why_tests_cant": "a test draws a few automata; escapes, keyword names and ambiguous labels depend on every character of a class and every rule name", "anchors": ["src/core/NFA.hpp:NFABaseState::print,NFABase::print", "src/core/DFA.hpp:DFAState::print,DFA::print", "src/core/LookaheadDFA.hpp:LDFAState::print,LookaheadDFA::print,get_color_num", "src/core/CompositeATN.hpp:CATNNode::print,CATNMachine::print", "src/core/CharClass.cpp:printc,operator<<", "src/core/Util.cpp:operator<<(IndexVector)"]}
{"id": "C54", "title": "The drawing of a grammar shows the networks of its rules", "statement": "For every grammar file whose rules refer to declared rules, and for every depth, optimised or not, generate-atn writes a graph in the DOT language called after the first rule, with one cluster for that rule. The cluster of a rule is labelled with the rule's name and its number in the surrounding one; in it are, in order, one item for each node of the rule's network (an empty box, a box with two quotation marks for a literal, a box [ ] for white space, a cluster with the automaton of a pattern, for a reference the cluster of the rule referred to or, if the depth is used up or the drawing is inside that rule already, a box with its name), each with its number, and then one arrow for each transition, from the last node of its source to the first node of its target. From one more than the number of rules on, the depth does not matter, and a negative depth means no limit. Different nodes and clusters have different names if no rule's name ends in a digit or in _N. Nothing is written exactly if a chain of references not longer than the depth leads to a rule that is not declared. Refuted: a first rule named like a keyword of DOT gives a text that is not a graph; rules whose names end in digits can give two nodes the same name, which merges them in the picture.", "quantifier": "all networks made from grammar files (any rule set, nesting and recursion), all depths including negative ones, all rule names", "why_tests_cant": "a test draws a few grammars; recursion, depth, the counter in the names and the entry and exit of nested clusters depend on the whole grammar", "anchors": ["src/core/ATN.hpp:ATNPrinter,ATNNode::print,ATNNode::get_entry_exit_wide", "src/core/NFA.hpp:NFABase::print_subgraph,NFABaseState::print_subgraph,get_entry_wide,get_exit_wide", "src/core/Grammar.hpp:Grammar::print,Grammar::print_grammar,Grammar::optimize", "src/tool/main.cpp:generate-atn"]}
