# Formal model of Centaurus in Rocq/Coq — design

Target: `/repo` (satoshigeyuki/Centaurus), C++ sources in `src/core`, Python side in `src/python`.
Everything is proved about a hand-written Gallina model; every definition of the model carries a
comment citing the file and lines it models and the simplifications made.

## Layout (rocq/theories)

| area | model | spec vocabulary | proofs | property theorems |
|---|---|---|---|---|
| character classes | CharClass.v | CharClassSpec.v | CharClassProofs.v, CharClassParse.v | Properties_CharClass.v |
| markers, tree reduction, bank writer | Marker.v, Reduction.v, Writer.v | TreeSpec.v | MarkerProofs.v, ReductionProofs.v, Stage2Forest.v, WriterProofs.v | Properties_Reduction.v |
| bank protocol | Protocol.v | (transition system) | ProtocolInv.v, ProtocolLive.v, ProtocolFacts.v, PipelineProofs.v | Properties_Protocol.v |
| Python mode: stacks in the bank, listener adapters, queues | PyReduction.v, PyChannel.v | PySpec.v, TreeSpec.v | PyProofs.v, PyBank.v, PyMain.v, PyChannelProofs.v | Properties_Python.v |
| Operating-system resources of a parse | Resources.v | (in Resources.v: equipped) | Properties_Resources.v | Properties_Resources.v |
| Input file to text | InputMap.v | ParseSpec.v | Properties_Input.v | Properties_Input.v |
| Parser without output; stage 1 alone | DryParser.v (emitted code), DryRun.v | ParseSpec.v | DryParser.v, DryRun.v | Properties_Dry.v |
| Python grammar object and listener methods | PyGrammar.v | (method_for in the statements) | Properties_Handlers.v | Properties_Handlers.v |
| Chaser (generated code with listener callbacks) | Chaser.v | ChaserSpec.v, ParseSpec.v | ChaserTree.v, ChaserLift.v, ChaserSame.v | Properties_Chaser.v |
| grammar text reading | Stream.v | StreamSpec.v | StreamProofs.v | Properties_Text.v |
| include paths, memory layout | Layout.v | (in the statements) | - | Properties_Layout.v |
| patterns and NFAs | NFA.v | RegexSpec.v, NFASem.v | NFAProofs.v, NFABuild.v, NFAParse.v | Properties_NFA.v |
| DFA construction and minimisation | DFA.v | NFASem.v, RegexSpec.v | DFADep.v, DFAProofs.v, DFATerm.v, DFAPattern.v, DFAMin.v | Properties_DFA.v |
| generated machine code (DFA, literal, skip, decision routines) | X86.v (machine), CodeGen.v (emitters) | in the statements, RegexSpec.v | X86Step.v, CodeGenProofs.v, CodeGenSimd.v, CodeGenDfa.v, CodeGenMisc.v, CodeGenRoutine.v, CodeGenPlain.v, CodeGenMem.v, CodeGenMemLit.v, CodeGenMemLoop.v | Properties_CodeGen.v |
| rule bodies, networks, pass-through removal, grammar files | ATN.v, Grammar.v | GrammarSpec.v, ATNSem.v | ATNBuild.v, ATNParse.v, ATNOpt.v, Suffix.v, GrammarProofs.v | Properties_ATN.v, Properties_Grammar.v |
| whole generated parser, symbol context | ParserGen.v (emitted code), ParserRun.v (interpreter), SymCtx.v | ParseSpec.v, TreeSpec.v | ParserSim.v, ATNLive.v, ParserTree.v, ParserTop.v, ParserTerm.v, ATNLoop.v, ParserGround.v (EmptySpec.v: left recursion, empty repetition; EmptyCheck.v: examples only) | Properties_Parser.v, Properties_ParserCases.v, Properties_Ends.v |
| composite network, closures, decision automata | Lookahead.v | LookSpec.v, LookGrammarSpec.v | LookOrder.v, LookClosure.v, LookItems.v, LookAuto.v, LookMin.v, LookMain.v, LookImport.v, LookRead.v, LookSim.v, LookGrammar.v, LookWf.v, LookFit.v, LookNul.v, LookFuel.v | Properties_Look.v, Properties_Order.v |
| from the grammar file to the accepted texts | (all of the above) | ClearSpec.v, ParseSpec.v | ParserComplete.v; GrammarCheck.v, CompileCheck.v (checkers used for examples only) | Properties_Compile.v, Properties_CompileCases.v, Properties_Complete.v, Properties_CompleteCases.v |

(the table grows with the development; see the end of this file for the current status)

## Plan per property

* C01–C06 character classes: functions on lists of half-open ranges, proved by induction on the lists. C02: the exact
  condition under which a union loses characters (UnionExact.v), by induction following the merge loop.
* C07 regex → NFA: parser and construction modelled; a pattern is a text; denotation of a regex AST is
  an inductive language; theorem: NFA built for the AST accepts w iff w is in the language.
* C08/C09/C10 DFA: subset construction of DFA.hpp modelled with fuel; correctness by the usual
  simulation between sets of NFA states; minimisation modelled literally (ignores accept flags).
* C11–C14 generated machine code: the emitted instruction sequences are modelled as the small-step
  program they implement (labels, registers that matter: input pointer, backup pointer), byte by byte;
  pcmpistri is modelled by its Intel definition for the immediate values used. CodeGenMem.v: without possessive loops the
  behaviour on any memory, NUL inside labels included, is exact (C11_memory_exact, C11_dot_exact, C11_terminated_exact). CodeGenMemLit.v: the same for literals (C13_memory_exact); CodeGenMemLoop.v: the same for the vector loop and any class (C12_vector_loop_exact, C12_loop_iff).
* C15 markers: bit-level codec on N. C16/C17 grammar ids and callback table: list of definitions.
* C18/C19 parser output: recursive-descent machine emits markers; bank splitting modelled as the
  writer with a bound and a page request.
* C20/C21/C25/C26 reduction: stacks of Stage2/Stage3 non-recursive runners, against a tree evaluator. ReductionStrict.v: the exact
  condition for back() of an empty vector to be evaluated (a value at the bottom of a stack), by the same abstract stack machine.
* C22–C25 bank protocol: labelled transition system with an arbitrary number of workers and banks;
  invariants by induction over executions.
* C27/C28 Python mode: serialised stacks (word for word), listener adapters, one queue per bank with a feeder thread;
  simulation against the in-process reduction, codes for arbitrary Python values; product of the bank protocol with the queues.
* C29–C31 ATN construction and pass-through elimination: graphs and path languages.  C31 is
  settled exactly: ATNGone characterises the removed nodes of any network (one transition in,
  predecessor not removed) and counts the transitions lost with them; ATNBars follows the
  construction of a rule body and finds them on the expression (specification: BarSpec).
* C32 lookahead DFA: closures with colours.
* C33 reject path: what the pipeline returns when stage 1 rejects. Exactly when it rejects and what is presented then: parses that get stuck (StuckSpec.v) are the interpreter's rejecting runs (StuckProofs.v); RejectBanks.v gives the words in the banks (the open rules, then what the last page held) and the reduction of such an unfinished stream by induction over the open rules (Properties_Reject.v).
* C34/C35/C40 stream reading, comments, identifiers; C36 include paths; C37 termination of grammar reading. C34 for every text, CR and NUL included: BlankSpec.v (blanks over units of the text), Properties_Blanks.v.
* C41 termination of the generated parser: measure on (characters left, position in a walk through the
  networks that reads nothing); refuted for left recursion by an induction on the number of steps. Exactly when it ends (C41_exactly_when): walks of forced steps (LoopSpec.v) are the interpreter's progress (LoopProofs.v, with the two directions of C42); finitely many places, so the walk is well-founded iff it meets no place twice.
* C42 accepted texts: clear parses on networks (only one way on at every decision) and runs of the parser, both directions. In terms of rules only (GreedySpec.v): greedy derivations = runs through the networks with any way at each decision (GreedyProofs.v, through the language of the network and the fact, GreedyNet.v, that only the last node has no way on); where the first visible character decides and something visible follows every decision, such a run is clear: take the whole rest of the derivation as the deciding text.
* C42 open ends (OpenEndSpec.v, Properties_OpenEnd.v): a rule whose silent end places are entered from places with several ways only has no clear parse (induction on clear parses: a decision needs a non-empty text of one way only), so nothing is accepted; a verified checker finds such rules; grammars/xml.cgr.
* C18/C41 on the repository's grammars (Properties_Repository.v): the checkers of CompileCheck.v and EmptyCheck.v run by the kernel on json, xml, dblp, dblp_schema and citylots (its include resolved by a lemma on appending rules to a file).
* C25/C28 from rules to result (Properties_GreedyRun.v, Properties_GreedyPy.v): the greedy derivation of C42, the run of the generated code, its pages (WriterProofs), the reduction under every fair schedule (PipelineProofs; C28_end_to_end_partial for Python), put together in one statement; hypotheses only about the grammar file, the memory and the schedule.
* C43 compilation ends: LookEnds.v bounds the closures (silent walks to the end of a machine are well-founded), departures and number of configurations (positions on stacks without a third repetition), so ldfa_build ends; LookEmpty.v derives the well-foundedness from the rules (no empty repetition); fuel monotonicity (LookFuel.v); concrete grammars for which no fuel is enough, or which end in an exception. Which decisions get a table, exactly: LookStuck.v/LookTable.v show that ldfa_build succeeds iff no place reached by a live text is stuck (a repeated invocation on the stack, or a silent circle) - the inner loops end by well-founded induction on silent runs, the outer loop by the finite set of configurations; LookStuckSim.v/LookUnbounded.v move this from the composite network to the rules (TableSpec.v) by simulation in both directions. LookBounded.v: from the rules alone, without recursion at either end of a rule and with visible tokens, no place reached by white space is stuck (stack invariants; a silent circle would be an empty repetition or a right recursion), so decisions settled by the first visible character have tables.
* C44 histories of parses: name space (one shared-memory and one semaphore name per pid) and descriptor count as state; induction over the number of parses; counterexamples for leaks, concurrency, crashes, a second Python parse.
* C45 input mapping: zero-filled whole pages; the C18 theorem instantiated for a mapped file; monotonicity of the machine in its memory shows that a file of k*4096 bytes faults when the parser has to see its end.
* C46 parser without output: its own emitter, simulated against the same interpreter as the ordinary parser. C47 stage 1 alone: its steps with the dry/captured options; termination under fair compare-exchange, non-termination by an invariant.
* C48 listener methods: Python dict/list operations with their exceptions, induction over the declarations.
* C51 syntax: the accepted texts as inductive forms (SyntaxSpec.v, wider than the documented ones where the reader is); converse of the parsers' correctness, by induction on the fuel with the tree built so far as accumulator.
* C52 places: printing and reading of paths as functions on texts (Tool.v), their texts as a small grammar (PathSpec.v), exactness by induction; nodes of a rule in the order of its terms (ToolNodes.v) for the automata drawn.
* C53 drawings: the printers as functions to texts (Draw.v), a reader of the DOT language and of its escapes in labels as the specification (DotSpec.v); reading what is printed gives the states and transitions in order, by induction over the automaton (DrawProofs.v); the labels of deterministic automata stay byte ranges and non-empty (DrawDfa.v).
* C54 drawing of a grammar: ATNPrinter as a function of the depth, the stack and the counter (DrawAtn.v); a reader of DOT with subgraphs (ClusterSpec.v) and a relation between networks and the items read (AtnShownSpec.v) as the specification; induction over the depth and the nodes, with the names used tracked as (rule, counter, node, state) and shown injective (DrawAtnProofs.v); networks stay drawable under drop_passthrough (DrawAtnNet.v).
* C50 verification: the loops of verify and of the code generator over the model of the tables (C32/C43); yes/no characterised by induction over nodes and rules, references by the languages of the networks; step bounds by monotonicity.
* C49 chaser: the emitted code with a callback instruction (listener: arbitrary function of what was reported before), simulated against an interpreter; walks through a network give the visits of the specification; chaser tree and parser tree by induction over trees / runs.
* C38 memory layout arithmetic. C39 comparison functions of closure elements.

## Outcome conventions

* `None`/`PThrow`/`UB` are distinct outcomes: exception thrown, undefined behaviour (out-of-bounds
  access, `back()` on an empty vector) are never mapped to a normal-looking value.
* Fuelled functions return `None` when fuel runs out and theorems state that it does not.
* A theorem `X_partial` proves less than the English property (what is missing is said in MANIFEST.json);
  `X_refuted` exhibits a concrete input on which the code violates the property.

## Trusted base

* Coq 8.16.1 kernel. No axioms: every property theorem prints "Closed under the global context"
  (exceptions would be listed here).
* `vcheck` lists a few standard-library names (module-type fields of ssrunder) as library axioms; they
  are loaded by `ZifyBool`, no theorem rests on them.
* The reading of the C++ text into Gallina (no code was compiled or run).
* X86.v: the meaning of the x86-64 instructions the generator emits (Intel SDM), asmjit's label
  resolution and the calling convention. Instruction encoding, self-modifying code, alignment
  checks of `movdqa` constants (asmjit aligns them) and signals are outside the model.

### Which code is modelled

Modelled, function by function (the citing comments are in the named files): CharClass.hpp/.cpp (parsing,
set operations), NFA.hpp (pattern parser, construction), DFA.hpp (construction, minimisation), ATN.hpp/.cpp
(rule bodies, networks, optimisation), Grammar.hpp/.cpp (files, includes, ids, verification), Stream.hpp,
Identifier.hpp (what is read), CompositeATN.hpp/.cpp (composite network, closures, departures), LookaheadDFA.hpp
(construction, minimisation), CodeGenEM64T.cpp and CodeGenUtilsEM64T.hpp (parser, dry parser, chaser, DFA,
literal, skip and decision routines), Util.hpp (markers, symbol contexts), Context.hpp, BaseRunner.hpp,
Stage1Runner.hpp, Stage2RunnerNonRecursive.hpp, Stage3RunnerNonRecursive.hpp (threads, banks, reduction),
Input.hpp (mapping), PyCentaurus.cpp, context.py, corelib.py, listener.py (Python mode), main.cpp (the commands that draw and verify), the
Graphviz printers of NFA.hpp, DFA.hpp, LookaheadDFA.hpp and CompositeATN.hpp.

Not modelled: Windows branches (`#if defined(CENTAURUS_BUILD_WINDOWS)`); Charset.hpp, Encoding.hpp (wide
encodings, not used by the parser pipeline); Factory.cpp (two constructors); Stage2Runner.hpp and Stage3Runner.hpp
(recursive runners, not included by StageRunners.hpp); the debugging output (`operator<<`) that no property
names; Logger.py; clipp.h; the instruction encoder asmjit; the C++ standard library's containers
(their specification is used: vectors as lists, maps as lists of pairs with distinct keys, hash tables as sets) and
memory exhaustion.
