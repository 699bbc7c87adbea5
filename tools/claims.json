{
 "C01": {
  "status": "proved",
  "note": "Membership exact for every class and range; separation under the stated neighbour condition (with a refutation showing the condition is needed)."
 },
 "C02": {
  "status": "partial",
  "note": "False in general (C02_union_refuted: {[1,3)}|{[2,6)} loses 1). Proved: exact for operands without common characters, identity on equal operands, and soundness (nothing invented) always. Also exactly when: the union is lossless if and only if no range of one operand begins strictly inside a range of the other and reaches beyond that whole other operand (C02_union_exact_iff_partial)."
 },
 "C03": {
  "status": "proved",
  "note": "Exact, separated, involutive on separated classes in 1..254."
 },
 "C04": {
  "status": "proved",
  "note": ""
 },
 "C05": {
  "status": "proved",
  "note": ""
 },
 "C06": {
  "status": "partial",
  "note": "Plain brackets exact for every way of writing the items, and exactly the well-written texts are accepted (C06_bracket_syntax). Negated brackets: exact when no item bridges the items before it (touches two of them with a character of none in between), in particular when items are apart or ascending; false in general (C06_negated_bracket_refuted)."
 },
 "C15": {
  "status": "proved",
  "note": "For ids 1..32767 and offsets below 2^48 (all the encoding has room for); C15_large_id_refuted shows ids the grammar reader admits (C16) but the encoding corrupts. C15_trees: different trees have different marker streams."
 },
 "C19": {
  "status": "partial",
  "note": "Exact for every page size when bank size = page size (the only configuration Context::parse sets up). For other bank sizes the property is false: overrun when smaller, stale words when larger."
 },
 "C20": {
  "status": "partial",
  "note": "Proved for all trees, bank divisions and callbacks, assuming back() on an empty allocated vector<int> reads a non-positive word; strictly that read is undefined behaviour (C20_strict_refuted); unconditional for callbacks returning 0. Exactly when the undefined behaviour is reached: C20_strict_exactly_partial (unless the root's value is 0 and no bank begins with complete subtrees one of which has a value)."
 },
 "C21": {
  "status": "partial",
  "note": "Same assumption as C20. Multiset and per-stage order proved; stage 2 of a bank is the sequential evaluation of a list of complete trees."
 },
 "C25": {
  "status": "partial",
  "note": "Full pipeline (writer, banks, workers, merger) under every fair schedule gives the sequential value and calls, also end to end from the generated machine code on an accepted input (C25_end_to_end_partial); partial because it inherits C20's assumption on back() of an empty vector. From the rules: under the conditions of C42_first_character_partial a text with a greedy derivation ends, under every fair schedule, with the value of its tree (C25_first_character_partial); for json.cgr that is every text that has one (C25_json_grammar_partial). For every compiled grammar file: C25_compiled_file_partial; for json, xml, dblp, dblp_schema and citylots of /repo/grammars, with all hypotheses checked, on every text: C25_repository."
 },
 "C33": {
  "status": "partial",
  "note": "False: the generated parser returns 0 on the rejected input but Context::parse ignores it; with the page of an earlier parse the old value is presented for every callback (C33_rejected_input_refuted, C33_stale_result_refuted); text behind the root rule is ignored (C33_trailing_text_refuted). Proved half: an input with no derivable prefix always makes the generated code return 0 (C33_underivable_partial). Exactly (all grammar_ok grammars without preferences, every text): the code answers 0 iff the parse gets stuck, a relation on rule networks and the text (C33_rejected_exactly_partial; every text is accepted, stuck or goes round, never two: C33_three_ways_partial); the pages then hold the markers of the begun rules and of the finished subtrees, which are derivations, and behind them the old words of the last page (C33_rejected_pages_partial); on pages that were empty the parse presents the value of the first finished subtree with a value, for every callback (C33_rejected_value_partial), e.g. for json.cgr and the text [1,2 the value of 1 (C33_cut_text_refuted). Missing: grammars with preferences or without tables. Under the conditions of C42_first_character_partial and without left recursion or empty repetitions, the code answers 0 iff no beginning of the text has a greedy derivation (C33_first_character_partial)."
 },
 "C22": {
  "status": "proved",
  "note": "Every schedule, any number of workers and banks, including spurious compare-exchange failures; sequentially consistent memory."
 },
 "C23": {
  "status": "proved",
  "note": "Every schedule, any number of workers, banks and pages."
 },
 "C24": {
  "status": "proved",
  "note": "C24_terminates and C24_terminates_from_reachable for 1 <= workers <= banks (Context::parse uses banks = 2*workers). Outside the quantifier it fails: with more workers than banks a worker can wait for ever (C24_too_many_workers_refuted), with 0 workers the pipeline never ends (C24_zero_workers_refuted)."
 },
 "C34": {
  "status": "partial",
  "note": "Skipping terminates on every text (C34_terminates) and is exact for texts without CR and NUL (C34_skip_exact_partial). Exactly, for every text (C34_every_text_partial): what is skipped is the maximal sequence of blanks where a line comment ends only behind a lone LF or a NUL or at the end of the text (BlankSpec.v). So false as stated: with CR LF line ends a line comment swallows the following line (C34_crlf_comment_refuted), and in a file whose line ends are all CR LF everything behind it (C34_crlf_file_refuted)."
 },
 "C35": {
  "status": "partial",
  "note": "Line counting and character delivery characterised for every text. False as stated: CR LF is delivered as CR, not normalised (C35_not_normalised_refuted); a lone CR is not counted as a line."
 },
 "C36": {
  "status": "proved",
  "note": "Path arithmetic of the include directive (POSIX separators); file-system access itself is outside the model."
 },
 "C38": {
  "status": "proved",
  "note": "Offsets and sizes of the control block and all banks."
 },
 "C40": {
  "status": "proved",
  "note": ""
 },
 "C07": {
  "status": "partial",
  "note": "Exact for every pattern except those with '?' directly after a group ending in a '+' item, where extra words are accepted (C07_optional_group_refuted); nothing is ever lost (C07_nothing_lost). Which words are accepted is stated for every pattern, those included: C07_language, the language of TailSpec.v, equal to the ordinary one where no such '?' occurs (C07_language_safe). Characters 1..254, non-empty brackets, negated brackets as in C06."
 },
 "C08": {
  "status": "proved",
  "note": "Every NFA, every string, whenever the construction ends; determinism and well-formedness too; composed with C07 to go from pattern text to DFA answers."
 },
 "C09": {
  "status": "partial",
  "note": "False in general: C09_minimize_refuted (pattern a+: optimised DFA accepts nothing, because states are merged by transitions only, ignoring acceptance). Proved: the exact condition (C09_minimize_exactly_when: the language is kept iff states with equal transitions agree on acceptance, every state being reachable) and what the optimised DFA answers in every case (C09_minimize_answer)."
 },
 "C10": {
  "status": "partial",
  "note": "Exact characterisation: ends for every pattern with no * or + over a unit matching the empty text (C10_terminates_partial), never ends for any other pattern (C10_empty_loop_refuted); for arbitrary automata iff no reachable infinite epsilon path."
 },
 "C11": {
  "status": "partial",
  "note": "Machine-level: C11_memory_exact gives the exact behaviour of every DFA without possessive loops on any memory, NUL in labels allowed (returns the longest match and reads nothing further once the automaton halts; faults if it has not halted at the end of mapped memory). From the pattern text, dot allowed: C11_dot_exact / C11_dot_default_exact (returns iff what is mapped is settled, i.e. an initial part of it cannot be prolonged to a match) and C11_terminated_exact: on a NUL-terminated text at the end of memory the property holds exactly if the text with its NUL is settled and is not itself a match. For patterns without dot that is always so (C11_pattern_partial, C11_default_partial); with possessive quantifiers C11_possessive_partial. False in general: the dot class contains NUL (C11_dot_refuted: runs past the terminator), possessive loops read up to 15 bytes behind the NUL (C11_overread_refuted). The optimised automaton only under C09's condition."
 },
 "C12": {
  "status": "partial",
  "note": "The loop is exact for every class and every memory (C12_vector_loop_exact): it passes the maximal run of the ranges its 16-byte pattern holds (at most eight, none behind one that is empty or begins with NUL) if the blocks up to the end of the run are mapped, and faults otherwise. It therefore does what the byte-wise loop would if and only if the class has at most 8 ranges and no NUL (C12_loop_iff). Whole automata: possessive and byte-wise code return the same given 15 readable bytes behind the NUL (C12_same_as_bytewise_partial). False otherwise: nine ranges, classes with NUL, two loops in one state after minimisation (three refutations)."
 },
 "C13": {
  "status": "partial",
  "note": "Exact for every literal of bytes 1..255, every content of the uninitialised constant bytes and every memory: C13_memory_exact states what has to be mapped behind the argument (enough_for) for the routine to return the right answer, and that with less it faults. The property as written fails only in that a literal of 8 or more bytes reads sixteen bytes per block, past the NUL (C13_overread_refuted)."
 },
 "C14": {
  "status": "proved",
  "note": "Every text; nothing behind the NUL is read."
 },
 "C29": {
  "status": "proved",
  "note": "Networks built by the grammar reader (ATN.cpp) from the text of a rule body; reading ends on every text; pattern symbols are the NFAs of C07."
 },
 "C30": {
  "status": "proved",
  "note": "For every closed network on which pass-through removal succeeds; it succeeds for every rule body read from a text."
 },
 "C31": {
  "status": "partial",
  "note": "The priorities before and after optimisation are stated exactly, for every rule body, as functions of its EBNF expression (C31_priorities_exact; which groups keep theirs: BarSpec). Where none is lost (in particular where |> is used at the outermost level only) every path keeps its symbols and priorities in order (C31_priorities_kept_partial, C31_outermost_partial); in all other bodies fewer transitions have a priority afterwards (C31_priorities_lost, and C31_priorities_refuted for a path), so the full claim is false of the code."
 },
 "C16": {
  "status": "partial",
  "note": "Distinct ids, id = position of first declaration, root = first rule hold for every successful read. The range 1..number of rules holds exactly if no rule is declared again before all have been declared (C16_range_iff), the 15-bit fit needs at most 32767 rules; both limits are not enforced by the code (refuted)."
 },
 "C17": {
  "status": "partial",
  "note": "Exact for every grammar read and every sequence of attach calls (C17_attach_exact): inside the table if and only if each rule's first declaration is not later than the number of different names, and then each rule's id calls the callback attached last to it; otherwise a write outside the table. For all rules if and only if no rule is declared again before all have been declared (C17_every_rule_iff), in particular without duplicate names (C17_attach_partial); refuted for A:; A:; B:;. That the ids in markers are these ids is part of the generated code (C18)."
 },
 "C37": {
  "status": "partial",
  "note": "Proved for file sets without circular includes and with closed include quotes (in particular every text without include); refuted for an unterminated quote and for circular includes."
 },
 "C18": {
  "status": "proved",
  "note": "Machine-code level: whenever the generated parser returns an address, the pages hold exactly the marker stream of a derivation tree of the root rule over a prefix of the input; nesting, offsets, ids. For grammars the generator handles (gen_ok: literals of bytes 1..255, DFA/decision tables well formed, 15 readable bytes behind the text if long literals or possessive loops occur). Also: never leaves code or mapped memory; from the text of the grammar file (C18_grammar_file) for patterns whose minimised DFA is exact (C09). C18_compiled_file: the same for the whole chain, from the text of a grammar file, with the decision tables the program builds itself (grammar_ok: patterns whose DFA is exact, no decision directly behind a pattern ending in +); C18_compiled_hyp instantiates it with grammars/json.cgr of the repository. For five of the grammars in /repo/grammars (json, xml, dblp, dblp_schema, and citylots with its include) all hypotheses are checked: on every text of bytes 1 to 255 the generated parser returns, with one result, and a result other than 0 comes with a derivation and its markers (C18_repository); accepted dblp and citylots documents are given. (xml.cgr accepts nothing: C42_xml_refuted; calc.cgr has an undecidable choice: C43_calc_refuted; citylots_eager and lua are not instantiated.)"
 },
 "C26": {
  "status": "partial",
  "note": "Each callback belongs to a node of the derivation tree, read() returns exactly its characters, children nested and ordered (C26_callback_text_partial, nodes shorter than 2^31 characters). Exactly for every length (C26_read_exact_partial): read() answers the node's characters if and only if there are fewer than 2^31; otherwise, len() being an int, it throws or answers only the first (length mod 2^32) of them. So false for longer texts: C26_long_text_refuted (throws), C26_cut_text_refuted (cut, without a sign)."
 },
 "C41": {
  "status": "partial",
  "note": "Proved on grammars: if no rule can start with itself without reading anything and nothing under * or + can be empty, the generated parser returns on every text (C41_rules_partial; from the text of the grammar file, with everything the program builds: C41_compiled_file_partial, instantiated with grammars/json.cgr for every text). The network-level version is C41_terminates_partial. Missing: grammars outside grammar_ok. False for left recursion: the generated code of S : S 'a' ; never returns (C41_left_recursion_refuted). Exactly when it returns, for grammars and calls as in C42: if and only if no walk of forced steps (LoopSpec: symbols with clear parses, decisions that the text behind settles, entries into rules) from the beginning of the root rule comes back to a place (rule, node, position) it has been at (C41_exactly_when); whether it does can depend on the text (C41_exactly_cases)."
 },
 "C32": {
  "status": "partial",
  "note": "For every grammar file the reader accepts, whatever automaton the lookahead construction returns for a node of a rule network: the way it answers is the only one the characters read so far can belong to, it answers as soon as there is only one, and it rejects only texts of no way. Missing: grammars with preferences (only soundness of the answer is proved); decision points directly after a pattern ending in + (C32_after_plus_refuted: the answer is wrong; C32_no_such_way_refuted: it is not the number of a way); the end of the text (C42)."
 },
 "C42": {
  "status": "partial",
  "note": "False as stated (C42_end_of_text_refuted: 'a'* rejects the text a, because the decision tables have no entry for the end of the text). Proved instead, exactly which texts are accepted: the generated code accepts n characters with tree t iff there is a clear parse (ClearSpec: patterns and white space as long as possible, and at every decision a non-empty part of the rest of the text belongs to one way only) of those n characters with tree t; clear parses are derivations. For grammars as in C18_compiled_file without preferences. In terms of the grammar rules alone (GreedySpec: derivations in which every pattern and every stretch of white space is as long as it can be): whatever is accepted has a greedy derivation (C42_accepted_greedy); conversely, where the first visible character decides at every node and something visible is still to come at every decision, a text is accepted exactly if some beginning of it has a greedy derivation, which is then unique, and its markers are in the pages (C42_first_character_partial). Both conditions have verified checkers; for grammars/json.cgr this is a complete specification of acceptance and rejection, for every text (C42_json_grammar). A first rule that ends in an open repetition (OpenEndSpec, on networks) is never accepted, whatever the text (C42_open_end_partial); grammars/xml.cgr of the repository is such a grammar: it has documents (<a/> is one, with its tree given), its parser always returns, and it rejects every text (C42_xml_refuted)."
 },
 "C43": {
  "status": "partial",
  "note": "C43_ends_partial: for every grammar file in which nothing under a star or plus can be empty (left recursion allowed), the construction of all decision tables ends, each with a table or an exception. C43_table_partial: exactly which decisions get a table (grammars without preferences, decisions not right behind a pattern ending in +): those at which, having read nothing or a text two ways have in common, one is never before a reference pending at the same place already and never at a place one can come back to without reading (TableSpec.v, in terms of the rules). C43_bounded_partial: the 'if' half with preferences too. C43_first_character_partial: from what the file says alone: no rule can begin or end with itself, no empty repetition, tokens visible (none stands for white space only), and the ways of the decision have at most white space in common: then it has a table. The rest is false as stated: C43_calc_refuted (grammars/calc.cgr of the repository has a decision that ends in an exception, whatever the order of the rules, optimised or not; C43_calc_unbounded shows why: right recursion), C43_empty_repetition_refuted (with an empty repetition the construction does not end)."
 },
 "C39": {
  "status": "partial",
  "note": "The comparison of configurations is a strict weak order whose equivalence is same place and same way, and a set built with it loses and duplicates no place or way. What is false: configurations that differ only in the preferences taken are merged, the first one stays; and the preference comparison itself is circular on some chains, so which configurations survive depends on the insertion order (refuted by concrete cases)."
 },
 "C27": {
  "status": "partial",
  "note": "Exactly when the image of the stacks does not fit is stated (C27_exact). It always fits if the bank has 4 words per level of nesting and 6 more (8 MiB banks: trees nested less than 262142 deep). False in general: for every bank size there is a tree whose first bank, filled by the parser, overruns (C27_refuted; the assert is compiled out)."
 },
 "C28": {
  "status": "partial",
  "note": "Value and handler calls are the sequential ones for every tree, handler, chunking with a non-empty first bank and, end to end, every fair schedule of parser, workers, merger and queue feeder threads, for banks with 4*depth+6 words and granting the back() read of C20. Channels: at most one list each, never lost, each bank gets its own values. Refuted: negative child index reads a value that is no child, empty first bank loses the result, strict back(). From the rules of a grammar and the text, under the conditions of C42_first_character_partial: C28_first_character_partial, and for json.cgr C28_json_grammar_partial."
 },
 "C44": {
  "status": "partial",
  "note": "Proved for sequential C++ parses while descriptors last and for the first Python parse. Refuted in general: each parse keeps w+1 descriptors for ever; a second parse of the same process (or pid) at the same time, after a crash, or a second Python parse, works on MAP_FAILED, SEM_FAILED or another parse's objects."
 },
 "C45": {
  "status": "partial",
  "note": "Proved for NUL-free files whose size is not a multiple of 4096 and leaves 15 bytes in the last page (or for grammars without vector code). Refuted: bytes behind a NUL are invisible, files of k*4096 bytes fault when nothing is mapped behind them, vector code reads too far in the last 15 bytes of a page, empty files cannot be mapped."
 },
 "C46": {
  "status": "proved",
  "note": "DryParser.v models the constructor and emit_machine of DryParserEM64T; same answer (both directions), no output, no fault, for every grammar and input in the setting of C18 (parser_env: decidable decisions, text followed by a NUL). m_runtime.add on each call (asmjit) is not modelled."
 },
 "C47": {
  "status": "proved",
  "note": "DryRun.v: Stage1Runner's own steps with is_dry / is_result_captured and no other process on the banks; ends with all pages captured in order (C47_dry_ends), markers of the derivation (C47_captured_markers), no pages (C47_no_pages); without is_dry never ends (C47_without_workers_refuted, which ParserGenTest1 does)."
 },
 "C48": {
  "status": "proved",
  "note": "PyGrammar.v: enumeration of the rules, ids dict and names list (with IndexError), constructor of the adapter, handlers[symbol.id]. C48_names (fails exactly for a duplicated name; ids and names agree with the ids the markers carry), C48_handlers (fails exactly for a rule without method; otherwise the method of the rule), C48_nodes (for every node of a derivation). Hypotheses met by the JSON grammar (C48_hyp); C48_duplicate_case."
 },
 "C49": {
  "status": "proved",
  "note": "Chaser.v: emitted code of one function per rule (prolog, match/DFA/skip/LDFA routines, call_abs sequences, epilog) on the x86 model extended by a callback instruction whose effect on answers and scratch registers is an arbitrary function of the history. C49_no_fault, C49_calls (sequence of symbols of the rule, registers restored), C49_children (every node of the parser's tree), C49_rebuilds/C49_no_other_tree and, from the grammar file, C49_compiled_file (chaser tree = parser tree, both ways). Outside the statement: the answer NULL (the default of BaseListener.hpp, or what a failed inner chase returns) makes the code read at address 0: C49_null_answer_refuted. The numbers in braces are an arbitrary parameter, the load of PATTERN_REG (never used) is left out. Hypotheses met: C49_hyp, C49_json."
 },
 "C50": {
  "status": "proved",
  "note": "Verify.v models Grammar::verify, verify_invocations, verify_decisions and the construction of automata and tables by ParserEM64T, on the model of the tables of Lookahead.v. Proved: C50_decides (yes iff references declared and all tables exist; one answer; no exception), C50_yes, C50_no, C50_verified_generates, C50_verified_parser (a yes gives grammar_ok, the hypothesis of C18/C41), C50_generated_verifies, C50_rejected. C50_ends: ends without empty repetitions. Outside the statement: it does not hold for patterns with empty repetitions (C50_pattern_loop_refuted: S : /(a*)*/ ; passes at once and the parser's construction never ends); the tool verifies the optimised networks while Context compiles the unoptimised ones: each theorem is about one and the same form. Cases: json.cgr yes, calc.cgr no, undeclared reference no. Of the repository's grammars json, xml, dblp, dblp_schema and citylots are verified with yes (xml although its parser rejects every text, C42_xml_refuted), calc with no (C50_repository)."
 },
 "C51": {
  "status": "partial",
  "note": "C51_pattern_forms_partial, C51_body_forms_partial, C51_file_forms_partial: everything accepted has one of the forms of SyntaxSpec.v (and the meaning of C07/C29/C16 where those apply); C51_*_refused: everything else raises an exception (files: or reading does not end, C37). C51_documented_forms: the documented pattern forms are among them. The forms are wider than the documented syntax, each extra form marked in SyntaxSpec.v: C51_pattern_refuted shows a group closed by a slash and a leading quantifier being accepted."
 },
 "C52": {
  "status": "partial",
  "note": "Printing and reading of places is exact in both directions, places of patterns are the patterns in the order of the text, reported places are decisions without a table. Missing because false: generate-ldfa at the reported place (C52_reported_place_refuted; C52_tables_drawn_partial says which number has to be typed). An index behind the last node is undefined behaviour (resolve does not check it) and is modelled as such. The -e option of generate-dfa always minimises (C52_e_dfa_refuted)."
 },
 "C53": {
  "status": "partial",
  "note": "The text of each drawing is read back by an independent reader of DOT (DotSpec.v) as exactly the states and transitions; instantiated at patterns (-e) and at every place of a grammar file. Missing because false: rule names that are DOT keywords (C53_keyword_refuted), and a label determining its class (C53_labels_refuted; true for clear ends, C53_labels_unique). generate-atn is C54; the reader takes a subset of DOT, enough for what is printed, and rejects the rest."
 },
 "C54": {
  "status": "partial",
  "note": "Proved for every grammar file with patterns of bytes and non-empty literals (C54_file_drawing) and for all networks of that form (C54_drawing); depth (C54_depth, C54_negative_depth) and refusal (C54_refused, an iff) at the level of networks. Missing because false: first rules named like DOT keywords (C54_keyword_refuted) and distinct names when rule names end in digits (C54_names_refuted, with a grammar file). Literals are drawn as two quotation marks whatever they are (so the code does), and a transition's preference is not drawn."
 }
}