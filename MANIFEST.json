{
 "claims": [
  {
   "property": "C01",
   "status": "proved",
   "theorems": [
    "C01_FindFirstSets"
   ],
   "note": "FindFirstSets model: terminates on every well-formed grammar with the stated fuel, flags and sets exact."
  },
  {
   "property": "C02",
   "status": "proved",
   "theorems": [
    "C02_FindStates"
   ],
   "note": "FindStates/getstate/buildshifts/Configlist_*/State_find modelled; termination and exact LR(0) automaton, for grammars with fewer than 2^30 items (capacity of msort). Hash chains abstracted to lookups (C23)."
  },
  {
   "property": "C03",
   "status": "proved",
   "theorems": [
    "C03_lookaheads",
    "C03_lalr1"
   ],
   "note": "FindLinks and FindFollowSets; follow sets exactly the LR(0)-context lookaheads for every grammar and the LALR(1) lookaheads (merged canonical LR(1)) when every nonterminal is productive."
  },
  {
   "property": "C04",
   "status": "proved",
   "theorems": [
    "C04_analysis_terminates",
    "C04_action_lists"
   ],
   "note": "FindActions up to the accepting token: shifts = transitions of the LR(0) automaton, reduces = lookaheads of completed items, one accept in the first state, nothing else."
  },
  {
   "property": "C05",
   "status": "proved",
   "theorems": [
    "C05_shift_reduce",
    "C05_reduce_reduce"
   ],
   "note": "resolve_conflict and the resolution loops: verdict for a shift/reduce and a reduce/reduce pair in any state, independent of all other actions, with the count. A nonassociative tie leaves ERROR and REDUCE entries; which one reaches the table is a matter of C09/C12."
  },
  {
   "property": "C06",
   "status": "partial",
   "theorems": [
    "C06_one_live",
    "C06_completes",
    "C06_abort_refuted",
    "C06_start_abort_refuted",
    "C06_error_and_reduce_refuted"
   ],
   "note": "As written the statement is false: witnesses for an abort (nonassociative tie followed by a second reduction; start symbol left recursive) and for an ERROR entry beside a REDUCE entry. Proved: at most one of shift/reduce/accept survives per symbol, survivors come from the unresolved list, and completion under the exact excluded conditions."
  },
  {
   "property": "C07",
   "status": "proved",
   "theorems": [
    "C07_conflict_count"
   ],
   "note": "Count with all precedences absent, for every address assignment used by the sort."
  },
  {
   "property": "C08",
   "status": "proved",
   "theorems": [
    "C08_rule_precedence"
   ],
   "note": "FindRulePrecedences in both modes and with -u; in yacc mode the last terminal counts even if it has no precedence."
  },
  {
   "property": "C09",
   "status": "partial",
   "theorems": [
    "C09_present",
    "C09_absent_safe",
    "C09_absent_all_partial",
    "C09_absent_all_refuted",
    "C09_repeated_pair_refuted"
   ],
   "note": "acttab packing: every entered pair is found at its offset (C09_present) and no pair of the packed rows reads as an absent symbol for states whose transaction is packed with makeItSafe or whose probes stay low (C09_absent_safe); the unconditional absent claim is false of the code for nonterminal rows (C09_absent_all_refuted), and repeated pairs in one transaction are refuted too."
  },
  {
   "property": "C10",
   "status": "partial",
   "theorems": [
    "C10_find_reduce_action",
    "C10_bounds",
    "C10_build_partial",
    "C10_build_refuted",
    "C10_shift_ofst_refuted"
   ],
   "note": "C10_bounds: for built tables every index used by the driver's lookups is in range; C10_build_partial needs every token row to have a low token (C10_build_refuted at acttab level; no grammar-level witness was found by search); C10_shift_ofst_refuted: the yy_shift_ofst table drops trailing states whose token row is empty, and a driver index then runs past it."
  },
  {
   "property": "C11",
   "status": "proved",
   "theorems": [
    "C11_decode",
    "C11_shiftreduce_pending"
   ],
   "note": "Each emitted code decodes to exactly the action it stands for; shift-reduce codes denote the pending one-rule state."
  },
  {
   "property": "C12",
   "status": "partial",
   "theorems": [
    "C12_compression_partial",
    "C12_nonassoc_refuted",
    "C12_fallback_refuted",
    "C12_wildcard_refuted",
    "C12_default"
   ],
   "note": "C12_compression_partial: without %fallback, %wildcard, %nonassoc/%precedence and when yy_shift_ofst covers all states, the parsers with and without compression accept the same inputs by the same shifts and reductions, except that reductions by code-less rules A ::= B may be left out. C12_default: which states get a default reduction and which rule it is. Refuted beyond: C12_nonassoc_refuted, C12_fallback_refuted and C12_wildcard_refuted (a state reducing on the wildcard still gets a default, so compression changes which reduction a token takes). Missing: %wildcard when no reduction has it as a lookahead."
  },
  {
   "property": "C13",
   "status": "proved",
   "theorems": [
    "C13_renumber",
    "C13_removable_last",
    "C13_removable_last_refuted"
   ],
   "note": "Renumbering is a permutation, state 0 stays 0, removed states are all shift-reduce states; all such states are removed when they hold only their default (C13_removable_last), refuted otherwise (C13_removable_last_refuted)."
  },
  {
   "property": "C14",
   "status": "proved",
   "theorems": [
    "C14_parse_tree",
    "C14_accepted_is_sentence",
    "C14_start_on_rhs_refuted"
   ],
   "note": "For every well-formed grammar whose start symbol is not on a right-hand side: a successful end-of-input without syntax error or overflow implies the tokens (after fallback/wildcard substitution) are a sentence, with the reported reductions plus the elided unit rules forming its reversed rightmost derivation. Refuted without the start-symbol hypothesis (lemon only warns)."
  },
  {
   "property": "C15",
   "status": "partial",
   "theorems": [
    "C15_complete_partial",
    "C15_no_conflict_reported",
    "C15_truncated_refuted",
    "C15_fallback_refuted",
    "C15_wildcard_refuted",
    "C15_wildcard_after_terminals",
    "C15_decides"
   ],
   "note": "C15_complete_partial: every sentence of an LALR(1) conflict-free grammar is accepted, given enough stack, when yy_shift_ofst covers all states and either tables are uncompressed or there is no %fallback and no reduction has the %wildcard as a lookahead (C15_wildcard_after_terminals: as when the wildcard never begins what follows a nonterminal); C15_no_conflict_reported: a report of 0 conflicts without precedences implies conflict-free; C15_decides: with a growing stack the parser ends on every token string and accepts exactly the sentences. Refuted beyond: C15_truncated_refuted (yy_shift_ofst cut too short), C15_fallback_refuted and C15_wildcard_refuted."
  },
  {
   "property": "C16",
   "status": "proved",
   "theorems": [
    "C16_no_write_outside",
    "C16_full_stack_overflows",
    "C16_room_no_overflow",
    "C16_generated_safe",
    "C16_long_rhs_refuted"
   ],
   "note": "Every push is within capacity and every pop hits an entry for arbitrary generated tables without error symbol and right-hand sides of at most 128 symbols (C16_generated_safe); the driver-level theorems hold for all tables with explicit failure outcome. Refuted for a right-hand side of 129 symbols (signed char yyRuleInfoNRhs)."
  },
  {
   "property": "C17",
   "status": "partial",
   "theorems": [
    "C17_exactly_once",
    "C17_at_most_once",
    "C17_generated_exactly_once",
    "C17_overflow_loses_token_refuted",
    "C17_error_value_twice_refuted"
   ],
   "note": "Exactly once for generated tables when the stack never overflows and no error symbol is declared; refuted on overflow (value lost) and with an error symbol (value copied)."
  },
  {
   "property": "C18",
   "status": "partial",
   "theorems": [
    "C18_throttled",
    "C18_terminates_partial",
    "C18_terminates_refuted",
    "C18_conflict_free_terminates",
    "C18_conflict_free_total"
   ],
   "note": "Error throttling is proved for every table. C18_conflict_free_terminates, C18_conflict_free_total: without an error symbol, every call of a parser generated from a conflict-free grammar whose nonterminals all derive token strings ends, whatever the tokens (C18_terminates_partial: also with conflicts when there are no empty rules and no unit cycles). C18_terminates_refuted: with a reduce/reduce conflict resolved in favour of a unit cycle a call never ends. Missing: termination with an error symbol."
  },
  {
   "property": "C19",
   "status": "proved",
   "theorems": [
    "C19_find_shift_action",
    "C19_own_action_first",
    "C19_fallback_chain_refuted"
   ],
   "note": "yy_find_shift_action/yy_find_reduce_action against an independent specification of own action, fallback, wildcard and default; chained fallbacks refuted (assert fires)."
  },
  {
   "property": "C20",
   "status": "proved",
   "theorems": [
    "C20_msort",
    "C20_msort_loses_elements_refuted",
    "C20_msort_stable_refuted"
   ],
   "note": "Sorted permutation below 2^30 elements; refuted at exactly 2^30 elements (half lost) and refuted for stability."
  },
  {
   "property": "C21",
   "status": "proved",
   "theorems": [
    "C21_Rule_sort",
    "C21_number_rules",
    "C21_number_rules_length"
   ],
   "note": "Rule_sort with 32 slots and the numbering loops of main."
  },
  {
   "property": "C22",
   "status": "proved",
   "theorems": [
    "C22_interning",
    "C22_strsafe"
   ],
   "note": "Any number of Strsafe calls from any positive initial table size (1024 in the code): pointers equal iff texts equal, each points to its text."
  },
  {
   "property": "C23",
   "status": "proved",
   "theorems": [
    "C23_map",
    "C23_symbol",
    "C23_state",
    "C23_config",
    "C23_symbol_new"
   ],
   "note": "Generic over hash function and key comparison that is equality; instances for symbols, states, configurations; Symbol_new gives one symbol per name and counts uses; histories may include Configtable_clear."
  },
  {
   "property": "C24",
   "status": "proved",
   "theorems": [
    "C24_order",
    "C24_codes"
   ],
   "note": "For every sorted permutation under Symbolcmpp the order is class by class in declaration order; codes of main 1764-1773 computed exactly for names that start with a letter."
  },
  {
   "property": "C25",
   "status": "proved",
   "theorems": [
    "C25_SetAdd",
    "C25_SetAdd_assert",
    "C25_SetUnion",
    "C25_SetNew"
   ],
   "note": "set.c; the assertion of SetAdd is an explicit failure outcome."
  },
  {
   "property": "C26",
   "status": "proved",
   "theorems": [
    "C26_minimum_size_type"
   ],
   "note": "Type can represent every value, byte count is that type's size, and a smaller type is passed over only at its extreme value."
  },
  {
   "property": "C27",
   "status": "partial",
   "theorems": [
    "C27_shape",
    "C27_total",
    "C27_selection",
    "C27_unterminated",
    "C27_stray_else_refuted",
    "C27_last_endif_refuted"
   ],
   "note": "Shape and termination for every text; selection for every well-nested text; for other texts the claim fails: a stray %else excludes text and a final %endif without newline is not seen (both refuted)."
  },
  {
   "property": "C28",
   "status": "partial",
   "theorems": [
    "C28_right_value",
    "C28_value_partial",
    "C28_precedence_refuted",
    "C28_malformed_refuted"
   ],
   "note": "Every spelling of every expression is accepted with the right-associative equal-precedence value; equals the C value when no && precedes || at one level; refuted otherwise, and ill-formed texts are accepted (refuted)."
  },
  {
   "property": "C29",
   "status": "partial",
   "theorems": [
    "C29_text_partial",
    "C29_negative_width_refuted",
    "C29_zero_width_refuted",
    "C29_empty_left_refuted",
    "C29_int_min_refuted",
    "C29_precision_refuted"
   ],
   "note": "C29_text_partial: for formats made of literals, %%, %d, %s and %.*s with optional widths, text, terminator and count are those of sprintf, provided a width is used only with positive numbers and non-empty texts, no INT_MIN is printed and a precision is not longer than its text (the uses in lemon.c meet this). Refuted outside: negative numbers and zero with a width, empty left-justified texts, INT_MIN, precisions longer than the text."
  },
  {
   "property": "C30",
   "status": "partial",
   "theorems": [
    "C30_sound",
    "C30_language_partial",
    "C30_two_multis_refuted",
    "C30_subsym_refuted"
   ],
   "note": "C30_sound: the printed yacc grammar derives only strings of the lemon grammar. C30_language_partial: with at most one multi-terminal per rule both languages are equal. Refuted with several multi-terminals: C30_two_multis_refuted (strings are lost because the same member index is used in all positions), C30_subsym_refuted (index outside subsym)."
  },
  {
   "property": "C31",
   "status": "proved",
   "theorems": [
    "C31_nullable_exact"
   ],
   "note": "set_nullable on the packed arrays; exact, terminating, in bounds."
  },
  {
   "property": "C32",
   "status": "proved",
   "theorems": [
    "C32_transitive_closure",
    "C32_reflexive_transitive_closure"
   ],
   "note": "Bit-word level model of warshall.c for every word width and matrix size; bounds, frame and closure."
  },
  {
   "property": "C33",
   "status": "proved",
   "theorems": [
    "C33_closure_exact"
   ],
   "note": "wf_src is what the reader guarantees; words of any size (64 here) are handled by C32"
  },
  {
   "property": "C34",
   "status": "proved",
   "theorems": [
    "C34_lr0_states"
   ],
   "note": "fuel bound 2^nitems is the termination bound; the grammar is the augmented one, whose item $accept: goal . is never reduced"
  },
  {
   "property": "C35",
   "status": "proved",
   "theorems": [
    "C35_lookaheads",
    "C35_lalr1"
   ],
   "note": "For every well-formed grammar whose relation construction stays in its arrays (exact condition: C37) the LA bits are exactly the LALR(1) lookaheads; C35_lalr1 restates it with canonical LR(1) items when all nonterminals are productive."
  },
  {
   "property": "C36",
   "status": "proved",
   "theorems": [
    "C36_digraph_solution"
   ],
   "note": "digraph/traverse of lalr.c terminate within bounds and compute, for every relation R and start sets F0, exactly the union of F0 over everything R-reachable, including cycles."
  },
  {
   "property": "C37",
   "status": "partial",
   "theorems": [
    "C37_overflow_exact",
    "C37_refuted"
   ],
   "note": "The claim is false: C37_refuted gives a 12-rule grammar for which build_relations overflows its edge array. C37_overflow_exact characterises exactly the grammars for which it happens, and shows nothing else goes out of bounds in lalr()."
  },
  {
   "property": "C38",
   "status": "proved",
   "theorems": [
    "C38_transpose"
   ],
   "note": "transpose of lalr.c returns the converse relation, each list in increasing order, with NULL exactly for empty rows."
  },
  {
   "property": "C39",
   "status": "partial",
   "theorems": [
    "C39_resolution",
    "C39_yacc",
    "C39_counts",
    "C39_grammar",
    "C39_accept_conflict_refuted"
   ],
   "note": "Resolution, live actions and counts are proved exactly for every sorted action list and, from the grammar, for every state (with and without -z). The claim that every conflict is counted is false for the conflict between accepting and a reduction on $end in the final state: C39_accept_conflict_refuted."
  },
  {
   "property": "C40",
   "status": "proved",
   "theorems": [
    "C40_one_live"
   ],
   "note": "For every sorted action list, with and without -z, and for every state of make_parser's result (C41_parser)."
  },
  {
   "property": "C41",
   "status": "proved",
   "theorems": [
    "C41_default",
    "C41_parser"
   ],
   "note": "Exact characterisation of sole_reduction, and for the defred array of make_parser."
  },
  {
   "property": "C42",
   "status": "partial",
   "theorems": [
    "C42_lookup",
    "C42_safe",
    "C42_overflow_refuted",
    "C42_duplicate_refuted"
   ],
   "note": "Lookup exactness and in-bounds reads for every family of vectors with distinct nonnegative indices whenever packing succeeds; packing always ends, and is memory safe with fewer than 1000 entries. False beyond: C42_overflow_refuted (check[maxtable] read when the table is exactly full) and C42_duplicate_refuted (two tokens given the same code)."
  },
  {
   "property": "C43",
   "status": "proved",
   "theorems": [
    "C43_gotos",
    "C43_actions"
   ],
   "note": "Both the goto lookup (C43_gotos) and the shift/reduce/default lookups (C43_actions) of the packed tables, for every grammar and any fuel with which byacc_generate yields tables; token codes pairwise different (wf_sv)."
  },
  {
   "property": "C44",
   "status": "partial",
   "theorems": [
    "C44_token_codes",
    "C44_numbering",
    "C44_error_code_refuted",
    "C44_explicit_code_refuted"
   ],
   "note": "Proved: explicit codes are kept, every automatic code other than error's is above 256 and unique, and the numbering satisfies the well-formedness the output routines need. Refuted corner: error's default 256 collides with an explicit 256, and explicit duplicates are not rejected (C44_error_code_refuted, C44_explicit_code_refuted). Value_t overflow is not modelled."
  },
  {
   "property": "C45",
   "status": "proved",
   "theorems": [
    "C45_rule_precedence",
    "C45_agrees_with_lemon"
   ],
   "note": "Rule precedences of pack_grammar in both modes and agreement of the levels with lemon's FindRulePrecedences (default mode <-> -z, yacc mode <-> default); grammars without multi-terminals, as byacc has none."
  },
  {
   "property": "C46",
   "status": "proved",
   "theorems": [
    "C46_expansion",
    "C46_same_strings",
    "C46_fresh"
   ],
   "note": "read_grammar/start_rule/end_rule/add_symbol/copy_action/insert_empty_rule/mark_symbol and the walk of pack_grammar, for every rule section given as a sequence of symbols, actions, bars and %prec marks; inherited arguments (btyacc extension) are not modelled."
  },
  {
   "property": "C47",
   "status": "proved",
   "theorems": [
    "C47_dictionary",
    "C47_lookup"
   ],
   "note": "hash, lookup, make_bucket, create_symbol_table for every sequence of names whose first character is in 1..127 (as the scanner guarantees), including the unhashed buckets of insert_empty_rule."
  },
  {
   "property": "C48",
   "status": "proved",
   "theorems": [
    "C48_accepted"
   ],
   "note": "For every grammar, scanner, allocation behaviour and fuel. Semantic actions are assumed to return normally (no YYACCEPT/YYERROR/yyclearin in them)."
  },
  {
   "property": "C49",
   "status": "partial",
   "theorems": [
    "C49_safe",
    "C49_second_call_refuted",
    "C49_limit"
   ],
   "note": "C49_safe: proved for the tables byacc generates, any scanner, any pattern of failing reallocs, first and later calls; C49_limit: for all tables the stacks keep within YYMAXDEPTH; C49_second_call_refuted: if the second of the two first allocations fails, the next call stores through a NULL l_base. For arbitrary tables (not generated) the unchecked push of YYFINAL would not be safe; the property is proved for generated tables only."
  },
  {
   "property": "C50",
   "status": "proved",
   "theorems": [
    "C50_states",
    "C50_lookaheads",
    "C50_conflicts",
    "C50_goal_refuted"
   ],
   "note": "States, transitions, lookaheads and conflict labels and counts agree, for grammars both tools accept (goal has a rule and is on no right side) and no precedences; refuted when the goal is on a right side."
  },
  {
   "property": "C51",
   "status": "partial",
   "theorems": [
    "C51_symbols_partial",
    "C51_language_partial",
    "C51_literals_refuted",
    "C51_tokens_refuted",
    "C51_tokens_literals_refuted",
    "C51_rules_refuted",
    "C51_long_refuted",
    "C51_escape_refuted",
    "C51_dollar_refuted"
   ],
   "note": "C51_symbols_partial: identifiers without dots, short enough for char64_t and outside the prefixes Tk_, l_, z_, and literals of one printable character (except the quote) get different lemon names. C51_language_partial: with such names the printed rules derive exactly the renamed sentences (rules of actions inside rules are left out). Refuted outside: quote and backslash literals, dots, strings, l_ prefix, long names, '\\\\b' (table index -1), names that begin with $."
  },
  {
   "property": "C52",
   "status": "proved",
   "theorems": [
    "C52_complete",
    "C52_language",
    "C52_no_conflict_counted"
   ],
   "note": "C52_complete: any stack left by earlier calls; overflow only on allocation failure or YYMAXDEPTH. C52_language: exactly the sentences. C52_no_conflict_counted: zero counted conflicts without precedences and goal on no right side imply conflict freedom. Error tokens delivered by the scanner itself are covered as ordinary tokens; semantic actions and YYERROR/YYACCEPT are not modelled."
  },
  {
   "property": "C53",
   "status": "proved",
   "theorems": [
    "C53_parsers_agree"
   ],
   "note": "For grammars whose goal is on no right-hand side (lemon asserts otherwise, see C50_goal_refuted); lemon without %fallback and %wildcard and with an untruncated yy_shift_ofst (C15_truncated_refuted shows why)."
  },
  {
   "property": "C54",
   "status": "proved",
   "theorems": [
    "C54_tokens",
    "C54_message",
    "C54_in_bounds",
    "C54_bounds_refuted"
   ],
   "note": "C54_tokens: no message and tokens l exactly when l are the tokens of the text. C54_message: a message exactly when the text ends in a string or open block. C54_in_bounds: exact condition for staying inside the text; C54_bounds_refuted: it is violated by the text a::=B.{/* (cp++ steps over the zero byte). tokenlineno of a block or string is the line it starts on. The text is the output of the preprocessor (C27)."
  },
  {
   "property": "C55",
   "status": "proved",
   "theorems": [
    "C55_safe",
    "C55_decl_fits",
    "C55_messages",
    "C55_reads",
    "C55_text",
    "C55_unknown_declaration",
    "C55_cut_refuted",
    "C55_class_bar_refuted",
    "C55_order_u_refuted"
   ],
   "note": "C55_reads, C55_messages: all files of items, both directions. C55_safe: all token streams. C55_decl_fits: declaration buffers. C55_unknown_declaration: one message and resynchronisation at the next dot or percent sign. The refuted lemmas document: unfinished last rule dropped silently, a bar after a token class extends the class, -u reorders token codes. Not covered: files whose rule code or precedence mark is separated from its rule by other declarations (accepted by lemon, not written by SpecItems)."
  },
  {
   "property": "C56",
   "status": "proved",
   "theorems": [
    "C56_unreachable_reported",
    "C56_reported_unreachable",
    "C56_never_reduced",
    "C56_conflict_refuted",
    "C56_unproductive_refuted"
   ],
   "note": "C56_unreachable_reported holds for every grammar; C56_reported_unreachable is the exact characterisation for conflict-free grammars whose nonterminals are all productive, and C56_conflict_refuted and C56_unproductive_refuted show that both conditions are needed; C56_never_reduced is about accepted inputs, without %fallback, %wildcard and nonassociative tokens."
  },
  {
   "property": "C57",
   "status": "proved",
   "theorems": [
    "C57_unused",
    "C57_unreachable_unused"
   ],
   "note": "Over the whole chain pack_grammar, lr0, lalr, make_parser; C57_unreachable_unused needs neither absence of conflicts nor productivity."
  },
  {
   "property": "C58",
   "status": "proved",
   "theorems": [
    "C58_counted",
    "C58_returned",
    "C58_spacing",
    "C58_recovery"
   ],
   "note": "C58_counted, C58_returned: yynerrs during a run and at its end; C58_spacing; C58_recovery: what happens when there is no action. For arbitrary tables and scanners."
  },
  {
   "property": "C59",
   "status": "proved",
   "theorems": [
    "C59_grammar",
    "C59_well_formed",
    "C59_language",
    "C59_settings",
    "C59_well_formed_refuted",
    "C59_chained_refuted",
    "C59_start_twice_refuted"
   ],
   "note": "Refuted for files the reader lets through without a message (C59_well_formed_refuted, C59_chained_refuted, C59_start_twice_refuted)."
  },
  {
   "property": "C60",
   "status": "proved",
   "theorems": [
    "C60_sound",
    "C60_complete",
    "C60_decides"
   ],
   "note": "Composition of C54, C55, C59, C14 and C15 for the text of a file; the completeness half has the side conditions of C15 (conflict-free, table covers all states, no compression with fallback or a reduction on the wildcard). C60_decides: the parser ends on every token string and decides the language (no symbol error, fallback or wildcard; productive nonterminals; a stack that can grow)."
  },
  {
   "property": "C61",
   "status": "proved",
   "theorems": [
    "C61_reported",
    "C61_recovery",
    "C61_no_symbol",
    "C61_every_state_refuted"
   ],
   "note": "For every table. C61_every_state_refuted: the search for a state that shifts the error symbol stops above the bottom of the stack (lempar.c:992), so an error before the first statement is complete always fails. yyerrcnt is unbounded in the model; in C it is an int decremented at every shift."
  },
  {
   "property": "C62",
   "status": "partial",
   "theorems": [
    "C62_translate_partial",
    "C62_no_message",
    "C62_label_at_end_refuted",
    "C62_comment_after_label_refuted",
    "C62_class_refuted",
    "C62_long_labels_refuted"
   ],
   "note": "Code whose text or part before the overwrites-comment ends with a label is outside the theorem: there translate_code reads behind the string (C62_label_at_end_refuted) or steps over the comment (C62_comment_after_label_refuted). Labels whose comment needs 900 bytes are outside as well (C62_long_labels_refuted). Message texts and line numbers are left out."
  },
  {
   "property": "C63",
   "status": "proved",
   "theorems": [
    "C63_union",
    "C63_share",
    "C63_token_type_refuted"
   ],
   "note": "Closed. print_stack_union is modelled with its hash table; the refuted theorem shows a %token_type with surrounding space."
  },
  {
   "property": "C64",
   "status": "partial",
   "theorems": [
    "C64_text",
    "C64_cases",
    "C64_value_partial",
    "C64_calls",
    "C64_default_refuted",
    "C64_error_refuted",
    "C64_class_refuted"
   ],
   "note": "Which symbols have a case and the code below it is proved without restriction; C64_value_partial, that the member used for $$ is the symbol's own, needs that the nonterminals with the default destructor have one type: without it it is false (C64_default_refuted, C64_error_refuted)."
  },
  {
   "property": "C65",
   "status": "proved",
   "theorems": [
    "C65_switch",
    "C65_rules",
    "C65_text",
    "C65_unit_refuted"
   ],
   "note": "Closed. C65_rules composes with the translation of C62 and has its hypotheses (no part of the code ends with a label)."
  },
  {
   "property": "C66",
   "status": "proved",
   "theorems": [
    "C66_print",
    "C66_code",
    "C66_destructors",
    "C66_rules",
    "C66_xfer",
    "C66_head",
    "C66_include_text",
    "C66_include",
    "C66_tokens",
    "C66_line_refuted",
    "C66_skip_refuted",
    "C66_no_include",
    "C66_include_refuted",
    "C66_long_refuted"
   ],
   "note": "Closed. The pieces of ReportTable modelled are those listed in DESIGN.md; the tables between them are printed by code that is not modelled line by line."
  },
  {
   "property": "C67",
   "status": "proved",
   "theorems": [
    "C67_literal",
    "C67_name_is_literal",
    "C67_name_injective",
    "C67_quotes"
   ],
   "note": "Closed."
  },
  {
   "property": "C68",
   "status": "proved",
   "theorems": [
    "C68_actions",
    "C68_reference_refuted",
    "C68_safe_refuted",
    "C68_name_refuted"
   ],
   "note": "Closed. For files in the scope of ByaccScanModel (no -B, no symbol arguments, option -l so that no #line is written)."
  },
  {
   "property": "C69",
   "status": "proved",
   "theorems": [
    "C69_directive",
    "C69_input",
    "C69_file",
    "C69_directive_refuted",
    "C69_empty_refuted",
    "C69_byte_refuted",
    "C69_zero_refuted",
    "C69_start_behind_mark",
    "C69_text_behind_mark",
    "C69_late_declaration"
   ],
   "note": "Closed. For files in the scope of ByaccScanModel. C72 is the other direction: which of these texts are rejected."
  },
  {
   "property": "C70",
   "status": "proved",
   "theorems": [
    "C70_language",
    "C70_decides",
    "C70_accepted",
    "C70_rules"
   ],
   "note": "C70_language: text of the grammar file to accepted inputs for conflict-free grammars (runs without stack overflow); C70_decides: the parser returns on every token string; C70_accepted: soundness with conflicts; C70_rules: order, symbols and precedences of the packed rules."
  },
  {
   "property": "C71",
   "status": "proved",
   "theorems": [
    "C71_terminates",
    "C71_decides",
    "C71_precedence_refuted"
   ],
   "note": "C71_terminates: any numbers from yylex, any stack of an earlier call, error recovery included; C71_decides with C52; C71_precedence_refuted: zero counted conflicts with precedences do not suffice."
  },
  {
   "property": "C72",
   "status": "proved",
   "theorems": [
    "C72_accepts",
    "C72_rejects",
    "C72_agree",
    "C72_start_refuted",
    "C72_order_refuted",
    "C72_zero_refuted",
    "C72_overflow_refuted"
   ],
   "note": "C72_accepts is an equivalence for every text with the form file_text; texts without that form (e.g. a missing colon) are not covered. C72_start_refuted, C72_order_refuted, C72_zero_refuted, C72_overflow_refuted: surprises."
  },
  {
   "property": "C73",
   "status": "proved",
   "theorems": [
    "C73_file",
    "C73_agree",
    "C73_two_places_refuted",
    "C73_bounds_refuted",
    "C73_start_refuted",
    "C73_error_refuted",
    "C73_name_refuted"
   ],
   "note": "C73_file, C73_agree; alternatives in two places, bounds, %start_symbol, error as left side and file name refuted"
  },
  {
   "property": "C74",
   "status": "proved",
   "theorems": [
    "C74_file",
    "C74_agree",
    "C74_precedence_refuted",
    "C74_error_refuted",
    "C74_names_refuted",
    "C74_string_refuted"
   ],
   "note": "Both directions of the text: byacc -E printed and read by lemon. Rule precedences agree with byacc -z only; error, strings and clashing names refuted by witnesses."
  },
  {
   "property": "C75",
   "status": "proved",
   "theorems": [
    "C75_tokens_determine",
    "C75_tables_text",
    "C75_header_refuted"
   ],
   "note": "C75_tables_text: text, tokens and types; C75_tokens_determine: no other parser; C75_header_refuted: the head of the generated file is not one comment"
  },
  {
   "property": "C76",
   "status": "proved",
   "theorems": [
    "C76_tables_text",
    "C76_tokens_determine",
    "C76_macros_collide_refuted",
    "C76_largest_code_refuted"
   ],
   "note": "C76_tables_text: text, macros, tables, stos and constants; C76_tokens_determine: no other parser; C76_macros_collide_refuted, C76_largest_code_refuted"
  },
  {
   "property": "C77",
   "status": "proved",
   "theorems": [
    "C77_names_text",
    "C77_tokens_determine",
    "C77_quote_in_string_refuted"
   ],
   "note": "closed; refuted for strings with a double quote; the linking to the parser is by the codes of C76"
  },
  {
   "property": "C78",
   "status": "proved",
   "theorems": [
    "C78_names_text",
    "C78_rule_text_determines",
    "C78_header",
    "C78_header_distinct",
    "C78_last_token_refuted",
    "C78_unchanged_refuted",
    "C78_kept_refuted"
   ],
   "note": "The tokens a C lexer sees in the token macros, yyTokenName, yyRuleName and the header are those of the grammar, for every grammar, prefix and old header; a rule's text tells the rule. Refuted: LEMON_LAST_TOKEN as a token name; the unchanged check compares with macros although an enumeration is written."
  },
  {
   "property": "C79",
   "status": "proved",
   "theorems": [
    "C79_text",
    "C79_sound",
    "C79_decides"
   ],
   "note": "composition of C55, C59, C60, C75 and C78; %token_prefix must be an identifier (lemon does not check it), names shorter than 900 characters with the prefix"
  },
  {
   "property": "C80",
   "status": "proved",
   "theorems": [
    "C80_text",
    "C80_decides",
    "C80_accepted"
   ],
   "note": "Composition of C70, C76 and C77. C80_text: what the printed texts are to a C compiler; C80_decides and C80_accepted: any parser and macros read from the text. Hypotheses on names: no $ in a token and no double quote in a literal of several characters (as in C76, C77); that all other names can be printed follows from the text of the file. C80_decides: no two tokens with one macro (C76_macros_collide_refuted)."
  }
 ]
}
