# Formal model of the lemon and byacc forks in mingodad/lalr-parser-test

Prover: Rocq/Coq 8.16.1.  All sources in `rocq/theories`, logical path `Verif`.

## 1. Approach

* `*Model.v` files transcribe C functions of `/repo` into total Gallina
  functions, one by one; each definition cites the file and lines it models and
  states its simplifications.  Model files contain no proofs.
* `Spec*.v` files hold the specifications (derivations, LR(0)/LR(1) validity of
  items, permutations, finite maps, decoders ...).  They do not mention the models.
* `*Proof.v` files prove lemmas; `Prop_*.v` files hold the final theorems, each
  next to an `Example` instantiating its hypotheses on a concrete case and
  followed by `Print Assumptions`.
* Pointers become indices into stores (lists); mutable globals become a record
  threaded through the functions; loops become structural recursion over the
  list that the loop walks, or recursion on explicit fuel with a distinct
  out-of-fuel outcome, and then a theorem says that enough fuel exists.
* Undefined behaviour and `assert` failures are distinct outcomes (`None` or a
  dedicated constructor), never silently assumed away.

## 2. Plan for each property

| id | what is modelled | how it is proved |
|----|------------------|------------------|
| C01 | `FindFirstSets` (both fixed-point loops) over boolean sets | invariant (sound) + fixpoint at exit (complete); measure for termination |
| C02 | `FindStates`, `getstate`, `buildshifts`, `Configlist_*`, `State_*` | invariant over the recursive construction; `valid` items defined by independent inductive relation |
| C03 | `Configlist_closure` (spontaneous lookaheads, links), `FindLinks`, `FindFollowSets` | propagation graph closure = inductive LR(1) validity |
| C04 | `FindActions`, `Action_add` | membership lemmas |
| C05 | `resolve_conflict` | exhaustive case analysis against an independent decision table |
| C06 | `FindActions` resolution loop | induction over the action list; expected to fail for error+reduce leftovers: then `_refuted` with witness + `_partial` |
| C07 | same with precedences absent | counting lemma |
| C08 | `FindRulePrecedences` | induction on right-hand side |
| C09, C10 | `acttab_alloc/action/insert/action_size` | table invariant preserved by insert; lookup theorem for every history |
| C11 | `compute_action`, the decoder tests in lempar.c | arithmetic |
| C12 | `CompressTables`, default action | simulation of drivers |
| C13 | `ResortStates`, `stateResortCompare` | sorting lemma, order lemma |
| C14, C15 | lempar.c `Parse`, `yy_reduce`, `yy_shift` over abstract tables; tables built from the automaton | stack invariant; completeness by induction on derivations |
| C16, C17, C18 | `Parse` in its three error modes | invariants over step function; termination: a bound on the reductions after a viable prefix of a conflict-free grammar (SpecReduceChain) |
| C19 | `yy_find_shift_action` | case analysis, table lookup |
| C20 | `msort`, `merge` (30 slots) | permutation/sorted/stability invariants on slots |
| C21 | `Rule_sort`, `Rule_merge`, numbering in `main` | same |
| C22, C23, C47 | the four x4-generated hash tables, `Strsafe`, byacc `lookup` | refinement to finite maps |
| C24 | `Symbolcmpp` | order lemmas |
| C25 | set.c | pointwise |
| C26 | `minimum_size_type` | arithmetic |
| C27, C28 | `preprocess_input`, `eval_preprocessor_boolean` | induction on text; refuted parts with witness |
| C29 | `lemon_vsprintf`, `lemon_addtext` | refinement to a printf spec where true; witnesses where not |
| C30 | `rule_print_yacc0`, `rule_print_yacc` | witness for several multi-terminals, proof for at most one |
| C31 | `set_nullable` | as C01 |
| C32 | `transitive_closure`, `reflexive_transitive_closure` at bit-word level | Warshall invariant |
| C33 | `set_EFF`, `set_first_derives`, `closure` | sortedness and membership |
| C34 | lr0.c | worklist invariant |
| C35, C36, C38 | lalr.c | digraph theorem + DeRemer/Pennello = LR(1) validity |
| C37 | edge counting in `build_relations` | expected to be false: witness grammar |
| C39-C41 | mkpar.c | induction on action lists |
| C42, C43 | output.c packing, yaccpar.c lookups | table invariant |
| C44 | `pack_symbols` numbering | sortedness invariant |
| C45 | `pack_grammar` precedence | induction |
| C46 | `insert_empty_rule`, item/rule arrays | language equality |
| C48, C49 | yaccpar.c `yyparse` | stack invariant |
| C50 | C03 + C35 | both equal the same specification |
| C52, C53 | C43 + C48 + C14 + C15 | the abstract LR machine followed by `yyparse` |
| C54 | the scanner loop of `Parse` | inductive lexical grammar; every text has one of four ends |
| C55 | `parseonetoken`, `Parse` | files as sequences of items (SpecItems); simulation item by item in both directions; index invariant for arbitrary tokens; a file with an unknown declaration simulated by the file without it |
| C56 | `FindActions` (report of rules) | reachable nonterminals against valid items (SpecReach) |
| C57 | `unused_rules` | the same, over C39 and C52 |
| C58 | yaccpar.skel `yyparse` 232-288 | the error flag is three minus the shifts since the parser was last stuck |
| C59 | symbol indexing and start of `main` | codes against the order of first mention; derivations by names against derivations by codes (SpecFile) |
| C61 | lempar.c `Parse` 950-1040 | yyerrcnt is three minus the shifts since the last error; search for the topmost state |
| C60 | C54 + C55 + C59 + C14 + C15 | composition |
| C62 | `translate_code`, `append_str`, `has_destructor` | labels as maximal identifiers of the text (SpecCode) against the scanning loop |
| C63 | `print_stack_union` | invariant of the open hash table; equality of trimmed types |
| C64 | `ReportTable` 5348-5410, `emit_destructor_code` | groups of case labels partition the symbols with a destructor |
| C65 | `ReportTable` 5415-5460, `emit_code` | groups of case labels partition the rules with code |
| C66 | `tplt_*`, `emit_code`, `emit_destructor_code` | lineno minus the number of newlines written is an invariant |
| C67 | `get_literal` | the escapes as a relation; the name is a spelling of the literal |
| C68 | `copy_action` | pieces of the action text and their translation (SpecByaccFile) against the scanning loop |
| C69 | reader.c from `get_line` to `check_symbols` | the file as a list of facts about symbols in the order of the text; the table is a function of the facts |
| C70 | C69 + C44 + C45 + C46 + C52 | composition; strings under injective renamings |
| C71 | `yyparse`, C43 + C52 | a round is a reduction on viable prefixes, a token read or dropped, or an error state found; `SpecReduceChain` bounds the first kind |
| C72 | C69 the other way | every step of the reader that a broken condition of `file_ok` reaches is an error; the conditions are split over declarations and groups and put together again |
| C73 | C55 + C59 + C69 + C70 + C60 | the printed characters are split into gaps and words of a byacc file; the file that they spell is defined from the items; its facts, precedences (levels without tokens are skipped) and strings are those of the items |
| C74 | C68 + C69 + C55 + C60 + C70 + C51 | the printed text is split into lines of lemon tokens; the items that they spell are defined from the file; ranks of the levels that have tokens; the names are injective |
| C75 | SpecCText (a C lexer) + C26 + C10 | the printed text is split into lines with known tokens; the ranges follow from the invariant of the packing and from the codes of the rows; tokens of declarations are injective |
| C76 | SpecCText + SpecLR0 + C42 | the same for byacc: the ranges of all table entries follow from the invariant of pack_table, macros from the spelling of the names, stos from the view of the states as an LR(0) automaton |
| C77 | SpecCText (strings with escapes) + C67 | each unit of an escaped name is read back by the C lexer; the array symnam is followed assignment by assignment; the refutation walks through the text with a machine that every C text passes |
| C78 | SpecCText + C21 | the text is composed line by line; the order of Rule_sort gives the entry of each rule; a rule's text splits at its blanks and bars in one way; the old header is compared line by line as fgets reads it |
| C79 | SpecFile + SpecCText + SpecGrammar | composition of C55/C59 (what is read), C21 (rule numbers), C75 and C78 (what is printed) and C60 (what the parser accepts); names read from a file are words, so the hypotheses of C75 and C78 about names hold |
| C80 | C70 + C76 + C77 | composition; the indices of the symbols are all numbers below nsyms but 0 and ntokens (counting), so every entry of symbol_name is the name of a symbol of the file; yyrule is given by a function of the file (`lines`) |
| C51 | `get_lemon_token_name`, `get_lemon_rule_name` | witness of collision + injectivity on a subset |

## 3. Trusted base

* The Coq 8.16.1 kernel (type checker and the `vm_compute` machine, which is
  used in the witnesses of `_refuted` theorems and in examples only).
* `Print Assumptions` is called after every theorem of the `Prop_*.v` files and
  answers "Closed under the global context" for each of them.  No axiom is used, not
  even one of the standard library; there are no `Axiom`, `Parameter`, `Admitted`.
* That the definitions in the `*Model.v` files say what the cited C lines do.  This was
  checked by reading only; the C code was never run.
* That the specifications say what the properties mean: `SpecGrammar.v` (grammars,
  derivations, nullable, FIRST), `SpecLR0.v` (items, closure, goto, viable prefixes),
  `SpecByacc.v` (the same for packed byacc grammars), `SpecByaccConflicts.v`,
  `SpecConflict.v` (conflict-free grammars), `SpecReach.v` (reachable nonterminals), `SpecItems.v` (grammar files as items), `SpecFile.v` (the language of a grammar file by names, the codes), `SpecCode.v` (the words of C code, labels, places on the stack),
  the lexical grammar `lexes` in `LemonScanProof.v`, `SpecAgree.v` (the byacc grammar read as a
  lemon grammar), and the definitions at the top of each `Prop_*.v`.

## 4. What is modelled

| model file | code | left out |
|---|---|---|
| LemonSetModel | set.c (lemon.c 5744-5789) | calloc failure; a char is its truth value |
| LemonSortModel | merge, msort, Rule_merge, Rule_sort, rule numbering in main | pointers: a list is the list of its elements |
| LemonFirstModel | FindFirstSets | nothing |
| LemonStatesModel | Configlist_*, getstate, buildshifts, FindStates, Plink_copy, Action_add, same_symbol | free lists (an allocation is always a fresh index); warnings about the start symbol; hash chains (LemonTableModel) |
| LemonFollowModel | FindLinks, FindFollowSets | field stp (only read by the report) |
| LemonActionModel | FindRulePrecedences, actioncmp, Action_sort, FindActions, resolve_conflict | the counters nconflict_sr/rr of the statistics; pointer difference cast to int keeps its sign; node addresses are a parameter |
| LemonCompressModel | CompressTables, compute_action, stateResortCompare, ResortStates, constants of ReportTable | spOpt (only read by the report); node addresses are a parameter |
| LemonActtabModel | acttab_* | int overflow; allocation failure |
| LemonReportModel | minimum_size_type, axset_compare, the table part of ReportTable | the text: a printed array is the list of its numbers; headers, %include, %code, token defines, yyTokenName, trace strings |
| LemonPipelineModel | order of the passes in main, fallback table, rule tables | option parsing, reading the grammar, report file |
| LemonParModel | lempar.c: ParseInit, yy_pop_parser_stack, ParseFinalize, yy_find_shift_action, yy_find_reduce_action, yyStackOverflow, yy_shift, yy_reduce, yy_parse_failed, Parse | tracing, coverage, YYTRACKMAXSTACKDEPTH, YYNOERRORRECOVERY; user code is a tree constructor; callbacks and destructors are log entries |
| LemonTableModel | strhash, Strsafe, the four hash tables, Symbol_new, Symbolcmpp, symbol indexing in main | `from` links; a chain is a list; memory allocation succeeds |
| LemonPreModel | eval_preprocessor_boolean, preprocess_input | bDefineUsed, nDefineUsed (a warning) |
| LemonReadModel | Parse (scanner), parseonetoken, symbol indexing and the start of main | message texts; bContent, useCnt; allocation succeeds; hash tables (LemonTableModel) |
| LemonPrintfModel | lemon_addtext, lemon_vsprintf | memcmp reading behind the end of a format for ".*s" |
| LemonCodeModel | has_destructor, append_str, translate_code | message texts; zLhs; allocation succeeds |
| LemonEmitModel | print_stack_union, tplt_xfer, tplt_skip_header, tplt_linedir, tplt_print, emit_destructor_code, emit_code; of ReportTable the first comment, %include, token numbers, yy_destructor, switch of the rules | options -D in the first comment; rule text in comments is given; the #defines and table texts in between |
| LemonYaccModel | rule_print_yacc0, rule_print_yacc, loop of Reprint_yacc | layout, comments, precedence declarations |
| LemonReprintModel | Reprint_token_numbers, get_symbol_prec_chr, print_symbol_prec_commented, Reprint_tokens, rule_print_yacc0, rule_print_yacc, Reprint_yacc character for character; main up to Reprint_yacc | the other reprints (-g, -S) |
| ByaccWarshallModel | warshall.c, bit macros of defs.h | nothing |
| ByaccLr0Model | pack_grammar arrays, set_derives, set_nullable, closure.c, lr0.c | MAXYYINT check; allocation failure |
| ByaccLalrModel | lalr.c | MAXYYINT check; allocation failure |
| ByaccParModel | mkpar.c | backtracking (-B); messages, %expect |
| ByaccOutputModel | token_actions, goto_actions, sort_actions, matching_vector, pack_vector, pack_table, output of the tables | MAXTABLE and MAXYYINT fatal errors; backtracking vectors; the text |
| ByaccParserModel | yaccpar.skel yyparse, yygrowstack (btyaccpar.skel without -B) | semantic values; actions return normally; positions, destructors, tracing |
| ByaccReaderModel | pack_symbols, rule precedences of pack_grammar | names; Value_t overflow |
| ByaccRulesModel | read_grammar, start_rule, end_rule, add_symbol, copy_action, insert_empty_rule, mark_symbol | scanner (replaced by the events it finds); tags; inherited arguments; action text |
| ByaccScanModel | reader.c from the text of the file to check_symbols: get_line, line_directive, nextc, keyword, copy_ident, copy_text, copy_union, get_literal, get_name, get_number, get_tag, declare_*, read_declarations, advance_to_start, add_symbol, copy_action, mark_symbol, read_grammar, check_symbols | `%code`, `%parse-param`, `%lex-param`, `%define`, `%destructor`, `%initial-action` and arguments of symbols (outcome ROut); -B, -P; message texts; #line in the actions; a NUL byte in the file |
| ByaccPackModel | reader.c:5177-5178: pack_symbols over the chain of all buckets (of names and of mid-rule actions), the rules of pack_grammar with the index of every bucket, and rprec/rassoc | the fields of a bucket of insert_empty_rule are constants; the arrays ritem/rrhs themselves are those of ByaccRulesModel |
| ByaccSymtabModel | symtab.c | bucket fields other than name and links |
| ByaccLemonModel | get_lemon_token_name, get_lemon_rule_name, rules of print_grammar_lemon, names of literals | the text itself: ByaccLemonTextModel |
| ByaccLemonTextModel | print_grammar_lemon character for character, get_prec_name, print_symbol_prec_commented, print_symbol_prec_assoc_commented, from the grammar file on | the other reprints of byacc (naked, json, yaml) |
| LemonTableTextModel | the text ReportTable prints for types, constants, yy_action, yy_lookahead, yy_shift_ofst, yy_reduce_ofst, yy_default, yyFallback, yyRuleInfoLhs, yyRuleInfoNRhs, character for character; rule_print | the template between them; tablesize; yyTokenName, yyRuleName |
| ByaccTableTextModel | the text of output() from output_defines to YYTRANSLATE: macros of the tokens, yylhs, yylen, yydefred, yystos, yydgoto, yysindex, yyrindex, yycindex, yygindex, yytable, yycheck, yyctable, YYTABLESIZE, YYFINAL, YYDEBUG, YYMAXTOKEN, YYUNDFTOKEN, character for character | -d, -i, -r, %token-table; yyname, yyrule; backtracking (S->backtrack is 0); the C code of skeleton.c |
| ByaccNameTextModel | the rest of output_debug: the array symnam with entries that are not yet set, yyname with its two passes over each name (count and print) and its line breaks, yyrule, %token-table, character for character | -r; putc of bytes above 127 is not different from other bytes |
| LemonNameTextModel | the token macros, yyTokenName, yyRuleName (writeRuleText) and ReportHeader with its comparison with the old file through fgets and lemon_sprintf, character for character | fopen that fails; NUL bytes in the old file; lineno (C66) |
| LemonFileTextModel | main from Parse to ReportHeader: the names and the prefix read from the file handed to the printing functions | errsym->dtnum is a parameter (C63 computes it); the template lines between the parts; the actions (C62, C65) |
| ByaccFileTextModel | main from reader to output: symbol_name as pack_symbols fills it (entry by entry), handed to the printing functions | the skeleton and the texts of the file between and behind the two parts; -r |

Not modelled at all: the report and statistics output, option parsing of both programs, btyacc backtracking,
byacc's verbose and graph output, the sample grammars.

## 5. Where the proofs are

Specification facts: `SpecGrammarFacts`, `SpecLRFacts`.  Each `XModel.v` has its lemmas in
`XProof.v` when there are many.  Results over several passes: `LemonGenProof`,
`LemonTabProof`, `LemonLookupProof`, `LemonReportProof` (the generated tables read back the
action lists), `LemonSoundProof` (accepted input is a sentence), `LemonNoPrecProof` (action
lists without precedences), `LemonMachineProof` (an abstract LR machine and the generated driver
simulate each other), `LemonCompleteProof` (completeness for conflict-free grammars),
`Prop_LemonComplete` (C12, C15), `Prop_Agree` (C50), `ByaccCompleteProof` (yyparse follows the
abstract machine), `Prop_ByaccComplete` (C52, C53).  The byacc reader: `SpecByaccFile` (grammar files
and the texts that spell them), `ByaccScanProof`, `ByaccTableProof`, `ByaccDeclProof`, `ByaccActionProof`,
`ByaccFileProof`, `Prop_ByaccFile` (C68, C69), `Prop_ByaccStart` (C69: what may stand right behind the mark), `ByaccRejectProof`, `Prop_ByaccReject` (C72).
`SpecReprint`, `ReprintTextProof`, `LemonReprintProof` (the text), `ReprintFileProof` (the file), `Prop_LemonReprint` (C73). `ByaccPrecProof`, `ByaccLemonTextProof` (the text), `ByaccLemonFileProof` (the lines), `ByaccLemonItemsProof` (what lemon reads), `Prop_ByaccLemonText` (C74). `SpecCText`, `CTextProof`, `LemonTableRangeProof`, `LemonTableTextProof`, `Prop_LemonTableText` (C75). `ByaccTableRangeProof`, `ByaccTableTextProof`, `Prop_ByaccTableText` (C76). `ByaccNameTextProof`, `Prop_ByaccNameText` (C77). `LemonNameTextProof`, `Prop_LemonNameText` (C78). `Prop_LemonFileText` (C79). `Prop_ByaccFileText` (C80). `ByaccPackFileProof`, `ByaccFilePackProof`,
`Prop_ByaccEndToEnd` (C70: C69 + C44 + C45 + C46 + C52).  `SpecReduceChain` bounds the reductions of a conflict-free
grammar; `LemonFuelProof` and `Prop_LemonTerminates` use it (C15_decides, C18), and `ByaccTerminatesProof` with `Prop_ByaccTerminates` (C71).  `LemonReadResync` is about unknown declarations (C55).

## 6. Testing the theorems

`seeded/LOG.jsonl` records wrong variants of the model that were tried: a definition of a
`*Model.v` file is changed in a scratch copy from which all `Example`s have been removed, everything is
rebuilt, and the lemmas that no longer hold together with the `Cnn` theorems that depend on
them are noted.  "none expected" marks changes that are equivalent or harmless.
