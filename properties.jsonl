{"id": "C01", "title": "lemon: nullable and FIRST sets are exact", "statement": "When lemon analyses a grammar, a nonterminal is treated as able to derive the empty string exactly when the rules derive the empty string from it, and the FIRST set listed for it (the .out report) contains a terminal exactly when some derivation from it starts with that terminal (a multi-terminal A|B standing for any of its members). The analysis always terminates.", "quantifier": "every finite grammar, with any mixture of recursion, empty rules and multi-terminals", "why_tests_cant": "The set of grammars is infinite and the result is a fixed point over the whole grammar; sampling grammars leaves every untested shape of recursion open.", "anchors": ["lemon/lemon.c:FindFirstSets", "lemon/lemon.c:SetAdd", "lemon/lemon.c:SetUnion"]}
{"id": "C02", "title": "lemon: the states are exactly the LR(0) states", "statement": "For every grammar lemon builds a state for each set of LR(0) items reachable from the start rules, never two states for the same item set, and following transitions along a string of symbols leads to the state holding exactly the items valid for that string (and to no state when no item is valid). State construction terminates.", "quantifier": "every grammar, every string of grammar symbols", "why_tests_cant": "The set of grammars is infinite and the result is a fixed point over the whole grammar; sampling grammars leaves every untested shape of recursion open.", "anchors": ["lemon/lemon.c:FindStates", "lemon/lemon.c:getstate", "lemon/lemon.c:buildshifts", "lemon/lemon.c:Configlist_closure", "lemon/lemon.c:State_find"]}
{"id": "C03", "title": "lemon: lookahead sets are the LALR(1) lookaheads", "statement": "After lookahead computation a completed item in a state carries terminal t exactly when t can follow it in the canonical LR(1) construction for some string of symbols leading to that state, i.e. lookaheads are neither missing (a valid sentence would be rejected) nor too large (a spurious conflict would be reported).", "quantifier": "every grammar, every state, completed item and terminal", "why_tests_cant": "The set of grammars is infinite and the result is a fixed point over the whole grammar; sampling grammars leaves every untested shape of recursion open.", "anchors": ["lemon/lemon.c:FindLinks", "lemon/lemon.c:FindFollowSets", "lemon/lemon.c:Configlist_closure", "lemon/lemon.c:Plink_add", "lemon/lemon.c:Plink_copy"]}
{"id": "C04", "title": "lemon: the action list before conflict resolution is exactly shifts + reductions + accept", "statement": "The unresolved action list of a state contains a shift on a symbol exactly when some item of the state has that symbol after the dot, a reduce by a rule on t exactly when the completed item carries t, and one accept on the start symbol in the first state only.", "quantifier": "every grammar, state and symbol", "why_tests_cant": "The set of grammars is infinite and the result is a fixed point over the whole grammar; sampling grammars leaves every untested shape of recursion open.", "anchors": ["lemon/lemon.c:FindActions", "lemon/lemon.c:Action_add", "lemon/lemon.c:buildshifts"]}
{"id": "C05", "title": "lemon: pairwise conflict resolution follows the documented precedence rules", "statement": "For a shift and a reduce on the same token: if either the token or the rule has no precedence, it is a conflict and shift is used; otherwise the higher precedence wins, and at equal precedence left means reduce, right means shift and nonassoc means error. For two reduces the higher-precedence rule wins, and missing or equal precedences are a conflict where the earlier rule is used. The result is independent of anything else in the grammar and exactly the undecided pairs are counted as conflicts.", "quantifier": "every pair of actions with any precedence and associativity annotations", "why_tests_cant": "Interaction of five action kinds, four associativities and arbitrary integer precedences; the outcome must hold for all of them and be total (no assertion failure).", "anchors": ["lemon/lemon.c:resolve_conflict", "lemon/lemon.c:FindActions"]}
{"id": "C06", "title": "lemon: after resolution at most one action is live per state and lookahead", "statement": "In every state and for every lookahead at most one action is finally executable (shift, reduce, accept or error); conflict resolution always completes without aborting, whatever the number of competing actions on one token.", "quantifier": "every action list with any number of actions per lookahead", "why_tests_cant": "The number of competing actions per token is unbounded and the outcome depends on order and on mutated earlier decisions.", "anchors": ["lemon/lemon.c:FindActions", "lemon/lemon.c:resolve_conflict", "lemon/lemon.c:Action_sort"]}
{"id": "C07", "title": "lemon: zero reported conflicts means a deterministic table; -u reports the raw conflicts", "statement": "With precedences ignored (-u) the conflict count is the number of (state, token, extra action) triples, so it is zero exactly when in every state no token has two different actions.", "quantifier": "every grammar, precedences ignored", "why_tests_cant": "The set of grammars is infinite and the result is a fixed point over the whole grammar; sampling grammars leaves every untested shape of recursion open.", "anchors": ["lemon/lemon.c:FindActions", "lemon/lemon.c:resolve_conflict", "lemon/lemon.c:main"]}
{"id": "C08", "title": "lemon: rule precedence", "statement": "A rule with an explicit [X] marker takes the precedence of X; otherwise it takes the precedence of the first right-hand-side symbol that has one (for a multi-terminal the first member that has one), or with -z / %yacc_prec the precedence, if any, of the last terminal; with -u no rule has a precedence.", "quantifier": "every rule and every precedence assignment", "why_tests_cant": "Right-hand sides are of unbounded length with arbitrary positions of annotated symbols.", "anchors": ["lemon/lemon.c:FindRulePrecedences"]}
{"id": "C09", "title": "lemon: packed action table returns exactly what was put in", "statement": "After any sequence of transactions (set of lookahead/action pairs, then insert) on the action table, looking up any lookahead at the offset returned for a transaction gives that transaction's action when the lookahead was in it, and is recognisably absent otherwise; later insertions never disturb earlier ones.", "quantifier": "every sequence of transactions, of any length, with any lookaheads and actions", "why_tests_cant": "Overlapping of rows is a global property of the whole insertion history; a bad overlap shows only for particular combinations of rows.", "anchors": ["lemon/lemon.c:acttab_insert", "lemon/lemon.c:acttab_action", "lemon/lemon.c:acttab_action_size"]}
{"id": "C10", "title": "lemon: table lookups with terminals never run off the table", "statement": "For every state and every token code the generated parser only reads the lookahead table inside its declared bounds, and offsets returned for rows inserted as 'safe' are non-negative.", "quantifier": "every transaction history, every terminal", "why_tests_cant": "Depends on the row placed last and on table padding; failing inputs need a particular packing.", "anchors": ["lemon/lemon.c:acttab_insert", "lemon/lemon.c:ReportTable", "lemon/lempar.c:yy_find_shift_action"]}
{"id": "C11", "title": "lemon: action codes are unambiguous", "statement": "The integer stored for an action decodes in the generated parser to the same action: shift to a state, shift-reduce by a rule, error, accept, no-action and reduce occupy disjoint ranges for any numbers of states and rules.", "quantifier": "every number of states and rules, every action", "why_tests_cant": "Range arithmetic over unbounded sizes.", "anchors": ["lemon/lemon.c:compute_action", "lemon/lemon.c:ReportTable", "lemon/lempar.c:Parse", "lemon/lempar.c:yy_shift"]}
{"id": "C12", "title": "lemon: table compression preserves parsing", "statement": "Merging the most frequent reduction of a state into the default action, converting shifts into reduce-only states to shift-reduce and reordering states never change which token sequences are accepted nor the sequence of shifts and reductions performed on accepted input.", "quantifier": "every automaton and input", "why_tests_cant": "Equality of behaviour over infinitely many inputs for infinitely many automata.", "anchors": ["lemon/lemon.c:CompressTables", "lemon/lemon.c:ResortStates", "lemon/lemon.c:compute_action"]}
{"id": "C13", "title": "lemon: state renumbering is a permutation that keeps the start state first", "statement": "Renumbering states for output keeps every state exactly once, leaves the initial state numbered 0 and puts the states removable by shift-reduce after all states that are kept.", "quantifier": "every list of states with any action counts", "why_tests_cant": "Sort comparisons over arbitrary counts.", "anchors": ["lemon/lemon.c:ResortStates", "lemon/lemon.c:stateResortCompare"]}
{"id": "C14", "title": "lemon generated parser: only sentences are accepted", "statement": "If the generated parser reports acceptance after being fed a token sequence and end-of-input, then the sequence is derivable from the start symbol and the reductions performed are a rightmost derivation in reverse.", "quantifier": "every conflict-free or conflict-resolved grammar, every token sequence", "why_tests_cant": "Soundness over all inputs of all grammars.", "anchors": ["lemon/lempar.c:Parse", "lemon/lempar.c:yy_find_shift_action", "lemon/lempar.c:yy_find_reduce_action", "lemon/lempar.c:yy_shift", "lemon/lempar.c:yy_reduce"]}
{"id": "C15", "title": "lemon generated parser: every sentence is accepted", "statement": "For a grammar for which no conflict arises, feeding any sentence of the language and then end-of-input makes the generated parser accept without reporting a syntax error; with a stack that grows, the parser ends on every token string and accepts exactly the sentences.", "quantifier": "every conflict-free grammar, every sentence", "why_tests_cant": "Completeness over all sentences; depends on correctness of every generator phase.", "anchors": ["lemon/lempar.c:Parse", "lemon/lemon.c:FindFollowSets", "lemon/lemon.c:FindActions"]}
{"id": "C16", "title": "lemon generated parser: reduce loops cannot run the stack past its bounds", "statement": "The parser never reads or writes outside its stack: a reduction never pops more entries than are above the bottom entry, and a push beyond the capacity is detected before writing, after which every remaining entry is destroyed and the overflow callback runs once.", "quantifier": "every table, every token sequence, every stack capacity", "why_tests_cant": "Memory safety over all input sequences.", "anchors": ["lemon/lempar.c:yy_shift", "lemon/lempar.c:yy_reduce", "lemon/lempar.c:Parse", "lemon/lempar.c:yyStackOverflow", "lemon/lempar.c:yyGrowStack"]}
{"id": "C17", "title": "lemon generated parser: each token value is consumed or destroyed exactly once", "statement": "Every token value passed to the parser is afterwards exactly once either handed to a reduction or destroyed, under normal parsing, syntax errors, stack overflow and finalisation.", "quantifier": "every token sequence and every error-handling mode", "why_tests_cant": "Ownership over all histories, including error paths.", "anchors": ["lemon/lempar.c:Parse", "lemon/lempar.c:yy_pop_parser_stack", "lemon/lempar.c:yy_destructor", "lemon/lempar.c:yy_shift", "lemon/lempar.c:ParseFinalize"]}
{"id": "C18", "title": "lemon generated parser: error reporting is throttled and recovery progresses", "statement": "With an error symbol, after a syntax error has been reported no further one is reported until three tokens have been shifted successfully, and each call with a token terminates (either the token is shifted, discarded or parsing fails).", "quantifier": "every table and token history", "why_tests_cant": "Needs all interleavings of errors and shifts.", "anchors": ["lemon/lempar.c:Parse"]}
{"id": "C19", "title": "lemon generated parser: fallback and wildcard lookups", "statement": "A token with no action of its own is replaced by its fallback token when that one has an action, else by the wildcard when the state accepts one, else the default action is used; a token with its own action is never replaced.", "quantifier": "every table, fallback map, wildcard and token", "why_tests_cant": "All combinations of table contents.", "anchors": ["lemon/lempar.c:yy_find_shift_action"]}
{"id": "C20", "title": "lemon: sorting returns a sorted permutation", "statement": "Sorting a linked list of fewer than 2^30 elements terminates and returns exactly the same elements in non-decreasing order. Equal elements may change their relative order (the sort is not stable), and at 2^30 elements the last merge slot is overwritten and elements are lost.", "quantifier": "every list length and comparison function that is a total preorder", "why_tests_cant": "Lists of any length; 30 merge slots invite a boundary bug at sizes no test can reach.", "anchors": ["lemon/lemon.c:msort", "lemon/lemon.c:merge"]}
{"id": "C21", "title": "lemon: rule ordering", "statement": "Rule sorting returns all rules exactly once in increasing order of their number, and rules with action code are numbered before rules without, preserving source order inside each group.", "quantifier": "every rule list", "why_tests_cant": "Lists of any length.", "anchors": ["lemon/lemon.c:Rule_sort", "lemon/lemon.c:Rule_merge", "lemon/lemon.c:main"]}
{"id": "C22", "title": "lemon: string interning", "statement": "Interning equal texts always returns the identical stored pointer and different texts different pointers, across any number of insertions and internal table growths.", "quantifier": "every sequence of interned strings", "why_tests_cant": "The table doubles at sizes fixed by history; collisions and rehash order vary without bound.", "anchors": ["lemon/lemon.c:Strsafe", "lemon/lemon.c:Strsafe_insert", "lemon/lemon.c:Strsafe_find"]}
{"id": "C23", "title": "lemon: symbol, state and configuration tables behave as finite maps", "statement": "After any history of insertions a lookup returns the data inserted for an equal key and nothing otherwise, inserting an existing key is refused and changes nothing, and enumeration returns every inserted entry exactly once.", "quantifier": "every insertion history, every hash function", "why_tests_cant": "All histories across table growth.", "anchors": ["lemon/lemon.c:Symbol_insert", "lemon/lemon.c:Symbol_find", "lemon/lemon.c:State_insert", "lemon/lemon.c:State_find", "lemon/lemon.c:Configtable_insert", "lemon/lemon.c:Configtable_find"]}
{"id": "C24", "title": "lemon: symbol order puts terminals before nonterminals before multi-terminals", "statement": "After sorting, symbols are ordered terminals first, then nonterminals, then multi-terminals, with declaration order preserved inside each class; so the codes assigned to terminals are contiguous from 0 and stable.", "quantifier": "every list of symbols", "why_tests_cant": "Comparison must be a strict order for all names and indices.", "anchors": ["lemon/lemon.c:Symbolcmpp", "lemon/lemon.c:main"]}
{"id": "C25", "title": "lemon: terminal sets", "statement": "Adding an element to a set and uniting sets have the mathematical effect, and the returned flag is true exactly when the target set changed, so that fixed-point loops based on it stop exactly at a fixed point.", "quantifier": "every set size, element and pair of sets", "why_tests_cant": "Sets of any size.", "anchors": ["lemon/lemon.c:SetAdd", "lemon/lemon.c:SetUnion", "lemon/lemon.c:SetNew"]}
{"id": "C26", "title": "lemon: chosen C integer types can hold their tables", "statement": "For every value range the C type chosen for a generated table can represent all values in the range, and the reported byte size is the size of that type.", "quantifier": "every lower and upper bound", "why_tests_cant": "All integers, including the range boundaries.", "anchors": ["lemon/lemon.c:minimum_size_type"]}
{"id": "C27", "title": "lemon: preprocessor keeps line structure and selects branches", "statement": "Conditional-compilation preprocessing never changes the length of the input nor the position of any newline, blanks out exactly directive lines and excluded branches, and leaves all other text untouched.", "quantifier": "every input text and every set of defined macros", "why_tests_cant": "Arbitrary nesting of directives in arbitrary text.", "anchors": ["lemon/lemon.c:preprocess_input", "lemon/lemon.c:eval_preprocessor_boolean"]}
{"id": "C28", "title": "lemon: boolean expressions in %if are evaluated as documented", "statement": "A well-formed %if expression over defined/undefined names with !, &&, || and parentheses evaluates to its Boolean value and an ill-formed expression is rejected.", "quantifier": "every expression", "why_tests_cant": "Unbounded nesting of operators.", "anchors": ["lemon/lemon.c:eval_preprocessor_boolean"]}
{"id": "C29", "title": "lemon: formatted error messages", "statement": "The built-in formatter writes exactly the text printf would for %d, %s and %.*s with and without width, and returns the number of characters written.", "quantifier": "every format string and argument", "why_tests_cant": "All integers and widths.", "anchors": ["lemon/lemon.c:lemon_vsprintf", "lemon/lemon.c:lemon_addtext"]}
{"id": "C30", "title": "lemon -y: conversion to yacc keeps the language", "statement": "The yacc rules printed for a lemon rule derive exactly the same token strings as the lemon rule, also when several right-hand-side positions are multi-terminals.", "quantifier": "every rule", "why_tests_cant": "Any number and size of multi-terminals per rule.", "anchors": ["lemon/lemon.c:rule_print_yacc0", "lemon/lemon.c:rule_print_yacc", "lemon/lemon.c:Reprint_yacc"]}
{"id": "C31", "title": "byacc: nullable nonterminals are exact", "statement": "A nonterminal is recorded as nullable exactly when it derives the empty string; the computation terminates.", "quantifier": "every grammar", "why_tests_cant": "The set of grammars is infinite and the result is a fixed point over the whole grammar; sampling grammars leaves every untested shape of recursion open.", "anchors": ["byacc/lr0.c:set_nullable"]}
{"id": "C32", "title": "byacc: transitive closure", "statement": "The bit-matrix closure computes exactly the (reflexive) transitive closure of the relation, for any matrix size including sizes that are not a multiple of the word size, touching nothing outside the matrix.", "quantifier": "every relation on any number of elements", "why_tests_cant": "All matrix sizes and word boundaries.", "anchors": ["byacc/warshall.c:transitive_closure", "byacc/warshall.c:reflexive_transitive_closure"]}
{"id": "C33", "title": "byacc: closure of a kernel", "statement": "The closure of a set of items consists exactly of the items themselves and the initial items of all rules reachable by leftmost expansion, listed in increasing order without duplicates.", "quantifier": "every grammar and item set", "why_tests_cant": "The set of grammars is infinite and the result is a fixed point over the whole grammar; sampling grammars leaves every untested shape of recursion open.", "anchors": ["byacc/closure.c:closure", "byacc/closure.c:set_first_derives", "byacc/closure.c:set_EFF"]}
{"id": "C34", "title": "byacc: the states are exactly the LR(0) states", "statement": "Every reachable set of kernel items gets exactly one state; shifts and reductions recorded for a state are exactly those of its closure; following transitions along a string leads to the state holding exactly the valid items.", "quantifier": "every grammar, every symbol string", "why_tests_cant": "The set of grammars is infinite and the result is a fixed point over the whole grammar; sampling grammars leaves every untested shape of recursion open.", "anchors": ["byacc/lr0.c:generate_states", "byacc/lr0.c:get_state", "byacc/lr0.c:new_itemsets", "byacc/lr0.c:save_shifts", "byacc/lr0.c:save_reductions", "byacc/lr0.c:append_states"]}
{"id": "C35", "title": "byacc: lookaheads are the LALR(1) lookaheads", "statement": "A reduction in a state is offered on token t exactly when t is an LALR(1) lookahead of it in the canonical sense (some string leading to that state has an LR(1) item with lookahead t).", "quantifier": "every grammar, state, reduction and token", "why_tests_cant": "The set of grammars is infinite and the result is a fixed point over the whole grammar; sampling grammars leaves every untested shape of recursion open.", "anchors": ["byacc/lalr.c:initialize_F", "byacc/lalr.c:build_relations", "byacc/lalr.c:digraph", "byacc/lalr.c:traverse", "byacc/lalr.c:compute_lookaheads"]}
{"id": "C36", "title": "byacc: the strongly-connected-component traversal solves the set equations", "statement": "For every relation on indices and every initial family of sets, the traversal terminates with each set equal to the union of the initial sets of all indices reachable through the relation.", "quantifier": "every finite relation (any cycles) and initial sets", "why_tests_cant": "All graph shapes; cyclic graphs with interleaved components are the hard case.", "anchors": ["byacc/lalr.c:digraph", "byacc/lalr.c:traverse"]}
{"id": "C37", "title": "byacc: lookahead construction stays inside its work arrays", "statement": "While building the lookahead relations for any grammar no work array is indexed outside its allocation.", "quantifier": "every grammar", "why_tests_cant": "Overflow needs grammars with more edges than transitions, which ordinary test grammars lack.", "anchors": ["byacc/lalr.c:build_relations"]}
{"id": "C38", "title": "byacc: transposing a relation", "statement": "Transposing a family of index lists yields, for each index j, exactly the indices i that list j, in increasing order with multiplicity.", "quantifier": "every relation", "why_tests_cant": "All list shapes.", "anchors": ["byacc/lalr.c:transpose"]}
{"id": "C39", "title": "byacc: conflict resolution by precedence and conflict counting", "statement": "On every token the live action is the one yacc's rules prescribe: with both precedences set the higher wins, equal means left reduce, right shift, nonassoc none; otherwise shift is preferred and one shift/reduce conflict is counted, and among reductions the first rule wins with one reduce/reduce conflict counted.", "quantifier": "every action list", "why_tests_cant": "Action lists of any length.", "anchors": ["byacc/mkpar.c:remove_conflicts", "byacc/mkpar.c:add_reduce", "byacc/mkpar.c:parse_actions"]}
{"id": "C40", "title": "byacc: at most one live action per token", "statement": "After conflict resolution no token has two live actions in a state.", "quantifier": "every sorted action list", "why_tests_cant": "Action lists of any length.", "anchors": ["byacc/mkpar.c:remove_conflicts"]}
{"id": "C41", "title": "byacc: default reductions are harmless", "statement": "A state gets a default reduction only if its sole live action kind is that one reduction, so replacing the lookahead check by the default never replaces a shift or a different reduction.", "quantifier": "every action list", "why_tests_cant": "Action lists of any length.", "anchors": ["byacc/mkpar.c:sole_reduction", "byacc/mkpar.c:defreds"]}
{"id": "C42", "title": "byacc: packed tables return exactly what was put in", "statement": "For any family of rows and columns, the generated check/table lookup at the row's base with any index gives the row's entry when present and fails otherwise, with every read in bounds.", "quantifier": "every family of vectors", "why_tests_cant": "Overlap of rows is global over the whole packing.", "anchors": ["byacc/output.c:pack_vector", "byacc/output.c:matching_vector", "byacc/output.c:pack_table", "byacc/output.c:sort_actions", "byacc/yaccpar.c:yyparse"]}
{"id": "C43", "title": "byacc: goto tables", "statement": "For every state and nonterminal with a transition, the packed goto table with its per-nonterminal default returns the transition's target.", "quantifier": "every automaton", "why_tests_cant": "All automata.", "anchors": ["byacc/output.c:default_goto", "byacc/output.c:save_column", "byacc/output.c:goto_actions"]}
{"id": "C44", "title": "byacc: token numbering", "statement": "Token codes assigned automatically are pairwise distinct, greater than 256 and different from every code the user assigned explicitly.", "quantifier": "every set of declared tokens with any explicit codes", "why_tests_cant": "All combinations of explicit values.", "anchors": ["byacc/reader.c:pack_symbols"]}
{"id": "C45", "title": "byacc: rule precedence, and agreement with lemon", "statement": "Without %prec a rule takes the precedence of its last terminal, with -z that of its leftmost terminal having one; %prec overrides; so byacc -z and lemon choose the same rule precedence for the same grammar.", "quantifier": "every rule", "why_tests_cant": "Unbounded right-hand sides.", "anchors": ["byacc/reader.c:pack_grammar", "byacc/reader.c:mark_symbol", "lemon/lemon.c:FindRulePrecedences"]}
{"id": "C46", "title": "byacc: mid-rule actions", "statement": "A rule with embedded actions is replaced by a rule using fresh empty nonterminals, one per embedded action, and derives the same token strings.", "quantifier": "every rule with any number of embedded actions", "why_tests_cant": "Unbounded rules.", "anchors": ["byacc/reader.c:insert_empty_rule", "byacc/reader.c:add_symbol", "byacc/reader.c:end_rule"]}
{"id": "C47", "title": "byacc: symbol table", "statement": "Looking up a name always returns the same symbol object for the same name, different objects for different names, in declaration order, for any number of names.", "quantifier": "every sequence of names", "why_tests_cant": "All hash collisions.", "anchors": ["byacc/symtab.c:lookup", "byacc/symtab.c:make_bucket", "byacc/symtab.c:hash"]}
{"id": "C48", "title": "byacc generated parser: only sentences are accepted", "statement": "If yyparse returns 0 without having reported an error then the tokens delivered by the scanner form a sentence of the grammar.", "quantifier": "every grammar and token stream", "why_tests_cant": "All inputs.", "anchors": ["byacc/yaccpar.c:yyparse"]}
{"id": "C49", "title": "byacc generated parser: stack growth is memory safe", "statement": "yyparse never stores beyond its allocated stack; when the limit is reached it reports memory exhaustion and returns.", "quantifier": "every token stream and table", "why_tests_cant": "All inputs.", "anchors": ["byacc/yaccpar.c:yygrowstack", "byacc/yaccpar.c:yyparse"]}
{"id": "C50", "title": "lemon and byacc agree", "statement": "For the same grammar lemon and byacc have the same LALR(1) lookaheads for corresponding states, so with precedences ignored (-u) they report conflicts on exactly the same states and tokens.", "quantifier": "every grammar acceptable to both", "why_tests_cant": "Cross-tool agreement over all grammars; this is what the repository exists to compare.", "anchors": ["lemon/lemon.c:FindFollowSets", "byacc/lalr.c:lalr", "lemon/lemon.c:FindActions", "byacc/mkpar.c:remove_conflicts", "README.md"]}
{"id": "C51", "title": "byacc -E: conversion to lemon keeps symbols apart", "statement": "Distinct yacc symbols are printed as distinct lemon symbols, so the converted grammar has the same language up to renaming.", "quantifier": "every set of symbol names", "why_tests_cant": "All names.", "anchors": ["byacc/reader.c:get_lemon_token_name", "byacc/reader.c:get_lemon_rule_name", "byacc/reader.c:print_grammar_lemon"]}
{"id": "C52", "title": "byacc generated parser: every sentence is accepted", "statement": "For a grammar without LALR(1) conflicts yyparse, started with any stack an earlier call may have left, reads every sentence up to the end marker and returns 0 without reporting an error, unless memory or the stack limit runs out; a grammar without precedences for which byacc counts no conflict is such a grammar.", "quantifier": "every conflict-free grammar, every sentence", "why_tests_cant": "Unbounded grammars and inputs; tests sample sentences.", "anchors": ["byacc/yaccpar.c:yyparse", "byacc/output.c:output", "byacc/mkpar.c:make_parser"]}
{"id": "C53", "title": "the parsers generated by lemon and byacc accept the same inputs", "statement": "For the same conflict-free grammar, what the byacc parser accepts the lemon parser accepts given enough stack, and what the lemon parser accepts the byacc parser accepts unless it runs out of stack.", "quantifier": "every conflict-free grammar with a goal on no right-hand side, every token string", "why_tests_cant": "Equivalence of two programs over all grammars and inputs.", "anchors": ["lemon/lempar.c:Parse", "lemon/lemon.c:ReportTable", "byacc/yaccpar.c:yyparse", "byacc/output.c:output"]}
{"id": "C54", "title": "lemon scanner recognises its lexical grammar", "statement": "The scanner loop of Parse ends without a message and hands on a list of tokens with line numbers exactly when the text consists of blanks, comments and these tokens (strings, blocks of C code with balanced braces outside comments and literals, identifiers, ::=, |X and /X, single characters); it reports an unterminated string or block exactly when the text ends inside one; it reads behind the end of the text exactly when the text ends in a comment or literal inside an open block.", "quantifier": "every text", "why_tests_cant": "All nestings of braces, comments and literals.", "anchors": ["lemon/lemon.c:Parse"]}
{"id": "C55", "title": "lemon reads grammar files as they are declared", "statement": "A file written as a sequence of items (rules with aliases, alternatives, precedence marks and code; %left and the like; %fallback, %token, %wildcard, %token_class, %type, %destructor, %yacc_prec and the text declarations) is read without a message exactly when nothing is declared twice and no right side exceeds 1000 symbols; the symbols, their order, kinds, precedences, fallbacks, class members and types, the rules in order, the wildcard and the texts are then those declared. No token stream makes parseonetoken use a bad index, and declaration buffers never overflow. An unknown declaration gives one message and is skipped up to the next dot or percent sign.", "quantifier": "every file of items; safety for every token stream", "why_tests_cant": "All combinations and orders of declarations.", "anchors": ["lemon/lemon.c:parseonetoken", "lemon/lemon.c:Parse", "lemon/lemon.c:Symbol_new"]}
{"id": "C56", "title": "lemon reports exactly the rules that cannot be reduced", "statement": "Every rule of a nonterminal that occurs in no sentential form is reported as a rule that can not be reduced; without conflicts and unproductive nonterminals no other rule is; the generated parser accepts no input by a reduction with a reported rule.", "quantifier": "every grammar", "why_tests_cant": "All grammars; whether a nonterminal is reachable is a property of all derivations.", "anchors": ["lemon/lemon.c:FindActions"]}
{"id": "C57", "title": "byacc counts exactly the rules that are never reduced", "statement": "Every rule of a nonterminal that occurs in no sentential form is counted as never reduced; without conflicts and unproductive nonterminals no other rule is, and nunused is their number.", "quantifier": "every grammar", "why_tests_cant": "All grammars.", "anchors": ["byacc/mkpar.c:unused_rules", "byacc/mkpar.c:make_parser"]}
{"id": "C58", "title": "byacc generated parser: which errors are reported and how it recovers", "statement": "yynerrs counts exactly the times the parser has no action for the state and token at hand and either never had this before or has shifted at least three tokens since; so reported errors are three tokens apart. A parser without an action pops to the topmost state that can shift error, keeping the token, and gives up only if no stacked state can; if no token was shifted since the last time it drops the token, and gives up only at the end of the input.", "quantifier": "every set of tables, every token string, every run", "why_tests_cant": "Unbounded inputs with errors at all distances.", "anchors": ["byacc/yaccpar.skel:yyparse"]}
{"id": "C59", "title": "lemon: the grammar the passes work on is the grammar of the file", "statement": "For a file of items without repeated declarations that has a rule, whose left sides and start symbol are nonterminals and whose token classes are not empty, the codes of the tokens are 1 to nterminal-1 and of the nonterminals nterminal to nsymbol-1 in the order of first mention; the rules, start symbol, precedences, precedence marks, wildcard, error symbol and fallback table by these codes are those declared; the grammar is well-formed and its sentences are, by names, those of the file. Files outside these conditions that are read without a message: a token class as a left side, an empty class, a token as start symbol, chained fallbacks.", "quantifier": "every file of items", "why_tests_cant": "All combinations and orders of declarations.", "anchors": ["lemon/lemon.c:main", "lemon/lemon.c:Parse", "lemon/lemon.c:Symbolcmpp", "lemon/lemon.c:ReportTable"]}
{"id": "C60", "title": "lemon: from the text of a grammar file to the language of the parser", "statement": "If lemon turns the text of a grammar file into a parser, every token string the parser accepts is, after replacing tokens by their fallbacks or the wildcard, a sentence of the grammar written in the file; if the grammar has no conflicts and the tables are not compressed or there is no fallback and no reduction has the wildcard as a lookahead, and yy_shift_ofst covers all states, the parser accepts every sentence given enough stack; if moreover all nonterminals derive token strings and there is no symbol error, fallback or wildcard, then on a stack that can grow it ends on every token string and accepts exactly the sentences.", "quantifier": "every text, every token string", "why_tests_cant": "The whole program on all inputs.", "anchors": ["lemon/lemon.c:main", "lemon/lemon.c:Parse", "lemon/lemon.c:ReportTable", "lemon/lempar.c:Parse"]}
{"id": "C61", "title": "lemon generated parser: which errors are reported and how it recovers", "statement": "In a call of Parse at most one error is reported, with the token of the call: exactly when an error happens in it and either there was none before (or since the last acceptance, or without error symbol the last failure) or at least four tokens (three without error symbol) were shifted since the last one. With an error symbol a token without action is dropped when the error symbol is on top of the stack or was shifted in the same call; otherwise the topmost state above the bottom one that can shift the error symbol is uncovered, the values above it are destroyed, the error symbol is shifted and the token tried again; with no such state, or at the end of input, the parser fails with only the bottom state left. The initial state is never used for recovery even if it can shift the error symbol (refuted claim with witness).", "quantifier": "every set of tables, every token string, every run without stack overflow", "why_tests_cant": "Unbounded inputs with errors at all distances.", "anchors": ["lemon/lempar.c:Parse", "lemon/lempar.c:yy_find_reduce_action"]}
{"id": "C62", "title": "lemon: the code of a rule and what is reported about its labels", "statement": "If no part of the code ends with a label, translate_code stays inside its arrays; the new code is the old one with every label replaced by the place of its value on the parser stack (@label by its token number); the text put before and after it destroys exactly the values of unlabelled symbols that have a destructor, each once, and moves the left-hand side into place; and the messages are exactly the misuses: unused labels, labels of two symbols, different types sharing a place, the first symbol named behind the overwrites-comment. Refuted: code ending with a label is read behind its end, a comment directly behind a label is not seen, an unlabelled token class is not destroyed by %token_destructor, labels of 450 characters overrun zOvwrt.", "quantifier": "every rule of at most 1000 symbols, every code text", "why_tests_cant": "All texts and label sets.", "anchors": ["lemon/lemon.c:translate_code", "lemon/lemon.c:append_str", "lemon/lemon.c:has_destructor"]}
{"id": "C63", "title": "lemon: the union of the values has one member for each type", "statement": "print_stack_union never fails or loops; every symbol gets a dtnum, 0 exactly for terminals, for nonterminals without a type and for those whose type is %token_type itself; any other nonterminal gets the member whose type is its own without surrounding space; two nonterminals share a member exactly if their types are the same; the members have different positive numbers, each is the type of some symbol, and the error symbol has a member of its own. Refuted: a %token_type with surrounding space is not recognised as the same type.", "quantifier": "every list of symbols and types", "why_tests_cant": "All symbol tables, all hash collisions.", "anchors": ["lemon/lemon.c:print_stack_union"]}
{"id": "C64", "title": "lemon: yy_destructor has exactly the wanted cases", "statement": "Every symbol other than $ that has a destructor (its own, the one of tokens, the default one) occurs in exactly one case label of yy_destructor, no other symbol does, and the code below its label is that destructor with every $$ replaced by the member of the union; translate_code calls yy_destructor for exactly the symbols with a case. Refuted: nonterminals of different types share one %default_destructor text with the member of the last of them (also that of the error symbol), and token classes have calls without a case.", "quantifier": "every list of symbols, every text", "why_tests_cant": "All combinations of destructors and types.", "anchors": ["lemon/lemon.c:ReportTable", "lemon/lemon.c:emit_destructor_code", "lemon/lemon.c:has_destructor"]}
{"id": "C65", "title": "lemon: the switch of the reductions runs each rule's own code", "statement": "Every rule has exactly one place in the switch of yy_reduce, under a case label or in the default branch; the code under its label is the rule's own code, with the code that destroys unlabelled values before and after; a rule in the default branch has no code and destroys nothing; the text of the switch is exactly that. Refuted: a unit rule without code whose right side has a destructor is skipped by CompressTables, so its value is never destroyed.", "quantifier": "every list of rules", "why_tests_cant": "All rule lists with shared and different code.", "anchors": ["lemon/lemon.c:ReportTable", "lemon/lemon.c:emit_code", "lemon/lemon.c:translate_code", "lemon/lemon.c:CompressTables"]}
{"id": "C66", "title": "lemon: the lines of the generated file are counted", "statement": "Copying a part of the template keeps its lines except that words that begin with Parse begin with %name instead; printing %include-like texts, the code of rules, destructors and the switches keeps the distance between lineno and the true line, so that with distance 0 every #line that leads back to the generated file names the line below it. Refuted: the #ifndef before the token numbers is not counted so that without -m all later directives are off by one; the template header that is skipped is counted; lines of 999 and more characters count twice; a grammar without %include makes tplt_print read before the start of a string.", "quantifier": "every template, text and grammar", "why_tests_cant": "All texts.", "anchors": ["lemon/lemon.c:tplt_xfer", "lemon/lemon.c:tplt_skip_header", "lemon/lemon.c:tplt_print", "lemon/lemon.c:tplt_linedir", "lemon/lemon.c:emit_code", "lemon/lemon.c:emit_destructor_code", "lemon/lemon.c:ReportTable"]}
{"id": "C67", "title": "byacc: the literals of a grammar file", "statement": "Between quotes the reader takes exactly the texts that stand for some characters (plain characters, continued lines, octal and hexadecimal numbers up to 255, the letters for control characters, other characters behind a backslash) and finds these characters; the name it gives the symbol is itself a way to write the literal, so that two literals are the same symbol exactly if they stand for the same characters, whatever the quotes and escapes.", "quantifier": "every text", "why_tests_cant": "All texts and escapes.", "anchors": ["byacc/reader.c:get_literal", "byacc/reader.c:hexval"]}
{"id": "C68", "title": "byacc: the actions of a grammar file", "statement": "For every file with well-used tags and references the file of actions has one case per action, with the number of the rule that is reduced for it, and the text of the action in which $$, $i, $<tag>$, $<tag>i, @$, @i outside of strings and comments are replaced by yyval or the place on the value stack, with the tag of the symbol referred to (embedded actions count as symbols with the tag of the left side), and // comments by /* */ comments that end where they do. Refuted: $5 in a rule without symbols is no error though tags are used; $foo and then $<foo>$ reads behind an allocation; a reference directly behind a name is taken as part of the name.", "quantifier": "every file", "why_tests_cant": "All texts.", "anchors": ["byacc/reader.c:copy_action", "byacc/reader.c:copy_string", "byacc/reader.c:copy_comment", "byacc/reader.c:get_tag"]}
{"id": "C69", "title": "byacc: the symbols, start symbol and rules of a grammar file", "statement": "Exactly the lines that are directives with a number and a file name are left out. For every text that spells a grammar file whose left sides and start symbols are not declared as tokens, whose start symbol has rules and that has at most one %union, the reader succeeds; the table has one entry per symbol in the order of first occurrence; exactly those with rules are nonterminals, all others are tokens, with the code, precedence level and tag last declared; the goal is the last %start or the first left side; and the rules are those written. A %start right behind the mark means the same as one that begins the file, C text there means nothing, whatever follows; every other declaration (but %code) and a second mark are errors there. Refuted: #line with a number only is no directive, as opposed to the comment; %empty and the byte 255 end the rules and the rest is ignored silently; the literal of the character 0 has the code of the end of the input.", "quantifier": "every text, every grammar file", "why_tests_cant": "All texts, layouts and orders of declarations.", "anchors": ["byacc/reader.c:line_directive", "byacc/reader.c:get_line", "byacc/reader.c:nextc", "byacc/reader.c:keyword", "byacc/reader.c:read_declarations", "byacc/reader.c:declare_tokens", "byacc/reader.c:declare_types", "byacc/reader.c:declare_start", "byacc/reader.c:copy_text", "byacc/reader.c:copy_union", "byacc/reader.c:advance_to_start", "byacc/reader.c:add_symbol", "byacc/reader.c:mark_symbol", "byacc/reader.c:read_grammar", "byacc/reader.c:check_symbols"]}
{"id": "C70", "title": "byacc: from the text of a grammar file to the parser", "statement": "For every text that spells a grammar file that can be read and whose token codes are positive, different and not 256: pack_symbols and pack_grammar succeed, tokens keep their codes (error 256, the others new ones above 256), the rules are those of the file in order with empty rules for the actions inside them, and each has the precedence of the symbol after %prec or of its last token (with -z the first token that has one); if the grammar has no conflicts, yyparse returns 0 without an error exactly for the strings of the rules of the file, and with conflicts for no others; if all nonterminals derive token strings it returns on every token string.", "quantifier": "every text, grammar file and token string", "why_tests_cant": "All grammars and inputs.", "anchors": ["byacc/reader.c:pack_symbols", "byacc/reader.c:pack_grammar", "byacc/reader.c:reader", "byacc/main.c:main"]}
{"id": "C71", "title": "byacc: the parser of a conflict-free grammar ends on every input", "statement": "For a grammar without LALR(1) conflicts whose nonterminals all derive strings of tokens yyparse returns for every sequence of numbers that yylex may return before its first end marker, also while it recovers from errors, with any stack an earlier call may have left; unless it runs out of stack it then returns 0 without an error for the sentences and has reported an error for all other token strings. A conflict that byacc resolves by precedence, without a message, can make yyparse run forever.", "quantifier": "every conflict-free grammar, every lexer", "why_tests_cant": "All inputs, right and wrong ones, and unbounded running times.", "anchors": ["byacc/yaccpar.skel:yyparse", "byacc/output.c:output", "byacc/mkpar.c:make_parser"]}
{"id": "C72", "title": "byacc: which grammar files are accepted", "statement": "A text with the form of a grammar file is accepted by the reader exactly if it uses no reserved name, no left side is a token, no symbol of a %start is a token declared before the next %start, the start symbol has rules, the references of the actions can be replaced, there is at most one %union, there is a rule and the left side of the first does not begin with a dollar sign; every other such text ends with an error message (or the read of a tag that is not there). Refuted: a symbol named in %start may be a token if another %start comes first; the order of rules matters for names with a dollar sign; $0 and $-0 are not the same; a number that is accepted can overflow.", "quantifier": "every text that has the form of a grammar file", "why_tests_cant": "All texts, layouts and combinations of mistakes.", "anchors": ["byacc/reader.c:read_declarations", "byacc/reader.c:is_reserved", "byacc/reader.c:get_name", "byacc/reader.c:declare_tokens", "byacc/reader.c:declare_start", "byacc/reader.c:copy_union", "byacc/reader.c:advance_to_start", "byacc/reader.c:start_rule", "byacc/reader.c:copy_action", "byacc/reader.c:check_symbols"]}
{"id": "C73", "title": "lemon -y: what is printed is the same grammar for byacc", "statement": "Of every grammar file that lemon reads without a message, in which no rule has alternatives in more than one place and none is for the symbol error, lemon -y prints a text that the byacc reader accepts. The rules that byacc reads are those of the file in order, one for each alternative, with the same %prec; the start symbol is the left side of the first rule; the tokens are those of the file; the precedences are in the same order and have the same associativities; if the file does not name another start symbol the sentences are the same. If both grammars are conflict-free, the parser of lemon for the file and the parser of byacc for the text find the same token strings correct. Refuted: two places with alternatives lose sentences, or read behind an array; %start_symbol is ignored; a rule for error is printed but not accepted; an end of line in the name of the file breaks the text.", "quantifier": "every grammar file, every token string", "why_tests_cant": "The text of every file, read by another program: layouts, names, numbers of symbols.", "anchors": ["lemon/lemon.c:Reprint_yacc", "lemon/lemon.c:rule_print_yacc", "lemon/lemon.c:rule_print_yacc0", "lemon/lemon.c:Reprint_tokens", "lemon/lemon.c:Reprint_token_numbers", "lemon/lemon.c:get_symbol_prec_chr", "lemon/lemon.c:print_symbol_prec_commented", "lemon/lemon.c:main", "byacc/reader.c:reader"]}
{"id": "C74", "title": "byacc -E: what is printed is the same grammar for lemon", "statement": "Of every grammar file that the byacc reader accepts and whose names byacc -E changes into different names of lemon (names of at most 60 word characters, literals of one character, no token Tk_..., no nonterminal l_... or z_...), byacc -E prints a text that lemon reads without a message. The rules that lemon reads are those of the file in order, without their actions and with the same %prec; tokens begin with capitals and nonterminals do not, and different symbols stay different; the start symbol, the associativities and the order of the precedences are those of the file; lemon takes the precedence of each rule from the symbol that byacc -z takes it from; the sentences are the same. If both grammars are conflict-free and the start symbol is in no right-hand side, the parsers of byacc and of lemon accept the same strings of tokens. Without -z the precedences of the rules differ, the recovery after error is lost, and strings and clashing names are not kept: witnesses.", "quantifier": "every grammar file, every token string", "why_tests_cant": "The text of every file, read by another program; which symbol a precedence comes from shows only in conflicts.", "anchors": ["byacc/reader.c:print_grammar_lemon", "byacc/reader.c:get_lemon_token_name", "byacc/reader.c:get_lemon_rule_name", "byacc/reader.c:get_prec_name", "byacc/reader.c:print_symbol_prec_assoc_commented", "byacc/reader.c:pack_symbols", "lemon/lemon.c:Parse", "lemon/lemon.c:parseonetoken"]}
{"id": "C75", "title": "The text of lemon's tables is the tables, for a C compiler", "statement": "For every grammar and options, if the numbers the generator computes are ints and the names of the symbols have no '*', the text that ReportTable prints for the constants and tables of the parser has, for a C lexer, exactly the tokens of the declarations of these constants and tables with the numbers computed; each table has a type that holds every one of its numbers; and no other parser has a text with these tokens. The head of the generated file is not one comment: without -D its last two lines are outside of the comment (refuted).", "quantifier": "every grammar, all options, all symbol names without '*'", "why_tests_cant": "The digits, signs, commas, line breaks and comments of tables of every length, and the least and greatest number of every table, decide what the compiler sees.", "anchors": ["lemon/lemon.c:ReportTable", "lemon/lemon.c:minimum_size_type", "lemon/lemon.c:rule_print", "lemon/lempar.c:yyFallback", "lemon/lempar.c:yyRuleInfoLhs", "lemon/lempar.c:yyRuleInfoNRhs"]}
{"id": "C76", "title": "The text of byacc's tables is the tables, for a C compiler", "statement": "For every grammar, if the codes, sizes and right sides are ints, the prefix is a C identifier and no token name has a '$', the text byacc prints has, for a C lexer, exactly these tokens: one #define for each token whose name is a C identifier, or without -s such an identifier in double quotes, with the code of the token, and no other; YYERRCODE; the tables of the parser with the numbers computed; the table stos with the symbol that leads into each state of the LR(0) automaton; YYTABLESIZE, YYFINAL, YYMAXTOKEN (the largest code) and YYUNDFTOKEN (above all codes). No other parser, macros or constants have this text. Refuted: a token and a string of the same name give one macro with two values; a token with code INT_MAX makes YYUNDFTOKEN overflow.", "quantifier": "every grammar, names, codes, prefix, -s and -t", "why_tests_cant": "The digits, signs, commas and line breaks of tables of every length, and the codes of every symbol, decide what the compiler sees.", "anchors": ["byacc/output.c:output_int", "byacc/output.c:start_int_table", "byacc/output.c:is_C_identifier", "byacc/output.c:output_defines", "byacc/output.c:output_rule_data", "byacc/output.c:output_yydefred", "byacc/output.c:output_accessing_symbols", "byacc/output.c:output_base", "byacc/output.c:output_table", "byacc/output.c:output_check", "byacc/output.c:output_ctable", "byacc/output.c:output_debug", "byacc/reader.c:pack_symbols"]}
{"id": "C77", "title": "The names and rules byacc prints for traces are those of the grammar, for a C compiler", "statement": "For every grammar with distinct token codes whose symbols are named by printable characters or by literals, the text of yyname and yyrule has, for a C lexer, exactly these tokens: a table of strings whose entry for the code of a symbol (the codes used by stos) is the name of that symbol, whose entry for YYUNDFTOKEN is \"illegal-symbol\", and whose other entries are 0; and the list of the rules, each one the name of the left side, \" :\", and the names of the right side behind blanks. No entry is read before it is set and no name is read past its end. No other names and rules have this text. Refuted: a string literal of more than one character with a double quote in it; its entries are not C.", "quantifier": "every grammar, names, codes, prefix, with and without %token-table", "why_tests_cant": "Every literal is escaped anew, and the lines break at 80 columns by a separate count; the one bad case needs a string with a quote in it.", "anchors": ["byacc/output.c:output_debug", "byacc/output.c:start_str_table", "byacc/output.c:end_table", "byacc/reader.c:pack_symbols", "byacc/reader.c:get_literal"]}
{"id": "C78", "title": "The token macros, trace tables and header lemon prints are those of the grammar, for a C compiler", "statement": "For every grammar whose symbols have printable names and whose tokens with the prefix are C identifiers, the text lemon prints has, for a C lexer, exactly these tokens: one #define per token with the number the parser uses, guarded by the first token (or by INTERFACE with -m); a table of the names of all symbols in order; a table with one text per rule, at the number reductions use for that rule, namely the left side, ' ::=', and each element behind a blank, a class with bars; and this text tells the rule. Whatever the header file held before, afterwards it is an enumeration of the tokens with these numbers and of LEMON_LAST_TOKEN, the number of terminals, unless it held exactly the macros of the tokens. Refuted: a token may be called LEMON_LAST_TOKEN, which is then declared twice; the check for an unchanged header never recognises a header lemon wrote, and keeps one of macros in which LEMON_LAST_TOKEN is missing.", "quantifier": "every grammar, names, prefix, options, and old header", "why_tests_cant": "The order of rules changes with the actions they have, the old file can be anything, and the bad cases need a certain name or a header of the original lemon.", "anchors": ["lemon/lemon.c:ReportTable", "lemon/lemon.c:ReportHeader", "lemon/lemon.c:writeRuleText", "lemon/lempar.c:yyTokenName", "lemon/lempar.c:yyRuleName"]}
{"id": "C79", "title": "The C text lemon prints for a grammar file holds a parser for the sentences of the file", "statement": "For every text that lemon reads as a grammar file without a message, whose numbers are ints, whose names are not longer than lemon's line buffer and whose %token_prefix (if any) is a C identifier: the text lemon prints defines, for a C compiler, a macro for each token of the file (the prefix and the name) and no other; tables from which just one parser can be read; the names of all symbols in the order of their codes; the rules of the file as text, those with code first and each group in the order of the file, which is the order of the rule numbers; and a header with the same numbers as the macros. When the parser in that text is fed the values of the macros of a string of tokens, what it accepts without an error is, up to %fallback and %wildcard, a sentence of the file; and when the grammar has no conflicts and the file no %fallback, %wildcard or symbol error, and its stack can grow, it ends on every string of tokens and accepts exactly the sentences of the file.", "quantifier": "every grammar file, options, old header, string of tokens", "why_tests_cant": "The reader, the numbering of symbols and rules, the generator, the printing and the driver must agree for every file.", "anchors": ["lemon/lemon.c:main", "lemon/lemon.c:Parse", "lemon/lemon.c:ReportTable", "lemon/lemon.c:ReportHeader", "lemon/lemon.c:writeRuleText", "lemon/lempar.c:Parse"]}
{"id": "C80", "title": "The C text byacc prints for a grammar file holds a parser for the strings of the rules of the file", "statement": "For every text that is a byacc grammar file in the sense of C69, with fitting codes and printable names, and whenever the numbers are ints: the text byacc prints defines, for a C compiler, one macro for each token of the file (except error) whose name is a C word, with the code of that token; tables from which just one parser can be read; constants above all codes; the name of each token at its code; and the rules of the file as text in their order, each action inside a rule with an empty rule of its own before it. When the parser in that text is fed the values of the macros (or the codes the file gives), what it accepts without an error message is a string of the rules of the file; and if the grammar has no conflicts, every nonterminal derives a string and no two tokens share a macro, it returns on every string of tokens and accepts exactly the strings of the rules, unless the stack ran over.", "quantifier": "every grammar file, prefix, options, string of tokens", "why_tests_cant": "The reader, the packing of the symbols, the generator, the printing and the driver must agree for every file.", "anchors": ["byacc/reader.c:reader", "byacc/reader.c:pack_symbols", "byacc/reader.c:insert_empty_rule", "byacc/output.c:output", "byacc/output.c:output_debug", "byacc/main.c:main"]}
