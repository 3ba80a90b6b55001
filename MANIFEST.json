{
 "claims": [
  {
   "property": "C01",
   "status": "proved",
   "theorems": [
    "C01_set_refines_finite_set",
    "C01_heap_insert_refines_functional"
   ],
   "note": "all programs over EmptySet/Singleton/Add/Remove/Union/Inter/Diff/Copy, any lawful order; heap-level insertion shown to refine the functional model on linear handles"
  },
  {
   "property": "C02",
   "status": "partial",
   "theorems": [
    "C02_set_balanced_partial",
    "C02_remove_unbalances_refuted"
   ],
   "note": "proved for growing programs (Add/Singleton/Union/Inter); false for Remove: rebalance uses a double rotation when the heavy child is balanced"
  },
  {
   "property": "C03",
   "status": "partial",
   "theorems": [
    "C03_copy_contents_partial",
    "C03_copy_balance_refuted"
   ],
   "note": "contents and absence of panics proved; balance after Copy refuted (nodeCpy resets heights to 1)"
  },
  {
   "property": "C04",
   "status": "partial",
   "theorems": [
    "C04_old_handle_changes_refuted",
    "C04_old_handle_gains_refuted",
    "C04_disjoint_handles_unaffected_partial"
   ],
   "note": "refuted for shared handles; proved for handles to disjoint cells"
  },
  {
   "property": "C05",
   "status": "partial",
   "theorems": [
    "C05_filter_always_empty_refuted",
    "C05_filter_refuted"
   ],
   "note": "refuted: Filter drops the result of Add and always returns the empty set"
  },
  {
   "property": "C06",
   "status": "proved",
   "theorems": [
    "C06_parallel_reduction_schedule_independent",
    "C06_parallel_reduction_terminates"
   ],
   "note": ""
  },
  {
   "property": "C07",
   "status": "proved",
   "theorems": [
    "C07_fresh_indices"
   ],
   "note": "every number of goroutines and every schedule; one step = one mutex-protected section"
  },
  {
   "property": "C08",
   "status": "partial",
   "theorems": [
    "C08_different_names_partial",
    "C08_known_name_partial",
    "C08_one_asker_partial",
    "C08_same_name_refuted"
   ],
   "note": "different names get different indices in every interleaving; the same name keeps its index when known before the goroutines start or asked by a single goroutine; false for two goroutines asking for a new name (check-then-act over two locked sections)"
  },
  {
   "property": "C09",
   "status": "partial",
   "theorems": [
    "C09_per_goroutine_partial",
    "C09_no_overlap_partial",
    "C09_unique_refuted"
   ],
   "note": "distinct per goroutine and for non-overlapping calls; false in general (the counter is read after the lock is released)"
  },
  {
   "property": "C10",
   "status": "partial",
   "theorems": [
    "C10_each_task_once_partial",
    "C10_single_goroutine_partial",
    "C10_one_at_a_time_refuted",
    "C10_counter_refuted"
   ],
   "note": "every task runs exactly once in every schedule; one-at-a-time and counter exactness hold for a single goroutine and are refuted for two"
  },
  {
   "property": "C11",
   "status": "proved",
   "theorems": [
    "C11_term_metas_exact",
    "C11_form_metas_exact"
   ],
   "note": "every term and formula; the sets are never in a panicking state. Metavariables inside type arguments are not reported by the code and not counted as occurrences here"
  },
  {
   "property": "C12",
   "status": "proved",
   "theorems": [
    "C12_term_equality"
   ],
   "note": "structural identity by indices, types included"
  },
  {
   "property": "C13",
   "status": "proved",
   "theorems": [
    "C13_simplify_negations",
    "C13_remove_neg"
   ],
   "note": "uses excluded middle (Classical_Prop.classic)"
  },
  {
   "property": "C14",
   "status": "partial",
   "theorems": [
    "C14_replace_meta_partial",
    "C14_replace_meta_refuted",
    "C14_original_unchanged_partial",
    "C14_original_unchanged_refuted",
    "C14_in_a_copy_partial"
   ],
   "note": "result correct when each atom argument contains the metavariable at most once; false for repeated occurrences (only the first is replaced). Original unchanged without And/Or, or when the replacement is made in a copy; false otherwise (the slice of subformulas is updated in place)"
  },
  {
   "property": "C15",
   "status": "proved",
   "theorems": [
    "C15_apply_subst_on_term",
    "C15_all_bindings_simultaneous",
    "C15_apply_substitutions_refuted"
   ],
   "note": "ApplySubstitutionOnTerm for every term and binding, and any list of bindings of an idempotent substitution; the list variant ApplySubstitutionsOnTerm is refuted separately"
  },
  {
   "property": "C16",
   "status": "partial",
   "theorems": [
    "C16_rename_partial",
    "C16_rename_no_digits_partial",
    "C16_rename_refuted"
   ],
   "note": "proved when generated names do not collide with existing ones (in particular when no variable name ends in a digit); false otherwise: variable capture"
  },
  {
   "property": "C17",
   "status": "partial",
   "theorems": [
    "C17_assembled_partial",
    "C17_second_conjecture",
    "C17_assembled_refuted",
    "C17_two_conjectures_refuted"
   ],
   "note": "The assembled formula is right for variable names not ending in a digit and at most one conjecture per file; refuted otherwise (name capture in RenameVariables, conjectures in two files)."
  },
  {
   "property": "C18",
   "status": "proved",
   "theorems": [
    "C18_status",
    "C18_deepening"
   ],
   "note": "Search loop and printed status; the branch search with a given limit is an arbitrary function of the limit."
  },
  {
   "property": "C19",
   "status": "proved",
   "theorems": [
    "C19_families"
   ],
   "note": "All formulas."
  },
  {
   "property": "C20",
   "status": "proved",
   "theorems": [
    "C20_alpha"
   ],
   "note": "Uses Classical_Prop.classic (negated implication)."
  },
  {
   "property": "C21",
   "status": "proved",
   "theorems": [
    "C21_beta"
   ],
   "note": "Uses Classical_Prop.classic."
  },
  {
   "property": "C22",
   "status": "proved",
   "theorems": [
    "C22_gamma"
   ],
   "note": "Closed renamed formulas whose quantifiers have a variable; term and type variables."
  },
  {
   "property": "C23",
   "status": "partial",
   "theorems": [
    "C23_skolem_partial",
    "C23_total_partial",
    "C23_type_constant_refuted",
    "C23_type_meta_refuted"
   ],
   "note": "Proved for every run of outer, inner and pre-inner Skolemization on individual variables without type metavariables (uses classic and constructive_indefinite_description); refuted for type variables and type metavariables."
  },
  {
   "property": "C24",
   "status": "partial",
   "theorems": [
    "C24_closed_tableau_partial",
    "C24_types_refuted",
    "C24_replacement_refuted"
   ],
   "note": "Proved for formulas without type quantifiers, with metavariables replaced only in arguments where they occur at most once; refuted for type quantifiers (shared Skolem type) and for repeated metavariables (first-occurrence replacement). Equality reasoning and deduction modulo are not part of the derivations."
  },
  {
   "property": "C25",
   "status": "partial",
   "theorems": [
    "C25_dispatch_partial",
    "C25_multiset_refuted"
   ],
   "note": "Each formula is in the queue of its family up to the program's equality; multiplicities are refuted: duplicates are dropped."
  },
  {
   "property": "C26",
   "status": "partial",
   "theorems": [
    "C26_fair_partial",
    "C26_within_one_refuted",
    "C26_starvation_refuted"
   ],
   "note": "Fair while no formula is registered in between; refuted with late registrations."
  },
  {
   "property": "C27",
   "status": "partial",
   "theorems": [
    "C27_agreement_refuted",
    "C27_agreement_partial",
    "C27_merge_partial",
    "C27_formulas_partial",
    "C27_last_two_partial",
    "C27_itself_partial"
   ],
   "note": "Refuted: answers X:=a, X:=b, X:=a in this order pass X:=a. Proved when at most two children want a substitution of their own, with any merge and with the merge of the code under the no-loss hypothesis of C36; for any number of children what is passed was returned by the last one that wants a substitution and by an earlier one; merging keeps the formulas of both."
  },
  {
   "property": "C28",
   "status": "partial",
   "theorems": [
    "C28_order_refuted",
    "C28_order_partial",
    "C28_open_partial"
   ],
   "note": "Refuted: the answers a, b, a and a, a, b give different verdicts. Proved when at most two children want a substitution of their own (verdict and set of substitutions); for any number of children a node is open exactly when one of them is."
  },
  {
   "property": "C29",
   "status": "partial",
   "theorems": [
    "C29_choose_partial",
    "C29_last_refuted"
   ],
   "note": "Nothing is lost; a free candidate in last position is missed (refuted)."
  },
  {
   "property": "C30",
   "status": "partial",
   "theorems": [
    "C30_refuted",
    "C30_partial",
    "C30_state_partial",
    "C30_no_crash"
   ],
   "note": "refuted: a match may not make the literals complementary (lost bindings of AddUnification); proved for first-order literals when no binding is lost, for one literal and for a whole state; never crashes"
  },
  {
   "property": "C31",
   "status": "partial",
   "theorems": [
    "C31_refuted",
    "C31_inequality_refuted",
    "C31_names_refuted",
    "C31_none_partial",
    "C31_first_partial",
    "C31_all_forbidden_partial"
   ],
   "note": "refuted: forbidden substitutions are returned after an allowed one and for disequalities, and allowed ones refused (names compared); proved: first answer, all-forbidden, none"
  },
  {
   "property": "C32",
   "status": "partial",
   "theorems": [
    "C32_unifier_refuted",
    "C32_query_refuted",
    "C32_unifier_partial",
    "C32_strict_is_real_partial",
    "C32_query_partial",
    "C32_query_strict_partial",
    "C32_index_is_direct_partial"
   ],
   "note": "Refuted, for terms and for queries of the index: literals without common instance are matched, because computeSubstitutions drops an equation when Set is called on a bound key. Partial: proved for all the runs that drop no equation (one arity per symbol), for AddUnification and for queries of whole indexes; the index answers exactly as its formulas taken one by one."
  },
  {
   "property": "C33",
   "status": "partial",
   "theorems": [
    "C33_complete_refuted",
    "C33_apart_refuted",
    "C33_eliminate_partial",
    "C33_solvable_partial",
    "C33_general_partial",
    "C33_most_general_partial",
    "C33_index_partial"
   ],
   "note": "Refuted: cycles of metavariables make unifiable terms fail. Partial: elimination is complete on systems without cycle; every answer is most general, whether or not equations were dropped; the same for the answers of an index (C33_index_partial)."
  },
  {
   "property": "C34",
   "status": "proved",
   "theorems": [
    "C34_eliminate_solved",
    "C34_eliminate_terminates",
    "C34_eliminate_meta"
   ],
   "note": "Every non-failing result of Eliminate is in solved form; the loops terminate; EliminateMeta preserves the solutions."
  },
  {
   "property": "C35",
   "status": "partial",
   "theorems": [
    "C35_set_refuted",
    "C35_equals_refuted",
    "C35_set_partial",
    "C35_get_partial",
    "C35_remove_partial",
    "C35_equals_partial"
   ],
   "note": "Refuted: Set leaves a bound key unchanged; Equals confuses substitutions with repeated keys. Partial: Set on a new key, Get, Remove and Equals are right when keys are distinct."
  },
  {
   "property": "C36",
   "status": "partial",
   "theorems": [
    "C36_merge_refuted",
    "C36_merge_partial",
    "C36_failure_partial",
    "C36_general_partial"
   ],
   "note": "Refuted: incompatible substitutions are merged. Partial: sound when no equation is dropped; failures always propagate; no constraint is added."
  },
  {
   "property": "C37",
   "status": "proved",
   "theorems": [
    "C37_contents",
    "C37_insertion",
    "C37_total",
    "C37_stored_twice"
   ],
   "note": "Contents of a tree after any sequence of insertions; also that a later insertion keeps what is stored. An atom with function symbols is stored once per insertion (C37_stored_twice), which the statement allows."
  },
  {
   "property": "C38",
   "status": "partial",
   "theorems": [
    "C38_arity_refuted",
    "C38_meta_query_refuted",
    "C38_pred_arity_refuted",
    "C38_terms_partial",
    "C38_merge_partial",
    "C38_query_partial",
    "C38_any_order",
    "C38_some_order"
   ],
   "note": "Refuted: a function or predicate symbol with two arities crashes the machine, and so does a metavariable looked up in an index of terms. Partial: otherwise no crash, for terms, merging and whole indexes; the answers do not depend on the order in which the goroutines answer (C38_any_order, C38_some_order, without restriction). Termination of the query is not proved: the recursion of AddUnification is bounded by fuel."
  },
  {
   "property": "C39",
   "status": "partial",
   "theorems": [
    "C39_restrict_refuted",
    "C39_keeps_partial",
    "C39_exact_partial",
    "C39_invents_nothing_partial",
    "C39_terminates_partial"
   ],
   "note": "Refuted: the equality of two parent metavariables bound to the same local one is forgotten. Partial: nothing is lost without such a pair (and without a dropped equation), each such pair loses its equality, nothing is ever added, the loop terminates."
  },
  {
   "property": "C40",
   "status": "partial",
   "theorems": [
    "C40_refuted",
    "C40_descent_refuted",
    "C40_order_partial",
    "C40_subterm",
    "C40_monotone",
    "C40_well_founded_partial",
    "C40_is_lpo"
   ],
   "note": "Refuted: terms that differ in their type arguments compare equal; over infinitely many names the order descends for ever. Proved: total order, subterm, monotone, well founded over finitely many symbols, and equal to the reference LPO, on ground terms without types."
  },
  {
   "property": "C41",
   "status": "proved",
   "theorems": [
    "C41",
    "C41_instances",
    "C41_no_crash",
    "C41_constraints"
   ],
   "note": "Orders reported for open terms hold for all instances; the comparison never fails with fixed arities; constraints decided by checkLPO are decided correctly."
  },
  {
   "property": "C42",
   "status": "partial",
   "theorems": [
    "C42_goal_refuted",
    "C42_names_refuted",
    "C42_loss_refuted",
    "C42_step_partial",
    "C42_partial",
    "C42_goals_partial",
    "C42_runs_partial",
    "C42_show_partial"
   ],
   "note": "Refuted three ways on concrete problems (a goal side is dropped; equalities are looked up by strings in which metavariables with one name coincide; the unification loses equations). Proved for every schedule when names are distinct, no equation is lost and no right rule works on the second side of the goal; the runs covered are runs of the prover. How the problems are built from the branch is C109 and C110. The strict unification may stop where the real one loses an equation."
  },
  {
   "property": "C43",
   "status": "partial",
   "theorems": [
    "C43_rules_partial",
    "C43_rewrite_refuted",
    "C43_rewrite_partial",
    "C43_apart_partial",
    "C43_bound_partial"
   ],
   "note": "Rules are valid in every model of the axioms; rewriting refuted on a repeated metavariable, proved when the matched metavariables are not repeated in an argument, names are told apart and unification loses nothing. Untyped axioms."
  },
  {
   "property": "C44",
   "status": "partial",
   "theorems": [
    "C44_register_refuted",
    "C44_register_partial"
   ],
   "note": "Refuted by three axioms; the exact set of axioms on which registration panics."
  },
  {
   "property": "C45",
   "status": "partial",
   "theorems": [
    "C45_instance_refuted",
    "C45_instance_partial"
   ],
   "note": "Refuted on a repeated metavariable; proved otherwise."
  },
  {
   "property": "C46",
   "status": "partial",
   "theorems": [
    "C46_refuted",
    "C46_atom_refuted",
    "C46_shadowing_refuted",
    "C46_partial",
    "C46_one_sorted_partial"
   ],
   "note": "Refuted: types of non-variable arguments and results of predicates are unchecked, shadowed variables keep both types. Proved: what every accepting schedule guarantees, and full soundness with a single sort."
  },
  {
   "property": "C47",
   "status": "partial",
   "theorems": [
    "C47_refuted",
    "C47_partial",
    "C47_terminates",
    "C47_declarations"
   ],
   "note": "Refuted: shared contexts make some schedules abort on a well-typed formula. Proved for boolean combinations of prenex formulas in every schedule; the checker always ends; declarations keep the environment correct."
  },
  {
   "property": "C48",
   "status": "partial",
   "theorems": [
    "C48_types_partial",
    "C48_equality_partial",
    "C48_names_partial",
    "C48_terms_partial",
    "C48_again",
    "C48_refuted"
   ],
   "note": "Round trip, domain and equality proved for types and for terms carrying types. Refuted: type and term metavariables collide."
  },
  {
   "property": "C49",
   "status": "proved",
   "theorems": [
    "C49"
   ],
   "note": "InstantiateTy is simultaneous replacement, for schemes that bind each variable once (the last binding wins otherwise, C49_twice)."
  },
  {
   "property": "C50",
   "status": "partial",
   "theorems": [
    "C50_crash_refuted",
    "C50_clean_refuted",
    "C50_reachability_partial"
   ],
   "note": "Refuted: AddVertex leaves no row for its vertex, so AddEdge or a search from it indexes out of range; an edge added twice survives the cleaning of its target. Proved for every sequence of calls without AddVertex in which no edge is added while it is there, or nothing is cleaned."
  },
  {
   "property": "C51",
   "status": "proved",
   "theorems": [
    "C51_gamma",
    "C51_delta",
    "C51_gamma_rule",
    "C51_delta_rule"
   ],
   "note": "Every formula, variable and term; the gamma and delta rules of the search are shown to make such instances. After the final substitution see C57."
  },
  {
   "property": "C52",
   "status": "partial",
   "theorems": [
    "C52_typed_include_refuted"
   ],
   "note": "Refuted: the flag of an included file is overwritten."
  },
  {
   "property": "C53",
   "status": "partial",
   "theorems": [
    "C53_run_sound_partial",
    "C53_types_refuted"
   ],
   "note": "Refinement of every run of the modelled expansion into the derivations of C24; refuted with quantification on types; substitutions applied by the closure rules are not steps of the run."
  },
  {
   "property": "C54",
   "status": "proved",
   "theorems": [
    "C54_run_terminates",
    "C54_run_no_crash",
    "C54_run_ends",
    "C54_saturated"
   ],
   "note": ""
  },
  {
   "property": "C55",
   "status": "partial",
   "theorems": [
    "C55_refuted",
    "C55_partial"
   ],
   "note": "refuted with a satisfiable formula; proved when no binding is lost, monomorphic, no equality reasoning"
  },
  {
   "property": "C56",
   "status": "partial",
   "theorems": [
    "C56_consumed_refuted",
    "C56_consumed_partial"
   ],
   "note": "Refuted by an implication to an equality in polarized mode; proved for all other axioms (no type variables)."
  },
  {
   "property": "C57",
   "status": "partial",
   "theorems": [
    "C57_final_refuted",
    "C57_gamma_partial",
    "C57_delta_partial"
   ],
   "note": "Refuted on p(f(x,x)): the final substitution replaces one occurrence only (C14) and the translation raises an anomaly. Proved when no metavariable is replaced that occurs twice in an argument of an atom."
  },
  {
   "property": "C58",
   "status": "partial",
   "theorems": [
    "C58_scope_refuted",
    "C58_equality_type_refuted",
    "C58_meaning_partial",
    "C58_file_partial",
    "C58_interpretations",
    "C58_connectives"
   ],
   "note": "Refuted: the context leaks out of quantifiers (other meaning; equality at the wrong type). Proved for well-kinded formulas and files whose names are bound at one kind, defined symbols not depending on their type arguments"
  },
  {
   "property": "C59",
   "status": "partial",
   "theorems": [
    "C59_flag_refuted",
    "C59_flag_partial",
    "C59_file_partial"
   ],
   "note": "Refuted: the flag of the arguments of an atom is overwritten. Proved: a true flag means a type argument, and an undefined predicate with type arguments sets it"
  },
  {
   "property": "C60",
   "status": "partial",
   "theorems": [
    "C60_include_refuted",
    "C60_include_partial"
   ],
   "note": "Refuted: declarations of included files are not known. Proved: declarations whose names are not used do not matter"
  },
  {
   "property": "C61",
   "status": "partial",
   "theorems": [
    "C61_space_refuted",
    "C61_truncation_refuted",
    "C61_last_line_refuted",
    "C61_tokens_partial"
   ],
   "note": "Refuted: no space after a quantifier, a foreign character between statements, no end of line at the end of the file. Proved for every file made of lexemes, blanks of printable comments and a final end of line, where each lexeme is followed by what it may be followed by in the code; a plus sign is always a token of its own."
  },
  {
   "property": "C62",
   "status": "partial",
   "theorems": [
    "C62_comment_refuted",
    "C62_comments_partial"
   ],
   "note": "Refuted: a tabulation in a line comment. Proved for line comments of printable ASCII characters and any block comments."
  },
  {
   "property": "C63",
   "status": "partial",
   "theorems": [
    "C63_disequality_refuted",
    "C63_counters_partial"
   ],
   "note": "Refuted: a disequality does not set the flag. Proved on every sequence of bytes for the equality sign and the quantifiers."
  },
  {
   "property": "C64",
   "status": "partial",
   "theorems": [
    "C64_symbols_refuted",
    "C64_atoms_partial",
    "C64_objects_partial",
    "C64_numbers_partial",
    "C64_defined_partial"
   ],
   "note": "Refuted: a distinct object and a word, a number and a quoted word, two distinct objects. Proved within atomic words, distinct objects without double quotes, numbers, and for words of TPTP against unquoted constants."
  },
  {
   "property": "C65",
   "status": "proved",
   "theorems": [
    "C65_no_deadlock"
   ],
   "note": "Every reachable configuration of the process machine in which the search is not over can move, for any interleaving, with and without completeness and deduction modulo. Computations between two messages are assumed to end."
  },
  {
   "property": "C66",
   "status": "partial",
   "theorems": [
    "C66_left_behind_refuted",
    "C66_all_over_partial",
    "C66_end_shape_partial"
   ],
   "note": "Refuted with deduction modulo: manageBacktrackForDMT forgets a child that waits for an order. Proved without it; with it, what is left waits for its father."
  },
  {
   "property": "C67",
   "status": "proved",
   "theorems": [
    "C67_closed_answers",
    "C67_closed_tree"
   ],
   "note": "For every run: closed answers are given for children that all last answered closed, or repeat an earlier closed substitution; so each closed answer rests on a finite tree of closed answers."
  },
  {
   "property": "C68",
   "status": "partial",
   "theorems": [
    "C68_slot_refuted",
    "C68_backtrack_panics_partial",
    "C68_slot_partial",
    "C68_no_panic_partial"
   ],
   "note": "Refuted with deduction modulo: the child launched by a backtrack on a formula has no slot, and its answer always panics. Proved without it."
  },
  {
   "property": "C69",
   "status": "partial",
   "theorems": [
    "C69_proofs_refuted",
    "C69_slots_partial",
    "C69_proofs_partial"
   ],
   "note": "Refuted: a child that closed by itself in the first round has no proof in the second one. Proved: without deduction modulo and with distinct node ids, a slot is empty exactly when its child was not waited for in this round."
  },
  {
   "property": "C70",
   "status": "partial",
   "theorems": [
    "C70_current_refuted",
    "C70_forbidden_refuted",
    "C70_current_partial",
    "C70_forbidden_partial"
   ],
   "note": "Refuted: a backtrack does not change the current substitution, so answers are compared with, and failures recorded for, the wrong one. Proved for substitutions that were not chosen by a backtrack."
  },
  {
   "property": "C71",
   "status": "partial",
   "theorems": [
    "C71_declared_refuted",
    "C71_declared_partial"
   ],
   "note": "Refuted: a constant declared with a type variable as its type aborts the checker at a bound type. Proved for every other declaration, any association of products."
  },
  {
   "property": "C72",
   "status": "partial",
   "theorems": [
    "C72_equality_refuted",
    "C72_equality_partial"
   ],
   "note": "Refuted: the arguments of the type arguments of the left-hand side are dropped. Proved when the type arguments are variables or constants; left-hand sides headed by a defined symbol are missing."
  },
  {
   "property": "C73",
   "status": "partial",
   "theorems": [
    "C73_total_refuted",
    "C73_nested_refuted",
    "C73_total_partial"
   ],
   "note": "Refuted by a quantifier whose variable does not occur and by a Skolem term nested in another one; holds when each delta rule introduces a term that is new to its branch and its variable occurs."
  },
  {
   "property": "C74",
   "status": "partial",
   "theorems": [
    "C74_replay_refuted",
    "C74_replay_partial",
    "C74_names_partial"
   ],
   "note": "Refuted: the result of a delta rule is weakened twice; holds when each delta rule introduces a term that is new to its branch. C74_names_partial: the rule names the search writes are those the translation reads."
  },
  {
   "property": "C75",
   "status": "proved",
   "theorems": [
    "C75_sequents",
    "C75_steps"
   ],
   "note": "For every run that returns. With pre-inner Skolemisation, one term must not be the witness of two formulas."
  },
  {
   "property": "C76",
   "status": "partial",
   "theorems": [
    "C76_agreed_refuted",
    "C76_agreed_partial"
   ],
   "note": "Refuted: with three children a substitution common to two of them is passed to the father as agreed, and the node is closed. Proved when at most two children ask for something else than what they were given."
  },
  {
   "property": "C77",
   "status": "proved",
   "theorems": [
    "C77_closes",
    "C77_found",
    "C77_offered",
    "C77_choice"
   ],
   "note": "In all reachable configurations of the machine of Proto_Model. That something is passed on, and that there are at least two to choose from, assumes that no child lists the same substitution twice."
  },
  {
   "property": "C78",
   "status": "partial",
   "theorems": [
    "C78_final_refuted",
    "C78_all_partial",
    "C78_final_partial",
    "C78_any_merge_partial"
   ],
   "note": "refuted by a node with three children; holds when no merge comes out empty, no equation is dropped by a merge and the first key has a substitution"
  },
  {
   "property": "C79",
   "status": "partial",
   "theorems": [
    "C79_get_refuted",
    "C79_get_partial",
    "C79_filled_partial"
   ],
   "note": "refuted by a tree; holds when every key has a substitution, with the operations that keep it so"
  },
  {
   "property": "C80",
   "status": "partial",
   "theorems": [
    "C80_metas_refuted",
    "C80_nothing_partial"
   ],
   "note": "refuted; nothing is ever removed"
  },
  {
   "property": "C81",
   "status": "proved",
   "theorems": [
    "C81_merge",
    "C81_keys",
    "C81_leaf"
   ],
   "note": "for any merge of substitutions; also the unifier of a leaf"
  },
  {
   "property": "C82",
   "status": "partial",
   "theorems": [
    "C82_order_refuted",
    "C82_two_partial"
   ],
   "note": "refuted with three children; for two, when the merges of their substitutions do not depend on the order"
  },
  {
   "property": "C83",
   "status": "partial",
   "theorems": [
    "C83_chosen_refuted",
    "C83_chosen_partial"
   ],
   "note": "refuted when the chosen substitution is compatible with no key; exact otherwise"
  },
  {
   "property": "C84",
   "status": "partial",
   "theorems": [
    "C84_merge_refuted",
    "C84_joker_refuted",
    "C84_closed_partial",
    "C84_leaves_partial",
    "C84_ground_partial"
   ],
   "note": "False: a satisfiable formula is answered VALID when the substitutions of two branches form a cycle (C84_merge_refuted) and when one branch closes without a substitution (C84_joker_refuted). Proved: a tree whose leaves are all closed by one substitution has an unsatisfiable root formula, at any time, for any unification (C84_closed_partial); the same for a substitution that satisfies one of those found by each leaf, for the unification of the code on first-order leaves when it loses no equation (C84_leaves_partial); the claim for formulas without quantifiers (C84_ground_partial)."
  },
  {
   "property": "C85",
   "status": "partial",
   "theorems": [
    "C85_refuted",
    "C85_partial"
   ],
   "note": "False: VALID with no compatible substitution at the root, and no substitution closes the tree (C85_refuted). Proved: when the root has one, it is functional and what satisfies it closes every leaf (C85_partial), for first-order leaves on which the unification loses no equation."
  },
  {
   "property": "C86",
   "status": "partial",
   "theorems": [
    "C86_merged_refuted",
    "C86_rejected_refuted",
    "C86_merge_partial",
    "C86_none_partial",
    "C86_lists_partial"
   ],
   "note": "False in both directions (C86_merged_refuted, C86_rejected_refuted). Proved: the merge has the common solutions of both (C86_merge_partial), there is none exactly when a metavariable is bound to different terms (C86_none_partial), and the list kept for two branches has all the merges and nothing else (C86_lists_partial)."
  },
  {
   "property": "C87",
   "status": "partial",
   "theorems": [
    "C87_refuted",
    "C87_never_partial",
    "C87_list_partial"
   ],
   "note": "False: a run where the universal formula of the root is at no node below (C87_refuted); in no run is a formula put in the list of those to reintroduce (C87_never_partial). Proved of the list itself: a formula used least is taken, in order, and is counted once more below (C87_list_partial)."
  },
  {
   "property": "C88",
   "status": "partial",
   "theorems": [
    "C88_refuted",
    "C88_ground_partial"
   ],
   "note": "False: an unsatisfiable formula of which two instances are needed is answered NOT VALID (C88_refuted). Proved for formulas without quantifiers, first-order, when the unification loses no equation (C88_ground_partial)."
  },
  {
   "property": "C89",
   "status": "proved",
   "theorems": [
    "C89_bound",
    "C89_total",
    "C89_ends"
   ],
   "note": "The bound holds for every formula, every order and any unification (C89_bound). A goroutine fails only where the unification fails (C89_total); when the unification answers, some and hence, with the bound, every order ends (C89_ends). Formulas are those the elaboration makes: quantifiers bind a variable, terms are not bare identifiers."
  },
  {
   "property": "C90",
   "status": "proved",
   "theorems": [
    "C90_classes",
    "C90_find",
    "C90_union"
   ],
   "note": "Every sequence of calls; also that a search returns what the model reads and moves no class, and that the merge used by the rest of the model agrees with the one of the code."
  },
  {
   "property": "C91",
   "status": "partial",
   "theorems": [
    "C91_types_refuted",
    "C91_arity_refuted",
    "C91_partial"
   ],
   "note": "False: type arguments are not compared, and a symbol with two numbers of arguments panics. Holds, without failure, for first-order terms with one number of arguments for each symbol; the structure starts empty, as it always does, in any heap left by earlier calls."
  },
  {
   "property": "C92",
   "status": "partial",
   "theorems": [
    "C92_refuted",
    "C92_closed_partial",
    "C92_atoms_partial"
   ],
   "note": "False: congruence is not propagated to terms above a merged class. Complete when the classes of the assumptions are closed under congruence, which is always so for assumptions between constants. First-order terms."
  },
  {
   "property": "C93",
   "status": "partial",
   "theorems": [
    "C93_refuted",
    "C93_partial"
   ],
   "note": "False: the clause for congruence does not test the class of the second term. Holds with that test added, and for the clauses as they are when the applications of each symbol are in one class. First-order terms, at least one goal."
  },
  {
   "property": "C94",
   "status": "proved",
   "theorems": [
    "C94_read",
    "C94_reason"
   ],
   "note": "First-order terms with one number of arguments for each symbol. C94_reason: with a sound solver the whole call returns, and its substitution can be satisfied."
  },
  {
   "property": "C95",
   "status": "partial",
   "theorems": [
    "C95_refuted",
    "C95_goals_partial"
   ],
   "note": "False: the copies share the classes. Holds for goals, which allocate classes and merge none. In the code as it is, the structure kept in a state is always empty, so that only the heap of earlier calls is shared: C91 to C94 are stated from any such heap."
  },
  {
   "property": "C96",
   "status": "partial",
   "theorems": [
    "C96_refuted",
    "C96_false_refuted",
    "C96_name_refuted",
    "C96_term_refuted",
    "C96_partial",
    "C96_weaken_partial",
    "C96_sound"
   ],
   "note": "Refuted: a weakening is printed with fewer hypotheses than its premise; a branch closed on $false is printed as closed on two opposite formulas; a constant of the problem named like a created one makes a delta step wrong; a Skolem term that occurs twice in a term is replaced once. Proved for the proofs of ok: no weakening, branches closed on an atom or on a formula and its negation, each Skolem symbol introduced once and at most once in a term. Missing: weakenings, equality closures, Skolem terms conflated by their head symbol. The checker used for the steps is proved sound (C96_sound): the conjecture holds in every interpretation of the axioms. A weakening is printed with the sequent of its premise (C96_weaken_partial)."
  },
  {
   "property": "C97",
   "status": "partial",
   "theorems": [
    "C97_refuted",
    "C97_equivalence_refuted",
    "C97_vacuous_refuted",
    "C97_weaken_refuted",
    "C97_equality_refuted",
    "C97_partial"
   ],
   "note": "Refuted: printing stops on a branch closed on a negation and its negation, on an equivalence with a negated side, on a delta rule whose variable does not occur, on a weakening below a delta rule, and on a branch closed by equality reasoning. Proved for the same proofs as C96."
  },
  {
   "property": "C98",
   "status": "partial",
   "theorems": [
    "C98_refuted",
    "C98_partial"
   ],
   "note": "Refuted for weakenings of terms, which print no step. Proved for every other tree of sequents, correct or not, whose axioms have different indices."
  },
  {
   "property": "C99",
   "status": "partial",
   "theorems": [
    "C99_refuted",
    "C99_name_refuted",
    "C99_types_refuted",
    "C99_skolem_refuted",
    "C99_hidden_refuted",
    "C99_partial",
    "C99_rewrite_partial"
   ],
   "note": "Refuted for conjunctions of three formulas or more, symbols of the problem whose name contains sko, terms with type arguments, a Skolem term introduced twice on a branch, and a constant x0 hidden by a vacuous quantifier; accepted on the proofs without these (ok in Rocq_Spec). For rewriting steps, what is printed is stated; that the rewriting succeeds is not covered. The behaviour of the tactics is the machine of Rocq_Spec."
  },
  {
   "property": "C100",
   "status": "proved",
   "theorems": [
    "C100",
    "C100_preamble"
   ],
   "note": "For every accepted script; the machine of Rocq_Spec stands for Rocq, and congruence is any sound procedure."
  },
  {
   "property": "C101",
   "status": "partial",
   "theorems": [
    "C101_refuted",
    "C101_lone_refuted",
    "C101_partial",
    "C101_tree_partial"
   ],
   "note": "Refuted on problems without a conjecture; proved for proofs of a conjecture whose delta rules have function terms and for every tree whose targets are among the hypotheses."
  },
  {
   "property": "C102",
   "status": "partial",
   "theorems": [
    "C102_refuted",
    "C102_kind_refuted",
    "C102_name_refuted",
    "C102_type_refuted",
    "C102_lines",
    "C102_partial"
   ],
   "note": "Refuted for a name with two numbers of arguments or two kinds, a name of the preamble, and types of the problem; the lines are exactly those of the symbols used, once each, and are accepted when each name has one known type."
  },
  {
   "property": "C103",
   "status": "partial",
   "theorems": [
    "C103_refuted",
    "C103_partial",
    "C103_repeated_refuted",
    "C103_exact_partial"
   ],
   "note": "Refuted when a metavariable that is replaced occurs twice in an argument, and, for exact indices, when two results of a rule become equal. Partial: proved for the other proofs; the terms of the delta rules may have to meet any condition that holds of fewer formulas."
  },
  {
   "property": "C104",
   "status": "proved",
   "theorems": [
    "C104"
   ],
   "note": ""
  },
  {
   "property": "C105",
   "status": "partial",
   "theorems": [
    "C105_refuted",
    "C105_partial"
   ],
   "note": "Refuted when a metavariable that is replaced occurs twice in an argument. Partial: proved when no replaced metavariable occurs twice in an argument and no two results of a rule become equal."
  },
  {
   "property": "C106",
   "status": "partial",
   "theorems": [
    "C106_refuted",
    "C106_quoted_refuted",
    "C106_type_refuted",
    "C106_partial",
    "C106_exact_partial"
   ],
   "note": "False as stated: a quantifier whose body is binary is printed without parentheses and FOF puts only the first operand under it; names that need quotes are printed without them; the types of variables are not printed. Proved for the formulas of FOF (lower-case or dollar names, variables of type $i, chains of at least two) without a binary body under a quantifier; for every formula of FOF what is read is computed, and is the formula exactly in that case. Missing: numbers, quoted names, terms with types, metavariables."
  },
  {
   "property": "C107",
   "status": "proved",
   "theorems": [
    "C107",
    "C107_end"
   ],
   "note": "The grammar is that of the FOF section of tptp_parse.y on the tokens of the lexer; no conflict resolution is needed."
  },
  {
   "property": "C108",
   "status": "partial",
   "theorems": [
    "C108_refuted",
    "C108_partial",
    "C108_wide_partial"
   ],
   "note": "False with metavariables: two metavariables of the same variable have the same text. Proved for the formulas of FOF, whatever the scopes."
  },
  {
   "property": "C109",
   "status": "partial",
   "theorems": [
    "C109_refuted",
    "C109_stop_refuted",
    "C109_partial"
   ],
   "note": "False when the number of the metavariable for the type of the equality (count_meta) is the number of a metavariable of the branch (cpt_term): an equality is read wrong, or the prover stops. Proved when the numbers differ, for first-order literals where only the equality has a type, with the real unification. Missing: that every equality of the branch is retrieved."
  },
  {
   "property": "C110",
   "status": "partial",
   "theorems": [
    "C110_numbers_refuted",
    "C110_types_refuted",
    "C110_partial",
    "C110_runs_partial"
   ],
   "note": "False with the numbers of C109, and when a complementary predicate has type arguments (their unifier is dropped); C42's refutations apply too. Proved otherwise for every run where C42 is proved (distinct names, no equation lost, no right rule on the second side), from the literals of the branch to the answer; these runs are runs of the prover."
  },
  {
   "property": "C111",
   "status": "proved",
   "theorems": [
    "C111_map",
    "C111_old",
    "C111_copy",
    "C111_key"
   ],
   "note": "Maps of any keys with an equivalence, against the history of the calls."
  },
  {
   "property": "C112",
   "status": "partial",
   "theorems": [
    "C112_panic_refuted",
    "C112_refuted",
    "C112_partial",
    "C112_others_partial"
   ],
   "note": "Refuted: RemoveAll panics on [1;1] and leaves an occurrence in [1;1;2]. Proved when there is at most one occurrence, or they are apart and the last element is not one; the other elements always stay."
  },
  {
   "property": "C113",
   "status": "partial",
   "theorems": [
    "C113_refuted",
    "C113_partial",
    "C113_contains"
   ],
   "note": "Refuted: NewSet keeps duplicates. Proved for additions and ContainsAll."
  },
  {
   "property": "C114",
   "status": "partial",
   "theorems": [
    "C114_self_refuted",
    "C114_refuted",
    "C114_unordered_refuted",
    "C114_pair",
    "C114_upair",
    "C114_list",
    "C114_partial",
    "C114_unordered_partial"
   ],
   "note": "Refuted for triplets (the third component is compared with the second) and unordered triplets (multiplicities). Proved for pairs, unordered pairs, lists, triplets with equal second and third components, unordered triplets with distinct components."
  },
  {
   "property": "C115",
   "status": "partial",
   "theorems": [
    "C115_refuted",
    "C115_union_partial",
    "C115_inter"
   ],
   "note": "Refuted: two unions from one list share its array. Proved for slices that read nothing beyond the first list; intersections without condition."
  },
  {
   "property": "C116",
   "status": "proved",
   "theorems": [
    "C116_ids",
    "C116_sound",
    "C116_complete"
   ],
   "note": "The numbering of the keys is injective and stable; soundness and completeness of a solver carry over from literals to keys."
  },
  {
   "property": "C117",
   "status": "partial",
   "theorems": [
    "C117_refuted",
    "C117_partial",
    "C117_records_partial"
   ],
   "note": "Refuted for two records of one symbol. Proved for classes and records of different indices."
  },
  {
   "property": "C118",
   "status": "partial",
   "theorems": [
    "C118_pairs_refuted",
    "C118_pairs_partial",
    "C118_lists_partial",
    "C118_index_partial"
   ],
   "note": "refuted: the two lists of DispatchSubst lose their repetitions separately and are then read at the same index, so a substitution for the father can be stored with one that is incompatible with it. Proved when different substitutions have different restrictions; the lists are the restrictions and the kernel; the index is in range."
  },
  {
   "property": "C119",
   "status": "partial",
   "theorems": [
    "C119_by_itself_refuted",
    "C119_by_itself_partial"
   ],
   "note": "refuted: two metavariables of the parent bound to one local metavariable (C39). Proved for the substitutions that C39 does not spoil."
  },
  {
   "property": "C120",
   "status": "partial",
   "theorems": [
    "C120_sent_refuted",
    "C120_sent_partial",
    "C120_complete_partial",
    "C120_answers_partial"
   ],
   "note": "refuted as C119. Proved for the substitutions that C39 does not spoil and merges that drop no equation (C36), bindings on terms only; the merges that ask for nothing are not sent."
  },
  {
   "property": "C121",
   "status": "proved",
   "theorems": [
    "C121_again"
   ],
   "note": "metavariables of one index come from one formula"
  },
  {
   "property": "C122",
   "status": "proved",
   "theorems": [
    "C122_metas"
   ],
   "note": ""
  },
  {
   "property": "C123",
   "status": "partial",
   "theorems": [
    "C123_mother_refuted",
    "C123_mother_partial"
   ],
   "note": "refuted: metavariables below a function symbol are not looked at. Proved for bindings to ground applications; a positive answer is always right."
  },
  {
   "property": "C124",
   "status": "partial",
   "theorems": [
    "C124_scope_refuted",
    "C124_scope_partial"
   ],
   "note": "refuted: a branch closed by equality uses a hypothesis that does not exist, printed as an empty name. Proved for the rules of GS3 except weakening and rewriting, with branches closed by a literal and its opposite, by bottom or by not top, whatever scripts were made before."
  },
  {
   "property": "C125",
   "status": "partial",
   "theorems": [
    "C125_accepted_refuted",
    "C125_accepted_partial",
    "C125_checker_partial"
   ],
   "note": "refuted: a conjunction of three formulas. Proved without quantifiers, for connectives of two components and a conjecture without axioms; a script that is accepted is right. The constants of Logic.Goeland.GS3 are not in the repository; they are taken to be the rules of GS3."
  },
  {
   "property": "C126",
   "status": "partial",
   "theorems": [
    "C126_statement_refuted",
    "C126_statement_partial"
   ],
   "note": "refuted: with axioms the statement is that the axioms imply the negated conjecture, which can have a model. Proved without axioms; with axioms, what the statement says is given exactly; a formula that is neither a negation nor a conjunction is negated."
  },
  {
   "property": "C127",
   "status": "proved",
   "theorems": [
    "C127_declarations"
   ],
   "note": ""
  },
  {
   "property": "C128",
   "status": "partial",
   "theorems": [
    "C128_names_refuted",
    "C128_hidden_refuted",
    "C128_names_partial"
   ],
   "note": "refuted: the body of a quantifier is printed with the variable of the problem while the lambda binds a fresh name; a symbol named v0 is hidden by the variable v0. Proved without quantifier rules when no name of the formula is that of a variable."
  },
  {
   "property": "C129",
   "status": "partial",
   "theorems": [
    "C129_weakening_refuted",
    "C129_term_refuted",
    "C129_axioms_refuted",
    "C129_ends_partial"
   ],
   "note": "refuted: weakenings, quantifiers whose variable does not occur, problems without a conjecture. Proved for the proofs of C124 with a conjecture."
  },
  {
   "property": "C130",
   "status": "partial",
   "theorems": [
    "C130_partial",
    "C130_start"
   ],
   "note": "for problems without include, without quantified types (in the output: no type variable), with names of variables that do not end with a digit (C16) and used with one kind (C58); the tables of the start satisfy the hypotheses. The typing check is a parameter: it can only stop the run."
  },
  {
   "property": "C131",
   "status": "partial",
   "theorems": [
    "C131_partial"
   ],
   "note": "C130 with C55: the hypotheses of both (first-order atoms without type arguments, no equality reasoning, no binding lost). Reflexivity of = is the only demand on equality."
  },
  {
   "property": "C132",
   "status": "partial",
   "theorems": [
    "C132_refuted",
    "C132_partial",
    "C132_offered"
   ],
   "note": "refuted: the literals examined before the rewritten one that no rule rewrites are lost. Partial: exactly those can be lost; nothing is lost when no literal is rewritten."
  },
  {
   "property": "C133",
   "status": "partial",
   "theorems": [
    "C133_partial"
   ],
   "note": "under the conditions of C43 on the rules (linear, apart keys, first order)."
  },
  {
   "property": "C134",
   "status": "partial",
   "theorems": [
    "C134_refuted",
    "C134_partial",
    "C134_never",
    "C134_stored"
   ],
   "note": "refuted: the children launched on backtracking carry a non-empty message, so none of their literals is offered to the rules, and once stored they never are (C134_never, C134_stored). Partial: order, number, formulas and substitutions."
  },
  {
   "property": "C135",
   "status": "partial",
   "theorems": [
    "C135_refuted",
    "C135_partial"
   ],
   "note": "refuted: with two rules on one predicate the number is that of another axiom. Partial: literal, result and number are those of a candidate of the rules."
  },
  {
   "property": "C136",
   "status": "partial",
   "theorems": [
    "C136_refuted",
    "C136_partial",
    "C136_complete_partial"
   ],
   "note": "refuted: an equality between two metavariables of the father bound to a local one is not sent (C39). Partial: sound and complete when no merge drops an equation and no restriction is spoiled."
  },
  {
   "property": "C137",
   "status": "partial",
   "theorems": [
    "C137_refuted",
    "C137_partial",
    "C137_alone_partial"
   ],
   "note": "refuted: a substitution that asks for nothing is skipped and the others are asked for, unlike at a leaf. Partial: nothing is asked exactly when no substitution asks for something, and then the children can be closed for all values."
  },
  {
   "property": "C138",
   "status": "proved",
   "theorems": [
    "C138_gathers"
   ],
   "note": "for every merge and restriction"
  },
  {
   "property": "C139",
   "status": "proved",
   "theorems": [
    "C139_reintroduces"
   ],
   "note": "for every merge and restriction"
  },
  {
   "property": "C140",
   "status": "partial",
   "theorems": [
    "C140_refuted",
    "C140_partial",
    "C140_sent_partial"
   ],
   "note": "refuted as C39. Partial: what is sent, exactly; and its solutions extend when the restriction is not spoiled."
  },
  {
   "property": "C141",
   "status": "partial",
   "theorems": [
    "C141_partial"
   ],
   "note": "under the conditions of C27 (two children that ask), C36 and C39."
  },
  {
   "property": "C142",
   "status": "partial",
   "theorems": [
    "C142_refuted",
    "C142_partial",
    "C142_root_partial"
   ],
   "note": "refuted: with three children asking X := a, X := b, X := a the root reports that all is closed. Partial: under the conditions of C27, C36 and C39 at each process."
  },
  {
   "property": "C143",
   "status": "partial",
   "theorems": [
    "C143_partial",
    "C143_glue_partial"
   ],
   "note": "under the conditions of C142, and when a child shares with the rest of the tree only metavariables of its father."
  },
  {
   "property": "C144",
   "status": "partial",
   "theorems": [
    "C144_refuted",
    "C144_partial",
    "C144_applied_partial"
   ],
   "note": "refuted: a satisfiable formula with three branches, reported closed. Partial: under the conditions of C142, C143 and C55; C144_applied_partial has the leaves that search again after substitutions are applied, without new rules."
  },
  {
   "property": "C145",
   "status": "partial",
   "theorems": [
    "C145_partial",
    "C145_applied_partial"
   ],
   "note": "under the conditions of C130 and C144."
  },
  {
   "property": "C146",
   "status": "proved",
   "theorems": [
    "C146"
   ],
   "note": "for the substitutions whose terms and types have no bound variable."
  },
  {
   "property": "C147",
   "status": "partial",
   "theorems": [
    "C147_refuted",
    "C147_partial"
   ],
   "note": "refuted: after X := b is applied, p(f(X,X)) is p(f(b,X)), and a contradiction with ~ p(f(b,c)) is found though no substitution closes the branch; the process stops the prover. Partial: the values that obey both substitutions close the branch."
  },
  {
   "property": "C148",
   "status": "partial",
   "theorems": [
    "C148_refuted",
    "C148_print_refuted",
    "C148_partial",
    "C148_kept_partial",
    "C148_rewrite_partial",
    "C148_again_partial",
    "C148_node_partial"
   ],
   "note": "refuted: the steps of an abandoned round, but the last one, stay in the recorded proof, on formulas of an answer that was taken back; the printing of such a proof stops. Partial: the rounds before the last one closed in one step, after a rewriting step or another; the exact list recorded; the first round of a node."
  }
 ]
}
