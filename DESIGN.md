# Design of the formal model of Goeland

The model is written in Rocq (Coq 8.16.1) under `rocq/theories`. It is written from
the sources in `/repo/src` by reading; nothing is extracted or run. Every definition
that models code carries a comment with the file and lines it models.

## Layout

| File kind | Content |
|---|---|
| `*_Model.v` | executable Gallina transcription of the Go functions, no proofs |
| `*_Spec.v`  | small independent specification (mathematical sets, Tarskian semantics, reference LPO, typing judgement ...) |
| `*_Proofs.v` | lemmas |
| `Properties_*.v` | only the property theorems, each closed by `exact`, followed by `Print Assumptions` |

Naming: `Cnn_...` is the full property, `Cnn_..._partial` a restriction of it,
`Cnn_..._refuted` a counterexample: the code as written violates the property, and the
theorem exhibits the input.

## Plan per property

| Id | What is modelled, how it is proved |
|---|---|
| C01 | AVL tree of `Lib/sets.go` as a functional tree with stored heights; refinement to predicate-sets by induction on trees, then on operation lists |
| C02 | same tree; balance invariant by induction for `Add`; `Remove` looked at by counterexample search |
| C03 | `nodeCpy` resets heights: weaker height invariant, contents laws proved under it, balance refuted |
| C04 | heap (address -> node) model of the mutable nodes; refuted by witness |
| C05 | `Filter` as written drops the result of `Add`: refuted |
| C06 | worker results combined in an arbitrary permutation; `Permutation` induction |
| C07, C08, C09, C10 | interleaving small-step machines over program counters; invariants by induction over schedules, or witness schedule |
| C11, C12 | terms and formulas as nested inductives; structural induction |
| C52 | same model as C17; refuted by a witness |
| C13, C17, C20, C21, C22 | Tarskian semantics in a separate spec file; structural induction |
| C14 | transcription of the replacement functions; refuted on a repeated variable, characterised otherwise |
| C15 | transcription; agreement with the textbook substitution |
| C16 | transcription of `renameVariables`; semantic equivalence with shadowing |
| C18, C19, C25 | decision functions; case analysis / induction on lists |
| C23 | model extension argument: interpretation of the fresh symbol is redefined |
| C24 | inductive derivation relation over the modelled rules; soundness by the invariant "some branch is satisfied for each valuation" |
| C26 | counters as a list of naturals; invariant by induction on the number of calls |
| C27, C28 | `Select_Model.v`: `selectChildren` as a fold over the answers in order of arrival; refuted for three children that want a substitution, proved for at most two, with any merge and with the one of C36; for any number, what is passed was returned by the last child and an earlier one, and an open child is always seen |
| C29 | list functions with the random index as an explicit argument |
| C30, C31 | `Closure_Model.v`: ApplyClosureRules and the search of ProofSearch on a state, over the index of literals; a closure is a pair of complementary literals or a trivial disequality of the branch (`Tableau_Spec.closes`); soundness refuted (lost bindings) and proved under the no-loss hypothesis |
| C53, C54 | `Expand_Model.v`: whole runs of the expansion as a forest of states; soundness by the branch invariant, termination by a lexicographic measure |
| C55 | runs of `Expand_Model.v` whose leaves are closed by `Closure_Model.v`: composition of C53 with C30; refuted on a satisfiable formula |
| C32-C36 | substitutions as association lists; elimination with explicit fuel; unifier-preservation invariant; three-cycle witness for completeness; `UnifMgu_Proofs.v`: the answers are most general |
| C37, C38 | code tree and abstract machine transcription; path-set invariant of insertion |
| C39 | `Restrict_Model.v`: transcription of `RemoveElementWithoutMM`; solutions in free algebras; refuted when two parent metavariables share a local one, proved otherwise; this sharing is shown to be the exact cause |
| C40, C41 | transcription of `compareLPO` by nested structural recursion (no fuel); reference LPO as an inductive relation on terms without types; soundness by a double induction, order theory of the reference, well-foundedness over a finite signature |
| C42 | `Bse_Model.v`: rules, constraints and answers of the superposition as a relation (one derivation per schedule); solutions in equational algebras; refuted three ways (dropped goal side, names, lost equations); proved for distinct names, without lost equations and without the rule that drops a side; the runs covered are runs of the prover |
| C43-C45, C56 | `Dmt_Model.v`: registration of axioms as rules and rewriting of a literal; models of the axioms against models of the rules; a candidate is shown to follow from the axioms, the literal and the returned substitution; refuted on repeated metavariables; the panics and the lost axioms are characterised exactly |
| C46, C47 | `Typing_Model.v`: the workers of the checker as an interleaving machine over the heap of contexts; typing judgement as a separate inductive relation; both directions refuted, and proved for what every schedule guarantees (C46) and for boolean combinations of prenex formulas (C47); termination by a cost |
| C48 | conversions of `UnifTree_Model.v` and `Closure_Model.v`: round trip and equality by induction on types and terms; refuted on the counters of metavariables |
| C49 | `Typing_Model.instantiate` against simultaneous replacement |
| C50 | `GsGraph_Model.v`: sequences of calls; an invariant relates the rows to the calls, the depth-first search is shown to mark what a path reaches; refuted for vertices added alone and for edges added twice and cleaned |
| C51, C57 | `GsTerm_Model.v`: occurrence paths in the quantified formula lead to the substituted term in every instance; the gamma and delta rules make instances; the final substitution commutes with this when it replaces every occurrence, refuted otherwise |
| C58-C60 | `Elab_Model.v`: elaboration of parsed formulas, with the context threaded as in the code; meaning of the parsed syntax by names in `Elab_Spec.v`; an invariant relates the context to the kinds of the names and the tables to the interpretation; refuted where the context leaks out of a quantifier, where the flag is overwritten and where a declaration is in an included file |
| C61-C64 | `Lexer_Model.v`: the lexer on bytes, position and step-back included; lexemes, blanks and files as a separate grammar in `Lexer_Spec.v`, the objects named by constants in `Lexer_Names.v`; one lemma per kind of lexeme, then induction on the file; the counters by an invariant on every byte sequence; refuted on files |
| C65-C70 | `Proto_Model.v`: the processes as a machine of program points and rendez-vous, any interleaving, the computations between messages left open; an invariant says in which class of states each child a process counts on is; progress by following the chain of processes from the root; C67 by an invariant on the log of answers, C68-C70 by local invariants; refuted by explicit runs |
| C71, C72 | `Elab_Types.v`, `Elab_Eq.v`: the declarations of the grammar and the types of parsed terms as inductive relations; elaboration and instantiation of a declaration followed to the argument types; refuted by files on which every schedule of the checker of `Typing_Model.v` aborts |
| C73-C75 | `GsProof_Model.v`: the translation of a tableau proof to GS3, reordering of delta rules included; tableaux and GS3 derivations as separate inductive definitions in `GsProof_Spec.v`; with new terms the result is a chain of the steps, by induction on the proof; for every run, an invariant relates the branch kept by the translation to what is generated above the last sequent; refuted by three tableaux |
| C76, C77 | `Proto_Agree.v`: C27 for the whole machine: in `Proto_Model`, what `selectChildren` has kept is a function of the answers in the log, by an invariant over all runs; what it decides is compared with what the children answered; C76 refuted by a run with three children |
| C78-C83 | `GlobUnif_*.v`: the unifiers of `Core/global_unifier.go` and the tree that builds them, with the merge of substitutions as a parameter. Soundness by induction on the tree, for any merge that does what both its arguments do, then for the merge of the code through the strict variant; exactness of one merge (C81) by induction on the loops. C78, C79, C80, C82 and C83 refuted by small trees and unifiers, with what holds instead |
| C84-C89 | `Incr_*.v`: the incremental search as a store of nodes and a list of pending goroutines, any of which runs next. Soundness (C84): an invariant gives, in an interpretation extended at each delta rule, a child whose formulas hold for each node whose formulas hold. C85: pending goroutines below a node are counted by its counter, so that no node is expanded twice and what a node was told by a child closes that child. C87: the interface `GammaRule` is compared with the methods of the rules. C88: on formulas without quantifiers an open leaf gives a model made of terms. C89: a weight of the leaves decreases at each expansion. C84-C88 refuted by small runs |
| C90-C95 | `SatEq_*.v`: the equality reasoning by reduction to SAT: union-find on a heap of classes, congruence closure, clauses, reading of the substitution. C90 by an invariant on the forest. C91-C93: a ghost term for each class, equal in every model of the assumptions to those of its class; the assignment is any one that satisfies the clauses; truth of the level i equalities by induction on i. C93 refuted where congruence is used for a term of another class, with what holds when that test is added. C92 refuted where congruence is not propagated; complete when the classes are closed under congruence, by a model made of the classes. C94: the order on classes is strict, hence the translation ends. C95: the copies share the heap |
| C96-C98 | `Tptp_*.v`: the printing of a GS3 proof as TPTP steps. The output is a list of steps (name, sequent, rule, position, term, premises), not a text. `Tptp_Spec` is a checker of such lists that reads them in order and knows the rules of the format; `C96_sound` proves that whatever it accepts is valid (the conjecture holds in every interpretation of the axioms). C96, C97: an invariant between the hypotheses printed and those of the sequent, by induction on the depth, for proofs without weakening whose Skolem symbols are used as the translation expects; refuted elsewhere (weakening, constants of the problem named like the new ones, a Skolem term twice in a term, equality closures, vacuous quantifiers, equivalences of negations). C98 for every tree, by counting. |
| C99-C102 | `Rocq_*.v`: the printing of a GS3 proof as a Rocq script. The script is a list of tactics; `Rocq_Spec` is a machine that runs such a list on goals (hypotheses with names, local constants, conclusion). The machine is assumed to be what Rocq does for these tactics; what `congruence` proves is a parameter. C99: an invariant between the hypotheses of the printer and those of the goal, up to a renaming of the Skolem terms to local constants, by induction on the proof; refuted by conjunctions of three formulas, names with sko in them, type arguments, a Skolem term introduced twice, a hidden constant. C100: the machine keeps validity, for every list of tactics. C101 by induction on the tree; refuted without conjecture. C102: the lines as a set, by induction on the formula; refuted by a name with two uses, a name of the preamble, a type of the problem |
| C103-C105 | `PrfSubst_*.v`: what is done to the proof between the search and the printers. A tableau with metavariables closed by a substitution (`vtab`) is stated with the textbook replacement of all the occurrences. C103: by induction on the proof; replacement keeps the rules and equality up to indices; with repeated results dropped, a formula is found in its branch up to indices. Refuted by a metavariable that occurs twice in an argument (one occurrence is replaced) and, for exact indices, by two results that become equal. C104: by induction on the steps, with the sets of C11. C105: C103 followed by C73 and C74 |
| C106-C108 | `Print_*.v`, `Fof_Proofs.v`: the text of formulas, as bytes, with the removal of superfluous parentheses. `Print_Spec` states the FOF grammar of `tptp_parse.y` as inductive relations on the tokens of `Lexer_Model`, with the parsed formula built by each rule. C107: a functional parser reads every derivation. C106: by induction on the formula, the text of a formula is a sequence of lexemes separated as `C61` needs, whose tokens are derived as `fof_reading`: a quantifier goes over the first operand only of its body; this is the formula exactly if no quantifier has a binary body. Refuted by such a formula, by a quoted upper-case name and by a variable of another type than $i. C108: by a second grammar with wide scopes, not ambiguous either, in which the text of every formula of FOF is read as itself; refuted by two metavariables of the same variable |
| C109, C110 | `EqBuild_*.v`: the problems of a branch and what is answered for them, on top of `Bse_Model` (C42) and `UnifTree_Model` (C38). C109: an answer of the index adds nothing to the unifiers of the pattern and the equality (`UnifItem_Proofs`, for the real unification), so it holds in the term algebra where the two new metavariables are the two sides; reading it back gives the two sides. Refuted where the number of the type is that of a metavariable of the branch. C110: the goals are those of disequalities or of complementary atoms, and C42 gives their solutions; refuted by the same numbers and by type arguments |
| C111–C115 | `Glob_*.v`: containers over any type with an `Equals`, which is an equivalence where the theorems say so. C111: maps are compared with the history of the calls. C112: a list has its array, as `RemoveAll` reads it while it shifts it; refuted (a panic, an occurrence left), proved when there is at most one occurrence or they are apart and not at the end; the other elements always stay. C113: refuted for `NewSet`, proved for `Append`. C114: refuted for both kinds of triplets, proved for pairs, and for triplets as far as it holds. C115: slices in a memory of arrays; refuted by two unions from one list, proved for slices that read nothing beyond the first list; intersections have no condition. |
| C116, C117 | `SatLit_*.v`: the literals behind the keys of `SatEq_Model`. C116: the numbering is injective and stable, so a solver that is sound (complete) on literals is sound (complete) on keys, which is the hypothesis of C93 and C94. C117: refuted for two records of one symbol, proved for classes and for records of different indices. |
| C118 - C121 | `Leaf_*.v`: the answer of a branch that closes, on top of the restriction (C39) and the merge (C36). C118: refuted by three substitutions of which two have the same restriction; proved when restrictions are faithful, for any restriction and merge. C119, C120: refuted by the sharing of C39; otherwise a solution of what is sent extends, on the local metavariables, to one of a closing substitution, and conversely. C121: any restriction. |
| C122, C123 | `Leaf_Proofs.v`: induction on the bindings. C123: refuted by X5 := g(X1), with the exact set of metavariables the test looks at. |
| C124, C129 | `Lp_*.v`: the Lambdapi printer on GS3 proofs (C76). C124: refuted by a branch closed by equality; otherwise an invariant: the names are those of the formulas met, different formulas have different names, and the formulas at hand are bound; for all the names left before. C129: refuted by the proofs of three tableaux; otherwise the same induction. |
| C125, C126 | `Lp_Final.v`: a checker for the rules without quantifiers, with the types of the constants written down from GS3, shown right in all interpretations; the scripts pass it. C125: refuted by a conjunction of three formulas. C126: refuted by an axiom and a conjecture; what the statement says in each case. |
| C127, C128 | `Lp_Final.v`: the declarations against the symbols of the formula; the names of the text against the declarations. C128: refuted by a universal quantifier and by a predicate named v0. |
| C130, C131 | `E2e_*.v`: the loader as a whole, on the models of elaboration (C58), renaming (C16) and assembly (C17). C130: what the elaboration leaves (closed formulas, numbers of variables apart from those of symbols, no metavariables) is shown to be what renaming and assembly need, and what they leave is what the search needs (`wf_start`). C131: C130 and C55 composed, for interpretations of the names of the problem. |
| C132-C135 | `ModStep_*.v`: the rewriting step of the search on top of `Dmt_Model` (C43) and `Expand_Model`. C132: refuted by a literal without rule before a literal with one; the loop is characterised exactly. C133: C43 carried to branches. C134, C135: induction on the candidates left; refuted with two rules on one predicate, from registered axioms. |
| C136-C141 | `Up_*.v`: the report of a node to its father on top of `Select_Model`, `Restrict_Model` and `Leaf_Model`. C138, C139: induction on the substitutions with the list of those done. C136, C140: C36 and C39 composed; refuted with the witness of C39. C137: refuted with a substitution of a local metavariable. C141: C27 composed with C136. |
| C142, C143 | `Round_*.v`: a round of answers in a tree of processes, composing `Leaf_Model`, `Select_Model` and `Up_Model`. Spec: the branches a value closes. C142: induction on the tree with C136-C141 at each node; refuted with three children. C143: the values chosen in the parts of the tree are glued on the metavariables they share. |
| C144, C145 | `Verdict_*.v`: C143 in the algebra of closed terms gives a closing substitution of all the branches, then C55 (C144) and C131 (C145). C144 refuted with a satisfiable formula of three branches. `VerdictApply_*.v`: the leaves may search again after substitutions of the father are applied to their branches; the closing substitution of the applied branch is one of the branch (C147) under the values of C143. |
| C146, C147 | `Apply_*.v`: the application of a substitution to a state and the search that follows. Spec: the values obey the substitution. C146: replacing some occurrences of a metavariable by a term, or of a type metavariable by a type, of the same value keeps the value; the terms and types have no bound variable. C147: the closing substitution of the applied branch, extended by the applied one, closes the branch before; refuted since one occurrence only is replaced among the arguments of a function. |
| C148 | `Record_*.v`: the list of steps that a process records, through the successive answers of its father. Spec: a list of steps is a tableau above a branch when each step is on a formula present, its results are added, and its children are tableaux. Induction over the answers; refuted with two answers, the first with two steps. |

## Trusted base

* Coq's kernel (8.16.1). No axiom is added by the development.
* `Print Assumptions` is run below each property theorem. Two axioms of the standard
  library are used, and nothing else:
  * `Classical_Prop.classic` — C13, C20, C21, C23, C24, C43, C53, C55, C56, C84, C85, C88, C96 (`C96_sound` only), C100, C131, C133, C144, C145: the semantics is
    classical (a formula is an implication, negation, ... of `Prop`);
  * `IndefiniteDescription.constructive_indefinite_description` — C23, C24, C53, C55,
    C84, C85, C131, C144, C145: a Skolem function is chosen in the model.
  All the other theorems are closed under the global context. The refutations are all
  closed under the global context, except that of C85 which goes through the soundness of closed trees.
* The reading of the Go code. Concurrency is modelled as interleaving of the atomic
  steps described in each file.
* `vm_compute` is used for concrete cases and refutations (part of the kernel).

## Modelled

| Model file | Code |
|---|---|
| `LibSet_Model`, `LibSetHeap_Model` | `Lib/sets.go`: AVL sets, as values and as heap cells |
| `Par_Model` | `Lib/par.go` |
| `Conc_Model` | `AST/maker.go`, `Glob/helper.go`, `Glob/syncTaskList.go`, `Glob/syncCounter.go` |
| `Ast_Model`, `FormHeap_Model` | `AST`: types, terms, formulas, substitution, renaming, metavariables; in-place update of lists of formulas |
| `Problem_Model` | `main.go`: statements to formula |
| `Elab_Model` | `Parser/psyntax.go`, `Engine`: contexts, pretyping, elaboration of terms, types, formulas and statements. Not modelled: `Typing.AddToGlobalEnv` for numbers, messages |
| `Lexer_Model` | `Parser/tptp_lex.go` (a file is a list of bytes; running off its end stops the process), the symbols of constants of `Parser/tptp_parse.y` (`Lexer_Names`) |
| `Result_Model` | `Search/search.go`, `Search` of `Search/destructive.go` |
| `Rules_Model` | `Core/rules_type.go`, `Core/form_and_terms*.go`, `Core/instanciation.go`, `Core/skolemisation.go`, `Core/Sko`, `Core/meta_gen.go`, `Search/rules.go`, queues of `Search/state.go` |
| `Subst_Model` | application of substitutions, `Core/substitutions_search.go` |
| `Restrict_Model` | `RemoveElementWithoutMM` and `ReorganizeSubstitution` of `Core/substitutions_search.go` |
| `Expand_Model` | `ProofSearch`, `applyRules`, `manage*Rules` of `Search/destructive.go` |
| `Unif_Model`, `UnifLoss_Model` | `Unif/substitution*.go`, `Unif/substitutions_tree.go`, `Unif/matching.go` (the machine) |
| `UnifTree_Model` | `Unif/code-trees.go`, `Unif/parsing.go`, `Unif/matching.go` (the search in the tree) |
| `Closure_Model` | `Search/rules.go:62-214`, `Unif/matching_substitutions.go`, `Search/destructive.go:326-383` |
| `Select_Model` | `selectChildren` of `Search/destructive.go`, the lists of `Core/subst_and_form.go`, `MergeMixedSubstitutions` without bindings of types. Not modelled: the proofs and unifiers collected on the way, the orders to the children |
| `Proto_Model` | the messages of the destructive search: `Search/children.go`, `Search/child_management.go`, `waitChildren`, `waitFather`, `selectChildren`, `manageQuitOrder`, `manageResult` and the launches of `Search/destructive.go`. What a process computes between two messages is any choice: rules, leaves, substitutions found or kept. Not modelled: the contents of proofs, the time limit, the assisted mode |
| `GlobUnif_Model` | `Core/global_unifier.go` with proofs on, and its uses in `Search/destructive.go` (461-464, 534-539, 1100-1223) and `Search/child_management.go` (147-152, 237-242). Not modelled: copies and aliasing of slices, printing, bindings of types, and the merges at the leaves whose failure is ignored (1138, 1218-1219: the pairs of a leaf are given) |
| `Incr_Model` | `Search/incremental`: substitutions and their lists, rules, rule managers, reintroduction lists, closure and substitution managers, nodes. A goroutine runs to its end without interruption. Not modelled: the recording and printing of the proof, `InstanciateAny`, races inside a goroutine |
| `SatEq_Model` | `Mods/equality/sateq`, `RunEqualityReasoning` of `Mods/equality/bse/equality_rules_reasoning.go`. The SAT solver is any function that returns satisfying assignments. The numbers of the literals are in `SatLit_Model`. Not modelled: that a translated metavariable is a pointer to one |
| `Tptp_Model` | `Mods/tptp/proof.go`. Names and formulas are kept as data. Not modelled: their texts, and the parser that reads them back |
| `Print_Model` | `AST/modular-printing.go`, `AST/printers.go`, the methods `ToString` of `AST/ty-syntax.go`, `termsDef.go`, `formsDef.go`, `quantifiers.go`, the printer of `Mods/rocq/output.go`, the lines of axioms of `Mods/tptp/proof.go`. Names and texts are bytes. Not modelled: the other printers of `options.go` (pretty, ids) |
| `Rocq_Model` | `Mods/rocq/proof.go` and the declarations of `Mods/rocq/context.go`. Names, formulas and types are kept as data. Not modelled: their texts, the sanitizing of names (`output.go`), the declarations of metavariables |
| `PrfSubst_Model` | `Search/proof.go:385-432`, `Search/destructive.go:139-150`. Not modelled: the lists of terms beside the formulas, the JSON and text output of `proof.go` |
| `GsGraph_Model` | `Mods/gs3/graph.go` without its printing (nothing else in the repository uses this type: proof reordering goes through `dependencyMap`) |
| `GsTerm_Model` | `Mods/gs3/dependency.go` |
| `GsProof_Model` | `Mods/gs3/proof.go`, `Mods/gs3/sequent.go` without its printing. `lastNode` is a path in the tree under construction. Not modelled: debug messages |
| `Typing_Model` | `Typing/rules.go`, `Typing/env-and-context.go`, `Typing/init.go` (types and equality), schemes of `AST/ty-syntax.go` |
| `Lpo_Model` | `Mods/equality/bse/lpo.go`, `checkLPO` of `constraints_type.go` |
| `Bse_Model` | `Mods/equality/bse`: constraints, `makeEqualityProblem`, `equality_rules_try_apply.go`, `equality_rules_apply.go`, `equality_solve_reasoning_problem.go`, the lists of goals of `equality_rules_reasoning.go`; `ToString` of terms with the default printer. Not modelled: the orders to stop |
| `EqBuild_Model` | `Mods/equality/bse/equality_types.go`, `equality_problem_list.go`, `equality.go` (`EqualityReasoning`), `RunEqualityReasoning` and `Solve` of `equality_rules_reasoning.go`. The two counters of metavariables are arguments. Not modelled: other goroutines that take numbers meanwhile, when `TryEquality` is called |
| `Glob_Model` | `Glob/list.go`, `set.go`, `map.go` (without `MapWithList`), `pair.go`, `triplet.go`, `int_functions.go`. A list owns its array; a slice begins where its array does. Not modelled: the mutexes of the synchronised variants, the texts. |
| `SatLit_Model` | `sateq/satbuilder_mappings.go`, `lit.go`, `addClause` of `satbuilder.go`, `solve` of `problem.go`. The solver is any function on clauses of literals. |
| `Leaf_Model` | `ManageClosureRule` of `Search/destructive.go`, `GetMetaFromSubst`, `ContainsMetaMother` and `DispatchSubst` of `Core/substitutions_search.go`, `retrieveMetaFromSubst`, `UnionIntList`. Not modelled: the proof, the interactive mode, merges with bindings of types. |
| `Lp_Model` | `Mods/lambdapi`: `proof.go` (all the rules, the statement), `context.go` (the names and the declarations), as terms with numbered variables. Not modelled: the characters of the connectives, the types of quantifiers, the file that is written, the constants of `Logic.Goeland.GS3`, which are not in the repository. |
| `E2e_Model` | `main.go` `presearchLoader`, `checkForTypedProof`; `AST/maker.go` `Init`. Not modelled: reading the file, the bound, the equality flag, `include` (C17 has it), dmt. |
| `ModStep_Model` | `Search/destructive.go`: the sorting of new formulas in `ProofSearch`, `getAtomicsForDMT`, `manageRewriteRules`, `tryRewrite`, the first case of `applyRules`; `Search/child_management.go` `manageBacktrackForDMT`. Not modelled: channels, node numbers, the application of the substitution of the message (C134_never holds for any result of it). |
| `Up_Model` | `Search/child_management.go` `childrenClosedByThemselves` and `passSubstToParent`, with the arguments of `sendSubToFather`. Not modelled: the proof, the global unifier (`GlobUnif_Model`), the closing of the children (`Proto_Model`). |
| `Round_Model` | `Search/destructive.go:440-496` `waitChildren` without an order of the father, on the answers of `Leaf_Model` at the leaves. A substitution handed back makes a new round (`503-590` `waitFather`): a child that had sent it sends it again, another one is a node above the process it launches. Not modelled: an open child, the order in which the substitutions are tried. |
| `Apply_Model` | `Search/state.go:494-515` `ApplySubstitution` with `Core/substitutions_search.go:249-363`, `Search/destructive.go:205-229` and `272-284`. The code trees are built when they are used. |
| `Record_Model` | `Search/child_management.go:358-380` `updateProof`, and its calls for each answer, `Search/destructive.go:503-640`. The option to record is on; the rule is read in `Rule_name`. Not modelled: the change of the results of a rewriting step, `destructive.go:601-613`. |
| `Dmt_Model` | `Mods/dmt`: `axiom_registration.go`, `rewrite.go`, `rewritten.go`, `utils.go`, options of `dmt.go`; `doAxiomStatement` of `main.go`. Not modelled: preskolemisation (`presko`), rules over type arguments; `makeRewriteRuleFromAtomic` is never called |

Conventions. A Go panic, `Glob.Anomaly` and `Glob.Fatal` are explicit values (`None`,
`Crash`, `Panic`). A loop or recursion that is not structural takes fuel; the value
`Out` (or `NoFuel`) is the lack of fuel, never a normal answer, and the theorems either
exclude it or show that some fuel suffices.

*Strict variant.* `computeSubstitutions` loses equations (see the findings).
`UnifLoss_Model` is the same machine with one more test, which answers `Out` where an
equation is about to be lost. It is shown to agree with the code whenever it does not
answer `Out`. Theorems with a hypothesis `..._strict ... <> Out` are about the runs of
the code that lose nothing.

*Semantics.* `Sem_Spec` gives Tarskian semantics with two carriers, elements and types.
Sorts are erased: quantifiers of terms range over all elements. This is the semantics
the tableau rules implement, since no rule looks at the type of a bound variable.

## Not modelled

* The grammar of `Parser/tptp_parse.y` except its FOF part (`Print_Spec`) and the symbols of constants; its generated tables; options; the JSON and text outputs.
* The non-destructive search, the assisted mode, plugins.
* Timing, memory limits, and the messages between goroutines, except where a `*_Model.v`
  file says otherwise. In `Proto_Model` a computation between two messages ends.
* `Copy` methods are the identity, except in the heap models. Debug output is left out.
* Go `int` is unbounded (`Z`).

## Findings

The refuted properties correspond to defects of the code:

* `Lib/sets.go`: `Filter` always answers the empty set (C05); `Remove` unbalances (C02);
  `Copy` resets the heights (C03); `Add` and `Remove` change the trees of other handles (C04).
* `AST`: replacement of a metavariable or variable changes only its first occurrence
  inside a function term (C14, C15); `renameVariables` captures (C16, C17).
* `Glob/helper.go`: two calls of `IncrCptNode` may return the same number (C09).
* `Unif/substitutions_tree.go`: an equation on a metavariable that is already bound is
  dropped by `Set`, so a returned substitution need not be a unifier (C32). At the level
  of the prover, a satisfiable formula is closed (C30, C55).
* `Eliminate` rejects cycles of metavariables (C33); overloaded arities crash the machine (C38).
* `Core/substitutions_search.go`: two metavariables of the parent bound to the same local
  metavariable are both forgotten, so their equality is not sent to the parent (C39).
* `Search/rules.go`: forbidden substitutions are returned after an allowed one and by
  disequalities; allowed ones are refused because names are compared (C31).
* `Typing/rules.go`: the type of an argument that is not a variable, and the result of a
  predicate symbol, are not checked; a variable bound twice may have either type (C46).
  The contexts of the workers share their nodes, so a worker may lose a variable that is
  in scope and abort on a well-typed formula (C47).
* Type and term metavariables are numbered by two counters, and compared by index once
  types are written as terms: p<A>(X) may fail to match p<$i>(c) (C48).
* `compareLPO` does not look at type arguments (C40).
* `equality_rules_apply.go` (`applyRightRule`): a rule on the second side of the goal puts
  the old and the new second side in the place of both, so that c = g(b) follows from a = b.
  The equalities are looked up by strings, where two metavariables with the same name are
  one: wrong sides are used (C42). A left rule on the second side of an equality forgets the
  first side, and an answer after a left rule has no substitution; both lose solutions.
* `Mods/dmt`: a rewrite rule whose right-hand side has a metavariable twice in one argument is
  instantiated at its first occurrence only: with ! [X] : (p(X) => q(f(X,X))), p(c) is rewritten
  to q(f(c,X)), from which ~q(f(c,b)) is refuted (C43, C45). In polarized mode the registration
  panics on `~(a & b) => c` and on implications from or to $true and $false; in both modes on
  equivalences between a negated constant and a compound formula (C44). In polarized mode an
  implication from a compound formula to an equality is consumed without a rule (C56). An axiom that
  is not consumed is nevertheless listed among the registered ones.
* `selectChildren`: the substitutions common to the children are those of the last answer that also
  occur in any of the previous ones; answers X := a, X := b, X := a are taken for an agreement
  on X := a (C27), and the decision depends on the order of the answers (C28).
* `chooseSubstitutionDestructive` never looks at the last substitution (C29).
* `Mods/gs3/graph.go`: `AddVertex` makes no row for its vertex, so a later `AddEdge` from it or a search
  indexes out of range; `CleanEdgesFromVertex` removes one copy of an edge (C50). The type is not used.
* `Mods/gs3/dependency.go`: after the final substitution the instance of p(f(x,x)) is p(f(a,X)), because of
  C14; the translation of the proof aborts with "The same variable is instanciated as two different terms" (C57).
* `elaborateForm` returns the context extended with the variables of the quantifiers it has gone through: in
  `! [X : $i] : ((! [X : $tType] : p(X)) & q(X))` the last X is read as a type and q loses its argument; in
  `! [X : a] : ((! [X : b] : r(X)) & X = X)` the equality is taken at type b and the formula is rejected by the type
  checker (C58).
* The typed flag of an atom overwrites the one of its arguments: `p(f($i, c))` is reported untyped and not checked (C59).
* The main file is elaborated before the files it includes are read, and each file starts from the initial context: with
  `nat : $tType` and `q : !>[A : $tType] : (A > $o)` in an included file, `q(nat, X)` becomes an atom with the
  two arguments nat and X and no type argument (C60).
* `Parser/tptp_lex.go`: `!` and `?` are recognised only before a space, so `![X]` is a syntax error; a character that
  begins no token is the end of the input for the parser, so what follows an `@` between two statements is dropped silently; a
  last line without its end of line loses its last token (C61).
* A line comment ends at the first byte that is not a printable ASCII character: the text after a tabulation or an accent is
  read, and may be an axiom (C62).
* The equality flag is set by `=` only: a problem whose only equalities are `!=` runs without equality reasoning (C63).
* An escaped character in a quoted word is added to the backslash: `\"` is read as a tilde. The distinct object "cat" and the
  word cat, the number 1 and the word '1' are one symbol (C64). `$$foo` is read with one dollar.
* `include('f', [a, b])` includes every formula: the grammar drops the selection (not claimed).
* `manageBacktrackForDMT` (`Search/child_management.go`): the new child is launched with the original node id of its
  father, which is not the one expected: its answer is stored at index -1 and the program panics (C68). The previous child, which may
  be waiting for an order, is forgotten (C66).
* `selectChildren`: the table of proofs is new in each round, so a child that closed by itself in the first round
  has an empty proof in the next one (C69).
* `tryBTSubstitution` does not change the current substitution: after a backtrack the answers are compared with the
  substitution that failed, and this one is forbidden again instead of the one that was tried (C70).
* The disagreement of C27 is reached by the processes and ends the search with a closed answer of the root (C76). Such a
  node needs a disjunction of three formulas, which the elaboration makes with the option `-flatten`:
  `! [X] : (p(X) | q(X) | r(X))` with `~p(a)`, `~q(b)`, `~r(a)` is satisfiable.
* `GetArgsTy` (`AST/ty-syntax.go`) has no case for a bound type: a constant declared with the type `A` for all `A` aborts the
  type checker when it is used at a type variable (C71).
* `elaborateDefinedFunctionals` (`Engine/syntax-translation.go`) drops the arguments of the type arguments of a term: the
  equality `id(list(a), x) = x` is taken at the type `list`, and the type checker rejects it (C72).
* `manageDeltaStep` (`Mods/gs3/proof.go`): the term of a delta rule whose variable does not occur is nil, and searching it
  in a formula that has a term panics: `? [X] : p(a)` and `~ p(a)` have a proof with no GS3 translation (C73).
* `getDepFromTerm` stops at the first Skolem symbol: an instance with `s1(s2)` does not depend on `s2`; it is weakened by the
  delta rule of `s2` and not derived again, and a later rule on it is an anomaly (C73).
* The result of a delta rule is added to the branch by `applyDeltaRule` and again at the end of `makeProofOneStep`: it is
  weakened twice by a later delta rule, but the context has it once (C74).
* `removeDependency` drops the result of `RemoveAt` and so removes nothing; `getFormsToWeaken` looks at the first rule instead of
  the current one; `getFirstRuleAppliedAfter` reads past the end when there is no rule after; an unknown rule name is an axiom rule;
  `termHasBeenIntroducedByBranch` dereferences nil after a vacuous delta rule (not claimed).
* `Core/global_unifier.go`: `Merge` takes an empty unifier for a neutral one, but the merge of two incompatible unifiers is
  empty too. The children after them are then merged with nothing: the unifier of the node closes the last children only,
  and which ones depends on the order of the answers (C78, C82). With C76 this is reached by three children.
* `GetUnifier` looks at the first key only. A key can merge while none of its substitutions does, since keys are restricted
  to the metavariables of the father and the restriction loses equalities (C39); the pair is kept with no substitution, and
  the empty substitution is then applied to the proof although a closing one is stored under another key (C79).
* `PruneMetasInSubsts` drops the list that `RemoveAt` returns: nothing is pruned, ever (C80).
* A node whose unifier is compatible with no chosen substitution takes the applied one for a closing one (C83).
* `Search/incremental/substitution.go`: `buildCompatibleWith` compares the terms bound to the same metavariable and nothing else.
  X := f(Y) and Y := f(X) are merged though no term satisfies both, X := f(Y) and X := f(a) are not though some does (C86). So a
  satisfiable formula is answered VALID (C84).
* A leaf closed without a substitution does not answer when it is asked to go on; its father waits for it, no substitution is
  compared above, and the answer is VALID because every leaf is closed (C84, C85).
* The interface `GammaRule` of `Search/incremental/rules.go` asks for a method that the rules do not have with that type: the type
  test of `tryToApply` always fails, no formula is put in the reintroduction list, and a universal formula is used once
  in each branch (C87, C88).
* An empty conjunction or disjunction gives a rule without a branch: its node is finished and counted as it was (excluded from C88).
  Bindings of types are dropped by `GetTrmSubsts` (excluded by first-order hypotheses).
* `sateq/termrep.go`: records have no type arguments, so that nil of two types is one term; a symbol met with two numbers of
  arguments is an index out of range (C91).
* `sateq/problem.go`: the super-terms of a class are its own terms (`addNewTermRecord`), not the terms that have it as an argument:
  f(a) = c, f(b) = d, a = b does not give c = d (C92). The order of the assumptions matters: with a = b first, it does.
* `𝜓Constraint` of `satbuilder.go` does not test that the second term is in the second class: f(a) = b "solves" f(X) = c by X := a (C93).
  When a problem has no goal at all, no clause asks for one, and the empty substitution or any other is returned (excluded
  from C93 by a hypothesis).
* The substitution read from an assignment may be X := Y, Y := X. Some substitution satisfies it (C94), but applying it does not end
  in a term without bound metavariables.
* `Problem.Copy` copies the maps and shares the classes (C95). No search reaches it today: nothing stores a structure that has
  something in it in a `State`, `GetEqStruct` returns a copy that is dropped after the call. So the option that keeps the
  structure between calls keeps nothing.
* `Mods/tptp/proof.go`: a weakening prints the wrong sequent; the constants made for Skolem terms may be constants of the problem; a
  Skolem term is replaced once in a term; closures by equality, quantifiers over a variable that does not occur and equivalences of
  negations are printed as steps the format does not have (C96, C97).
* `Mods/rocq`: conjunctions and disjunctions of three formulas, symbols with `sko` in their name, type arguments and a Skolem term
  introduced twice give scripts that Rocq refuses (C99); so do a name with two uses and the names of the preamble (C102).
* The final substitution of a proof goes through the replacement of C14: a printed proof may keep a metavariable, or not be a proof (C103).
* `AST/printers.go`: the parentheses around the body of a quantifier are removed, and the text is read with a narrower scope. Quoted names are
  printed without quotes, the types of variables of FOF are not printed (C106). Two metavariables of one variable have one text (C108).
* `Mods/equality/bse/equality_types.go`: the equalities are found with a pattern whose type is a metavariable numbered by `count_meta`, and
  metavariables are compared by number. It grows with each call, and when the branch has a metavariable with this number `g(X) = a` is
  read as `g($i) = a`, and `X = b` stops the prover (C109). The branch `g(X) = a`, `g(Y) != a` may then be closed with nothing to bind (C110).
* `buildEqualityProblemMultiListFromPredList` pairs the arguments of complementary atoms and drops the unifier of their types (C110).
* `RunEqualityReasoning` reads the first problem of the first list: with p and ~p without arguments in the branch this list is empty and the
  index is out of range (in C110 there is then no answer; the rules usually close such a branch before).
* `Glob/list.go`: `RemoveAll` ranges over the array that it shifts, and `i--` has no effect: it skips the neighbour of what it removes, and panics when the
  last element is removed after another (C112). `NewSet` keeps duplicates (C113).
* `Glob/triplet.go`: `Equals` compares the second component with the third of the other triplet, so that a triplet may differ from itself; unordered triplets
  `(1, 1, 2)` and `(1, 2, 2)` are equal (C114).
* `Glob/int_functions.go`: `UnionIntList` appends to its first argument; two unions from one list may share an array, and the second changes the first (C115).
* `sateq/termrep.go`: two records of one symbol are not ordered, so that `makeUnorderedPair` depends on the order of its arguments (C117).
* `Core/substitutions_search.go` `DispatchSubst`: the cleaned and the original substitutions are put in two lists that drop repetitions separately, and `ManageClosureRule` reads them at the same index; after two substitutions with the same restriction, the next ones are stored in the global unifier with the wrong original (C118).
* `ManageClosureRule`: a branch can answer that it is closed by itself although two metavariables of the parent have to be equal (C119).
* `ContainsMetaMother`: the metavariables below a function symbol are not looked at, so `chooseSubstitutionDestructive` can prefer a substitution that constrains the parent (C123).
* `Mods/lambdapi/proof.go` `closureAxiom`: a branch closed by equality is printed as an axiom on hypotheses that do not exist, with empty names (C124).
* `allRules`: the constants are given as many formulas as the connective has components, so conjunctions and disjunctions of more than two formulas do not have the type of the constant (C125).
* `makeTheorem`: with axioms, the statement refutes `ax1 ⇒ ... ⇒ ¬c` where the term refutes `ax1 ∧ ... ∧ ¬c`; the first can have a model when the second has none (C126).
* `allRulesQuantUniv`, `allRulesQuantExist`: the lambda binds a fresh name but its body is printed with the variable of the problem, which is declared nowhere; and a symbol of the problem named `v0` is hidden (C128).
* `makeProofStep` stops on weakenings, which `gs3` introduces when rules are applied again; `allRulesQuantUniv` stops on a quantifier whose variable does not occur; `processMainFormula` stops on a problem without a conjecture (C129).
* `tryRewrite`: the literals put back before the rewritten one are overwritten by `SetLF`, so the branch loses them; an unsatisfiable branch becomes satisfiable (C132).
* `manageBacktrackForDMT`: the message of the child is never empty (it carries the formula), so `getAtomicsForDMT` offers no literal of that child for rewriting; they go to the stored literals, which `manageRewriteRules` takes for literals without rule (C134).
* `addUnifToAtomics`: a candidate gets the number of the rule whose atom unified, not of the rule it comes from; `setRewrittenWith` then names another axiom (C135).
* `passSubstToParent`: a substitution whose restriction is empty, which closes the children whatever the father does, is skipped while the others are sent with `need_answer`; `ManageClosureRule` does the opposite at a leaf (C137).
* The disagreement of C27 on a formula: the three branches of a satisfiable formula close with X := b, X := c and X := b, and a root that receives these answers reports that all is closed (C142, C144).
* After X := b is applied, p(f(X,X)) is p(f(b,X)): one occurrence only is replaced among the arguments of a function. The search that follows may then close the branch with X := c, which the branch does not allow; the merge with X := b fails and the prover stops with an anomaly (C147).
* With overwrite, `updateProof` replaces the last step only. After a first answer whose child made several steps, and a second answer, the steps of the first child but its last one stay in the recorded proof, on formulas with the first answer applied, which the branch does not have; the translation of such a proof for the printers stops on them (C148). The two answers are given; no run that leads to them is built.
