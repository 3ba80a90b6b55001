{"id": "C01", "title": "Sets behave as finite sets", "statement": "For an element type whose Less/Equals form a total order, a Lib.Set built from EmptySet by any sequence of Add, Remove, Union, Inter and Diff answers Contains, IsEmpty, Cardinal, Disjoint and Elements exactly as the mathematical finite set obtained by the same operations does; Elements lists each member exactly once.", "quantifier": "every element type with a lawful order, every finite sequence of operations (each handle used linearly), every queried element", "why_tests_cant": "The operation histories and tree shapes are unbounded; rotations that go wrong need particular shapes that sampled tests miss.", "anchors": ["src/Lib/sets.go:Add", "src/Lib/sets.go:Remove", "src/Lib/sets.go:Contains", "src/Lib/sets.go:Elements", "src/Lib/sets.go:Union", "src/Lib/sets.go:Inter", "src/Lib/sets.go:Diff"]}
{"id": "C02", "title": "Sets stay balanced", "statement": "A Lib.Set built by any sequence of Add and Remove is a height-balanced search tree: sibling subtrees differ in height by at most one and InternalHeight is logarithmic in Cardinal.", "quantifier": "every sequence of Add/Remove calls of every length", "why_tests_cant": "Imbalance appears only after specific removal patterns on sufficiently deep trees.", "anchors": ["src/Lib/sets.go:rebalance", "src/Lib/sets.go:insert", "src/Lib/sets.go:remove", "src/Lib/sets.go:InternalHeight"]}
{"id": "C03", "title": "Copying a set preserves its contents and its balance guarantees", "statement": "Copy yields a set with the same members on which later Add/Remove/Contains keep behaving as finite-set operations, never crash and keep the tree balanced.", "quantifier": "every set reachable by Add/Remove/Copy in any order", "why_tests_cant": "The effect of lost height information only shows on particular continuations of particular shapes.", "anchors": ["src/Lib/sets.go:Copy", "src/Lib/sets.go:nodeCpy"]}
{"id": "C04", "title": "Set handles are persistent values", "statement": "Calling Add or Remove on a set does not change what another handle to the same set, obtained earlier, reports.", "quantifier": "every history of operations with several live handles to one tree", "why_tests_cant": "Aliasing bugs depend on the tree shape at the time of the write and on who still holds the old handle.", "anchors": ["src/Lib/sets.go:Add", "src/Lib/sets.go:rotateLeft", "src/Typing/env-and-context.go:add"]}
{"id": "C05", "title": "Filtering a set keeps exactly the elements satisfying the predicate", "statement": "s.Filter(p) contains x iff s contains x and p(x) holds.", "quantifier": "every set and every predicate", "why_tests_cant": "The statement ranges over all predicates and all sets.", "anchors": ["src/Lib/sets.go:Filter"]}
{"id": "C06", "title": "Parallel map-reduce is schedule independent", "statement": "GenericParallel returns the fold of all worker results with the given operation, whatever the order in which workers deliver, provided the operation is associative and commutative with the given neutral element; it uses each worker's result exactly once.", "quantifier": "every number of workers, every worker result, every delivery order", "why_tests_cant": "The number of delivery orders is factorial and the Go scheduler shows only some of them.", "anchors": ["src/Lib/par.go:GenericParallel"]}
{"id": "C07", "title": "Freshly generated symbols and metavariables are never reused", "statement": "Under every interleaving of goroutines, no two calls that create a new identifier, a new metavariable or a formula index return the same index.", "quantifier": "every number of goroutines, every program of creation calls, every schedule", "why_tests_cant": "A collision needs a precise interleaving; tests see one schedule per run.", "anchors": ["src/AST/maker.go:MakerNewId", "src/AST/maker.go:MakerMeta", "src/AST/maker.go:MakerIndexFormula"]}
{"id": "C08", "title": "A symbol name always denotes one symbol", "statement": "Two requests for the identifier (or bound variable) of the same name return the same index and requests for different names return different indices, in every interleaving of goroutines.", "quantifier": "every multiset of requests, every schedule", "why_tests_cant": "A check-then-act window is only visible in particular schedules.", "anchors": ["src/AST/maker.go:MakerId", "src/AST/maker.go:MakerVar"]}
{"id": "C09", "title": "Proof node numbers are unique", "statement": "Under every interleaving, the numbers handed to proof-search nodes are pairwise distinct.", "quantifier": "every number of goroutines, every schedule", "why_tests_cant": "Needs a schedule where two increments precede both reads.", "anchors": ["src/Glob/helper.go:IncrCptNode"]}
{"id": "C10", "title": "The shared task list runs tasks one at a time", "statement": "Whatever goroutines add tasks to a SyncTaskList, at most one task runs at any moment, every added task is run exactly once, and a SyncCounter therefore loses no increment and fires its callback when it reaches zero.", "quantifier": "every number of goroutines, every schedule", "why_tests_cant": "Overlap needs a task to be added while another is executing.", "anchors": ["src/Glob/syncTaskList.go:AddTask", "src/Glob/syncTaskList.go:doTasks", "src/Glob/syncCounter.go:Decrement"]}
{"id": "C11", "title": "Metavariables reported for a term or formula are exactly those occurring in it", "statement": "GetMetas of a term or formula contains a metavariable iff that metavariable occurs in the term or formula.", "quantifier": "every term and formula of any depth", "why_tests_cant": "Syntax trees are unbounded.", "anchors": ["src/AST/termsDef.go:GetMetas", "src/AST/formsDef.go:GetMetas"]}
{"id": "C12", "title": "Equality tests on terms are equivalence relations that agree with symbol identity", "statement": "Term equality is reflexive, symmetric and transitive and holds exactly when the two terms have the same shape with the same symbol, variable and metavariable indices at every position.", "quantifier": "every pair/triple of terms of any depth", "why_tests_cant": "Unbounded terms; equality is used as set/map key everywhere.", "anchors": ["src/AST/termsDef.go:Equals", "src/AST/term-list.go"]}
{"id": "C13", "title": "Negation simplification preserves meaning", "statement": "Simplifying the negations of a formula yields a logically equivalent formula that does not start with a double negation, and the complement used by the prover of a formula is equivalent to its negation.", "quantifier": "every formula, every interpretation and valuation", "why_tests_cant": "Equivalence quantifies over all models.", "anchors": ["src/AST/formsDef.go:SimplifyNegations", "src/AST/formsDef.go:RemoveNeg"]}
{"id": "C14", "title": "Instantiating a metavariable in a formula replaces every occurrence", "statement": "Replacing a metavariable X by a term t in a formula yields the formula in which all occurrences of X, at any depth, are replaced by t, and leaves the original formula unchanged.", "quantifier": "every formula, metavariable and term", "why_tests_cant": "Repeated and nested occurrences form an unbounded family; tests use one occurrence.", "anchors": ["src/AST/formsDef.go:ReplaceMetaByTerm", "src/AST/termsDef.go:ReplaceSubTermBy", "src/AST/form-list.go:LsSubstByTerm"]}
{"id": "C15", "title": "Applying a substitution to a term is capture-free simultaneous replacement", "statement": "Applying a substitution to a term with the full-replacement operation yields the term with every occurrence of every metavariable in the substitution replaced, other subterms unchanged.", "quantifier": "every term and every substitution", "why_tests_cant": "Unbounded terms.", "anchors": ["src/Core/substitutions_search.go:ApplySubstitutionOnTerm"]}
{"id": "C16", "title": "Renaming bound variables preserves meaning", "statement": "RenameVariables returns a formula true in exactly the same models, whose bound variables are pairwise distinct fresh names.", "quantifier": "every formula, every model", "why_tests_cant": "Capture situations depend on nesting and shadowing patterns.", "anchors": ["src/AST/quantifiers.go:renameVariables", "src/AST/formsDef.go:RenameVariables"]}
{"id": "C17", "title": "The problem handed to the search is unsatisfiable iff the axioms entail the conjecture", "statement": "From a list of axioms and at most one conjecture, the formula assembled for the search has a model iff some model satisfies every axiom and falsifies the conjecture (or satisfies the negated conjecture); a second conjecture is rejected.", "quantifier": "every list of statements, every model", "why_tests_cant": "Quantifies over all statement lists and models.", "anchors": ["src/main.go:StatementListToFormula", "src/AST/form-list.go:FlattenAnd"]}
{"id": "C18", "title": "The printed SZS status matches the search verdict", "statement": "The status printed is Theorem/Unsatisfiable only when the search reported a closed tableau, Theorem only when a conjecture was given, and the open verdicts only otherwise.", "quantifier": "every combination of verdict and problem kind", "why_tests_cant": "Finite but relied upon jointly with soundness; a single wrong branch makes the prover lie.", "anchors": ["src/Search/search.go:PrintSearchResult"]}
{"id": "C19", "title": "Every formula is dispatched to the rule family matching its main connective", "statement": "The kind-of-rule classification is total, every non-literal formula gets exactly one of alpha/beta/gamma/delta, literals are atomic, and the family agrees with the connective and polarity.", "quantifier": "every formula", "why_tests_cant": "Structural property over all formulas.", "anchors": ["src/Core/rules_type.go:ShowKindOfRule", "src/Search/state.go:DispatchForm"]}
{"id": "C20", "title": "Alpha rules preserve meaning", "statement": "The formulas returned by an alpha rule hold together exactly when the decomposed formula holds.", "quantifier": "every alpha formula, every model and valuation", "why_tests_cant": "Equivalence in all models.", "anchors": ["src/Search/rules.go:ApplyAlphaRules"]}
{"id": "C21", "title": "Beta rules cover all cases", "statement": "A beta formula holds exactly when all the formulas of at least one returned branch hold.", "quantifier": "every beta formula (any number of disjuncts/conjuncts), every model and valuation", "why_tests_cant": "Equivalence in all models, unbounded arity.", "anchors": ["src/Search/rules.go:ApplyBetaRules"]}
{"id": "C22", "title": "Gamma instantiation is sound and introduces fresh metavariables", "statement": "The instance produced by the gamma rule is implied by the universally quantified formula under every valuation of the new metavariables, and the new metavariables occur nowhere else.", "quantifier": "every universally quantified formula, every model, every valuation", "why_tests_cant": "Quantifies over all models and formulas.", "anchors": ["src/Core/instanciation.go:Instantiate", "src/Search/rules.go:ApplyGammaRules"]}
{"id": "C23", "title": "Skolemization preserves satisfiability", "statement": "If a set of formulas containing an existential formula is satisfiable for every valuation of its metavariables, it remains so after adding the Skolemized formula produced by the delta rule (outer, inner and pre-inner variants).", "quantifier": "every existential formula, branch and model", "why_tests_cant": "Model-theoretic statement over all interpretations.", "anchors": ["src/Core/skolemisation.go:Skolemize", "src/Core/Sko/outer-skolemization.go", "src/Core/Sko/inner-skolemization.go", "src/Core/Sko/preinner-skolemization.go"]}
{"id": "C24", "title": "A tableau closed by a global substitution proves unsatisfiability", "statement": "Whenever the rules build a tree from the initial formula such that one substitution closes every leaf with complementary literals, the initial formula has no model.", "quantifier": "every formula, every finite derivation, every substitution", "why_tests_cant": "Soundness over all derivations and all models cannot be sampled.", "anchors": ["src/Search/rules.go", "src/Search/destructive.go:ProofSearch", "src/Search/proof.go"]}
{"id": "C25", "title": "No formula is lost or duplicated when dispatched on a branch", "statement": "Adding formulas to a branch state puts each of them in exactly one of the rule queues, so the multiset of formulas of the branch grows by exactly these formulas.", "quantifier": "every branch state and every list of formulas", "why_tests_cant": "Unbounded states.", "anchors": ["src/Search/state.go:DispatchForm", "src/Search/state.go:GetAllForms"]}
{"id": "C26", "title": "Gamma reintroduction is fair", "statement": "When reintroduction is called repeatedly, each registered universal formula is selected again after finitely many calls: the counters of any two registered formulas never differ by more than one.", "quantifier": "every number of generators, every length of the sequence of reintroductions", "why_tests_cant": "Fairness concerns unbounded executions.", "anchors": ["src/Core/meta_gen.go:ReintroduceMeta"]}
{"id": "C27", "title": "A substitution passed to the parent closes every child branch", "statement": "When a branching node decides that its children agree and passes substitutions to its parent, each passed substitution was returned by (closes) every child that did not close by itself.", "quantifier": "every number of children, every answer of each child, every arrival order", "why_tests_cant": "The fault needs three or more branches with particular answers arriving in a particular order.", "anchors": ["src/Search/destructive.go:selectChildren", "src/Search/child_management.go:passSubstToParent"]}
{"id": "C28", "title": "The verdict of a branching node does not depend on the order in which children answer", "statement": "For the same set of answers, the decision taken for a node is the same for every arrival order.", "quantifier": "every number of children, answers and permutation", "why_tests_cant": "Factorially many schedules.", "anchors": ["src/Search/destructive.go:selectChildren"]}
{"id": "C29", "title": "Choosing a substitution loses none", "statement": "The substitution chosen among the candidates belongs to the candidates and the remaining list contains exactly all the others; if some candidate touches no metavariable of the ancestors, such a one is chosen.", "quantifier": "every non-empty candidate list and every random choice", "why_tests_cant": "Random choices and list shapes are unbounded.", "anchors": ["src/Search/destructive.go:chooseSubstitutionDestructive"]}
{"id": "C30", "title": "Closure detection is sound", "statement": "A closure reported for a formula against a branch is justified: the formula is bottom (or negated top), a reflexive disequality, or the returned substitution makes it complementary to a literal of the branch.", "quantifier": "every branch and formula", "why_tests_cant": "All branches and formulas.", "anchors": ["src/Search/rules.go:ApplyClosureRules", "src/Search/rules.go:searchObviousClosureRule"]}
{"id": "C31", "title": "Forbidden substitutions are never retried", "statement": "Closure search never returns a substitution listed as forbidden by the parent.", "quantifier": "every branch, formula, forbidden list", "why_tests_cant": "Needs several matches in particular order.", "anchors": ["src/Search/rules.go:ApplyClosureRules"]}
{"id": "C32", "title": "Unification results are unifiers", "statement": "Each substitution computed for a set of term pairs, or returned by querying the index with a formula, makes the paired terms (query and indexed formula) syntactically equal once applied.", "quantifier": "every pair of terms/formulas and every initial substitution", "why_tests_cant": "Unbounded terms; bugs need repeated variables and chains.", "anchors": ["src/Unif/substitutions_type.go:Eliminate", "src/Unif/machine.go", "src/Unif/matching.go", "src/Unif/matching_substitutions.go"]}
{"id": "C33", "title": "Unification finds a unifier whenever one exists", "statement": "If a query formula and an indexed formula are unifiable then the index query reports them with a unifier.", "quantifier": "every pair of formulas", "why_tests_cant": "Failures need cyclic renamings among three or more metavariables.", "anchors": ["src/Unif/substitutions_type.go:Eliminate", "src/Unif/matching.go:unify"]}
{"id": "C34", "title": "Computed substitutions are idempotent and acyclic", "statement": "A non-failing result of substitution elimination binds each metavariable at most once and no bound metavariable occurs in any bound term.", "quantifier": "every input substitution list", "why_tests_cant": "Needs chains and cycles of unbounded length.", "anchors": ["src/Unif/substitutions_type.go:Eliminate", "src/Unif/substitutions_type.go:EliminateMeta"]}
{"id": "C35", "title": "Substitution bindings behave as a finite map", "statement": "After Set(k,v), Get(k) returns v and other keys are unchanged; Remove deletes only the given key; two substitutions are reported equal iff they have the same bindings.", "quantifier": "every substitution, key and value", "why_tests_cant": "Unbounded histories.", "anchors": ["src/Unif/substitutions_type.go:Set", "src/Unif/substitutions_type.go:Get", "src/Unif/substitutions_type.go:Remove", "src/Unif/substitutions_type.go:Equals"]}
{"id": "C36", "title": "Merging substitutions is sound", "statement": "A successful merge of two substitutions satisfies the equations of both; failure of either input propagates.", "quantifier": "every pair of substitutions", "why_tests_cant": "Unbounded bindings and terms.", "anchors": ["src/Unif/substitutions_tree.go:MergeSubstitutions", "src/Unif/substitutions_tree.go:AddUnification"]}
{"id": "C37", "title": "The discrimination tree stores exactly the inserted formulas", "statement": "After inserting any list of formulas into the index, the formulas reachable by following its instruction sequences are exactly the inserted ones, each stored at the leaf of its own instruction sequence.", "quantifier": "every list of literals in any order", "why_tests_cant": "Branch splitting cases depend on shared prefixes between arbitrary terms.", "anchors": ["src/Unif/code-trees.go:insert", "src/Unif/parsing.go"]}
{"id": "C38", "title": "Index queries never crash and do not depend on scheduling", "statement": "Querying the index with any term or literal terminates normally and, up to order, returns the same matches for every interleaving of the parallel exploration.", "quantifier": "every tree, query and schedule", "why_tests_cant": "Depends on instruction sequences and scheduling.", "anchors": ["src/Unif/matching.go:unify", "src/Unif/matching.go:launchChildrenSearch"]}
{"id": "C39", "title": "Restricting substitutions to parent metavariables is sound", "statement": "Removing from a substitution the metavariables local to a branch keeps, for the parent's metavariables, an equivalent set of constraints.", "quantifier": "every substitution and every set of parent metavariables", "why_tests_cant": "Unbounded chains of bindings.", "anchors": ["src/Core/substitutions_search.go:RemoveElementWithoutMM"]}
{"id": "C40", "title": "The term ordering is a total, well-founded-compatible order on ground terms", "statement": "On ground terms the LPO comparison is total, antisymmetric, transitive, contains the subterm relation, is monotone, and answers equal only for identical terms.", "quantifier": "every ground term over symbols of fixed arity", "why_tests_cant": "Unbounded terms.", "anchors": ["src/Mods/equality/bse/lpo.go:compareLPO"]}
{"id": "C41", "title": "Ordering decisions on open terms hold for all instances", "statement": "When two terms with metavariables are reported comparable, the reported order holds for every ground instantiation of the metavariables.", "quantifier": "every pair of terms, every ground substitution", "why_tests_cant": "Quantifies over all instantiations.", "anchors": ["src/Mods/equality/bse/lpo.go:compareLPO"]}
{"id": "C42", "title": "Equality reasoning is sound", "statement": "Each superposition step replaces a term by one equal to it under the branch equalities and the accumulated substitution; a reported solution makes the goal terms equal modulo the equalities, whatever answer arrives first.", "quantifier": "every set of equalities, goal, derivation and schedule", "why_tests_cant": "Unbounded derivations.", "anchors": ["src/Mods/equality/bse/equality_rules_apply.go:applyEQRule", "src/Mods/equality/bse/equality_solve_reasoning_problem.go"]}
{"id": "C43", "title": "Axioms turned into rewrite rules keep their meaning", "statement": "When an axiom is consumed as rewrite rules, rewriting a literal of a branch with a matching rule yields a formula implied by the literal together with the axiom, and the polarity is respected.", "quantifier": "every axiom, literal and model", "why_tests_cant": "Quantifies over all models and axioms.", "anchors": ["src/Mods/dmt/axiom_registration.go:RegisterAxiom", "src/Mods/dmt/rewrite.go:Rewrite"]}
{"id": "C44", "title": "Registering an axiom never crashes", "statement": "Registering any closed formula as an axiom for deduction modulo returns normally in both plain and polarized modes.", "quantifier": "every formula and option setting", "why_tests_cant": "Crashes need formula shapes not present in tests.", "anchors": ["src/Mods/dmt/axiom_registration.go:RegisterAxiom", "src/Mods/dmt/axiom_registration.go:isEqualityPred"]}
{"id": "C45", "title": "Rewriting instantiates rules completely", "statement": "The formula obtained by rewriting contains no metavariable of the rule that is bound by the matching substitution.", "quantifier": "every rule and matching literal", "why_tests_cant": "Needs repeated variables at depth.", "anchors": ["src/Mods/dmt/rewritten.go:substitute"]}
{"id": "C46", "title": "Type checking accepts only well-typed formulas", "statement": "If TypeCheck accepts a formula then it is well typed with respect to the declared signatures: each argument has the type required by its position and each variable the type given by its innermost binder.", "quantifier": "every formula, every signature", "why_tests_cant": "Unbounded formulas; ill-typed nesting must be rejected everywhere.", "anchors": ["src/Typing/rules.go:TypeCheck", "src/Typing/rules.go:typecheckTerm"]}
{"id": "C47", "title": "Type checking accepts every well-typed formula", "statement": "If a formula is well typed with respect to the declared signatures, TypeCheck returns true and raises no error, whatever the schedule of its workers.", "quantifier": "every well-typed formula, every schedule", "why_tests_cant": "Depends on unbounded nesting and scheduling.", "anchors": ["src/Typing/rules.go:TypeCheck", "src/Typing/env-and-context.go"]}
{"id": "C48", "title": "Type and term views of type arguments round trip", "statement": "Converting a type to a term and back gives the original type and distinct types give distinct terms; type metavariables never collide with term metavariables.", "quantifier": "every type", "why_tests_cant": "Unbounded types, global counters.", "anchors": ["src/AST/ty-syntax.go:TyToTerm", "src/AST/ty-syntax.go:TermToTy", "src/Unif/substitutions_type.go"]}
{"id": "C49", "title": "Instantiating a polymorphic type scheme is capture-free", "statement": "Instantiating a type scheme with types replaces each quantified type variable by the corresponding type everywhere and nothing else.", "quantifier": "every scheme and instance list", "why_tests_cant": "Unbounded types.", "anchors": ["src/AST/ty-syntax.go:InstantiateTy"]}
{"id": "C50", "title": "Rule-dependency reachability is correct", "statement": "In the dependency graph used for proof reordering, a vertex is reported reachable from another iff there is a path of recorded edges, cleaning a vertex removes all its edges and adding vertices and edges never crashes.", "quantifier": "every sequence of graph operations", "why_tests_cant": "Unbounded graphs.", "anchors": ["src/Mods/gs3/graph.go"]}
{"id": "C51", "title": "The instantiation term of a gamma step is recovered from the proof", "statement": "From a quantified formula and its instance, the proof translation recovers exactly the term that was substituted for the quantified variable whenever the variable occurs.", "quantifier": "every formula, variable and term", "why_tests_cant": "Unbounded formulas; depends on occurrence paths.", "anchors": ["src/Mods/gs3/dependency.go:getResultTerm"]}
{"id": "C52", "title": "The typed flag of a problem accounts for its included files", "statement": "The flag returned with the assembled formula (the problem is typed) is true when some included file contains typed statements.", "quantifier": "every list of statements", "why_tests_cant": "The flag is overwritten per include; only particular include orders reveal it.", "anchors": ["src/main.go:StatementListToFormula"]}
{"id": "C53", "title": "Whole runs of the expansion are sound", "statement": "Whatever the order in which the branches of ProofSearch are expanded and whatever the reintroduction limit, if one substitution closes every branch reached then the input formula has no model.", "quantifier": "every closed formula, limit, schedule of the branches and Skolemization", "why_tests_cant": "Unbounded formulas and interleavings; unsoundness needs a particular sequence of rules.", "anchors": ["src/Search/destructive.go:ProofSearch", "src/Search/destructive.go:applyRules", "src/Search/state.go:DispatchForm"]}
{"id": "C54", "title": "The expansion terminates, does not crash and stops only when no rule is left", "statement": "For every reintroduction limit, no run of the expansion is infinite, no expansion of a well-formed formula crashes, and a branch is declared saturated exactly when its queues are empty and it has no universal formula to reintroduce or has spent its limit.", "quantifier": "every formula, limit and schedule of the branches", "why_tests_cant": "Termination over all formulas; the measure is lexicographic in the limit and the sizes.", "anchors": ["src/Search/destructive.go:ProofSearch", "src/Search/destructive.go:applyRules", "src/Search/destructive.go:manageReintroductionRules", "src/Core/meta_gen.go:ReintroduceMeta"]}
{"id": "C55", "title": "A run whose branches are all closed by the search refutes the formula", "statement": "When the prover's own search for contradictions finds, on every leaf of a run of the expansion, an answer compatible with one substitution, the input formula has no model (with a reflexive equality).", "quantifier": "every formula, limit, Skolemisation, schedule and substitution", "why_tests_cant": "Needs all models of all formulas; and the lost bindings of the unification only show on particular shapes of literals.", "anchors": ["src/Search/destructive.go:ProofSearch", "src/Search/rules.go:ApplyClosureRules", "src/Unif/matching.go:unifyRec"]}
{"id": "C56", "title": "A consumed axiom loses no information", "statement": "The axioms that deduction modulo leaves in the problem and the rewrite rules it keeps have, together, exactly the models of the given axioms.", "quantifier": "every list of axioms, both modes, every model", "why_tests_cant": "A dropped axiom only shows when a proof needs it; quantifies over all models.", "anchors": ["src/Mods/dmt/axiom_registration.go:makeRewriteRuleFromImplication", "src/main.go:doAxiomStatement"]}
{"id": "C57", "title": "Instantiation terms survive the final substitution", "statement": "When the substitution that closes the tableau has been applied to a recorded gamma or delta step, the term recovered from the step is the substituted term, and the translation does not abort.", "quantifier": "every step, substitution and formula", "why_tests_cant": "Needs a metavariable twice in the same argument; unbounded formulas and substitutions.", "anchors": ["src/Search/proof.go:ApplySubstitutionOnProofList", "src/Mods/gs3/dependency.go:getTermAt"]}
{"id": "C58", "title": "Elaboration preserves the meaning of parsed formulas", "statement": "The internal formula built by the elaboration holds exactly when the parsed formula does, where the parsed formula is given its TPTP meaning: names denote symbols, a quantified variable is an individual or a type according to its declaration and within its body, the types among the arguments are type arguments; the derived connectives have their usual meaning.", "quantifier": "every parsed formula, file with declarations, state of the tables of identifiers, interpretation and valuation", "why_tests_cant": "Quantifies over all interpretations and over unbounded formulas; the context leaks only when names are reused at another type.", "anchors": ["src/Engine/syntax-translation.go:elaborateForm", "src/Engine/syntax-translation.go:elaborateTerm", "src/Engine/pretyper.go:pretype", "src/Parser/psyntax.go:MkPXor"]}
{"id": "C59", "title": "The typed flag of a formula accounts for its type arguments", "statement": "Elaboration reports a formula (a file) as typed exactly when some symbol that TPTP does not define takes a type argument (or something is declared).", "quantifier": "every parsed formula, file, context and state of the tables", "why_tests_cant": "Unbounded nesting of terms; the flag only decides whether the type checker runs.", "anchors": ["src/Engine/syntax-translation.go:elaborateForm", "src/Engine/syntax-translation.go:elaborateTerm", "src/main.go:presearchLoader"]}
{"id": "C60", "title": "A file is elaborated with the declarations of the files it includes", "statement": "The statements of a file elaborate to the same formulas whether the declarations they rely on stand in the file or in a file that it includes.", "quantifier": "every list of declarations, every list of statements, every state of the tables", "why_tests_cant": "Unbounded files; the difference is a silent change of the arguments of the symbols.", "anchors": ["src/main.go:StatementListToFormula", "src/main.go:presearchLoader", "src/Engine/syntax-translation.go:ToInternalSyntax"]}
{"id": "C61", "title": "The lexer returns the tokens that are written", "statement": "On a file made of lexemes of the TPTP grammar, separated by spaces and comments, the lexer gives the parser exactly the tokens of these lexemes, in order.", "quantifier": "every list of lexemes with any names, numbers and quoted words, any spaces and comments between them", "why_tests_cant": "Unbounded files, names and numbers; the lexer steps back by counted characters, and a token dropped at the end of the file is silent.", "anchors": ["src/Parser/tptp_lex.go:Lex", "src/Parser/tptp_lex.go:isOperator", "src/Parser/tptp_lex.go:isKeyword", "src/Parser/tptp_lex.go:isPredicate", "src/Parser/tptp_lex.go:number", "src/Parser/tptp_lex.go:word", "src/Parser/tptp_lex.go:quotedWords"]}
{"id": "C62", "title": "Comments and spaces are ignored", "statement": "Two files with the same lexemes and different spaces and comments give the same tokens, the same number of quantifiers and the same equality flag.", "quantifier": "every file, every spaces and comments", "why_tests_cant": "Unbounded comments with any characters; a comment read as an axiom can make a problem unsatisfiable.", "anchors": ["src/Parser/tptp_lex.go:filterComments", "src/Parser/tptp_lex.go:filterSpaces", "src/Parser/tptp_lex.go:Lex"]}
{"id": "C63", "title": "The lexer reports equality and quantifiers", "statement": "After the lexer has read a file the equality flag is set exactly when the file has an equality or a disequality, and the number of quantifiers is increased by the number of quantifiers of the file.", "quantifier": "every sequence of bytes on which the lexer does not stop, every initial value of the counters", "why_tests_cant": "Unbounded files; without the flag the equality reasoning is silently switched off, and the number of quantifiers bounds the search.", "anchors": ["src/Parser/tptp_lex.go:isPredicate", "src/Parser/tptp_lex.go:isOperator", "src/main.go:presearchLoader"]}
{"id": "C64", "title": "Different constants have different symbols", "statement": "Two constants of a file have the same symbol exactly when they stand for the same object: an atomic word with or without its quotes, a distinct object, a number, a word defined by TPTP.", "quantifier": "every two constants, any characters and escapes", "why_tests_cant": "Unbounded names; two distinct objects merged into one symbol change the meaning of the problem silently.", "anchors": ["src/Parser/tptp_lex.go:singleQuoted", "src/Parser/tptp_lex.go:distinctObject", "src/Parser/tptp_parse.y:defined_term", "src/Parser/tptp_parse.y:atomic_word"]}
{"id": "C65", "title": "The search never deadlocks", "statement": "As long as the search has not ended and no process has ended the program, some process can take a step or some two processes can exchange a message; no process waits for a message that nobody will send while the search needs it.", "quantifier": "every interleaving of the processes, any number of processes and any depth, every choice of rules, answers and substitutions, with and without completeness and deduction modulo", "why_tests_cant": "Unbounded interleavings of unbuffered channels: a deadlock needs one particular order of quit orders and answers.", "anchors": ["src/Search/children.go:closeChildren", "src/Search/children.go:sendSubToFather", "src/Search/destructive.go:waitChildren", "src/Search/destructive.go:waitFather", "src/Search/destructive.go:selectChildren", "src/Search/destructive.go:manageResult"]}
{"id": "C66", "title": "No process is left behind", "statement": "When nothing can happen any more, the search is over and every process it has launched has ended.", "quantifier": "every interleaving, any number of processes", "why_tests_cant": "A forgotten goroutine is silent: it waits on its channel for ever and the result is still printed.", "anchors": ["src/Search/child_management.go:manageBacktrackForDMT", "src/Search/children.go:closeChildren", "src/Search/destructive.go:waitFather"]}
{"id": "C67", "title": "A closed answer is earned", "statement": "A process that tells its father that its branch is closed has no children, or all its last launched children have last answered closed, or it gives again a substitution that it has already answered closed with.", "quantifier": "every interleaving, any number of processes, rounds and backtracks", "why_tests_cant": "Depends on which answers arrive before a quit order, across rounds; a wrong answer makes the prover claim an invalid theorem.", "anchors": ["src/Search/child_management.go:childrenClosedByThemselves", "src/Search/child_management.go:passSubstToParent", "src/Search/child_management.go:manageOpenedChild", "src/Search/destructive.go:selectChildren", "src/Search/destructive.go:waitFather"]}
{"id": "C68", "title": "The father finds the slot of each child", "statement": "The original node id of a child that is waited for is in the list of the expected ids, so that recording its proof never indexes out of range.", "quantifier": "every interleaving, every backtrack", "why_tests_cant": "Only backtracks reach the faulty cases; the failure is a panic in the middle of a search.", "anchors": ["src/Search/destructive.go:selectChildren", "src/Search/child_management.go:manageBacktrackForDMT"]}
{"id": "C69", "title": "A closed node has the proof of each of its children", "statement": "When a process decides that its node is closed, the table of the proofs holds the proof of each of its children, in order.", "quantifier": "every interleaving, any number of children and rounds", "why_tests_cant": "The result is right and only the printed proof has a hole, after a particular sequence of answers over several rounds.", "anchors": ["src/Search/destructive.go:selectChildren", "src/Search/child_management.go:updateProof"]}
{"id": "C70", "title": "The bookkeeping of the substitutions follows the children", "statement": "The substitution with which a father compares the answers of its children is the one it last gave them, and when it starts them again all the substitutions they failed with are forbidden.", "quantifier": "every interleaving, any number of backtracks", "why_tests_cant": "Needs a backtrack followed by another answer or failure, in some order.", "anchors": ["src/Search/destructive.go:tryBTSubstitution", "src/Search/child_management.go:manageOpenedChild"]}
{"id": "C71", "title": "The type of a declared symbol is the declared one", "statement": "For a symbol declared with argument types and a result type, possibly for all types A1..An, the type checker reads, at the type arguments of a term, the declared argument types and the declared result type with the type arguments in place of A1..An; products may be associated in any way.", "quantifier": "every declaration of the TPTP grammar, every list of type arguments", "why_tests_cant": "The type goes through the elaboration, the environment and the instantiation; a wrong case shows only for particular shapes of declarations, as an abort of the checker on a well-typed file.", "anchors": ["src/Engine/syntax-translation.go:elaborateType", "src/Engine/syntax-translation.go:flattenProd", "src/AST/ty-syntax.go:InstantiateTy", "src/AST/ty-syntax.go:GetArgsTy", "src/AST/ty-syntax.go:GetOutTy", "src/Typing/rules.go:checkFunctional"]}
{"id": "C72", "title": "An equality is taken at the type of its left-hand side", "statement": "The type argument given to an equality is the type that the context gives to its left-hand side.", "quantifier": "every context, every two terms", "why_tests_cant": "The type is recovered from the elaborated term and only wrong when that term has a type argument which itself has arguments.", "anchors": ["src/Engine/syntax-translation.go:elaborateDefinedFunctionals", "src/Engine/pretyper.go:instantiateType", "src/Engine/pretyper.go:lookupInContext"]}
{"id": "C73", "title": "Every closed tableau is translated to GS3", "statement": "MakeGS3Proof returns a sequent, without panic or anomaly, for every closed tableau proof whose delta rules introduce Skolem terms.", "quantifier": "every closed tableau proof, with or without registered axioms, every Skolemisation mode", "why_tests_cant": "The reordering of delta rules depends on which terms were used before they were introduced; the failing proofs need a vacuous quantifier or a Skolem term nested in another one, and such proofs come out of the search for particular problems only.", "anchors": ["src/Mods/gs3/proof.go:MakeGS3Proof", "src/Mods/gs3/proof.go:makeProof", "src/Mods/gs3/proof.go:makeProofOneStep", "src/Mods/gs3/proof.go:manageDeltaStep", "src/Mods/gs3/proof.go:getDepFromTerm", "src/Mods/gs3/proof.go:getOffspringsOf", "src/Mods/gs3/sequent.go:setAppliedOn"]}
{"id": "C74", "title": "The GS3 proof can be replayed", "statement": "The sequent returned by MakeGS3Proof is a closed GS3 derivation from the root: followed from the root, each rule applies to a formula of the context, each weakening drops a formula of the context, each delta rule introduces a term that is new to the context, and each leaf is a contradiction.", "quantifier": "every closed tableau proof for which a sequent is returned", "why_tests_cant": "The result is only checked by an external proof checker, when one is run on the output; the wrong context shows for proofs where a delta rule is weakened after another one.", "anchors": ["src/Mods/gs3/proof.go:manageDeltaStep", "src/Mods/gs3/proof.go:applyDeltaRule", "src/Mods/gs3/proof.go:weakenForms", "src/Mods/gs3/proof.go:postTreatment", "src/Mods/gs3/sequent.go:setHypotheses"]}
{"id": "C75", "title": "The sequents of a reordered proof are sound step by step", "statement": "In every sequent returned by MakeGS3Proof, the hypotheses come from the root or were generated by a rule above, the rule is a rule of the tableau applied to one of the hypotheses, and the term of a delta rule occurs in none of the hypotheses.", "quantifier": "every tableau proof, every run that returns, any number of reorderings and rebuilt branches", "why_tests_cant": "The condition on the terms is on all the hypotheses of all the sequents, after weakenings and rules applied again; nothing checks it in the program.", "anchors": ["src/Mods/gs3/proof.go:makeProof", "src/Mods/gs3/proof.go:manageDeltaStep", "src/Mods/gs3/proof.go:rebuildProof", "src/Mods/gs3/proof.go:getLastSequent", "src/Mods/gs3/proof.go:weakenForm", "src/Mods/gs3/proof.go:applyRulesBack"]}
{"id": "C76", "title": "In every run of the search, children agree on what is passed to their father", "statement": "C27 for the processes and their last answers, not for a list of answers: when a process passes substitutions to its father because all its children agree on them, each of these substitutions closes each of the children: it is one of those the child answered, or the child needs none or only the one it was given.", "quantifier": "every interleaving, any number of children, rounds and substitutions", "why_tests_cant": "Needs three children whose answers arrive in one particular order; the result is a wrong claim of unsatisfiability.", "anchors": ["src/Search/destructive.go:selectChildren", "src/Search/child_management.go:passSubstToParent"]}
{"id": "C77", "title": "Nothing is invented or lost when answers are collected", "statement": "A node is closed without a substitution exactly when all its children answered so; a substitution passed to the father or offered to the children was found by a child; those offered to the children are distinct, new, and at least two, so that choosing one never indexes an empty list.", "quantifier": "every interleaving, any number of children, rounds and substitutions", "why_tests_cant": "The outcome depends on the order of the answers and on which lists overlap.", "anchors": ["src/Search/destructive.go:selectChildren", "src/Search/destructive.go:chooseSubstitutionDestructive"]}
{"id": "C78", "title": "The substitution applied to the final proof closes every branch", "statement": "The substitution that GetUnifier returns at the root does, at every leaf of the closed tree, what one of the closing substitutions found there does, and does what was applied at every branching node.", "quantifier": "every closed tree: any depth, number of children, substitutions found at the leaves and choices of the fathers", "why_tests_cant": "Needs a tree in which two siblings disagree and a third one agrees with one of them; the proof printed is then not closed.", "anchors": ["src/Core/global_unifier.go:MergeUnifierList", "src/Core/global_unifier.go:Merge", "src/Search/destructive.go:doOneStep", "src/Search/child_management.go:passSubstToParent"]}
{"id": "C79", "title": "A closing substitution is found when there is one", "statement": "When the unifier holds a substitution, GetUnifier returns one of those it holds.", "quantifier": "every unifier, in particular every one built from a closed tree", "why_tests_cant": "The first key has to merge while its substitutions do not.", "anchors": ["src/Core/global_unifier.go:GetUnifier", "src/Core/global_unifier.go:Merge"]}
{"id": "C80", "title": "Pruning removes the metavariables of the node", "statement": "After PruneMetasInSubsts no key of the unifier binds a metavariable introduced by the node.", "quantifier": "every unifier and set of metavariables", "why_tests_cant": "The keys are only visible in debug output.", "anchors": ["src/Core/global_unifier.go:PruneMetasInSubsts", "src/Lib/list.go:RemoveAt"]}
{"id": "C81", "title": "Merging two unifiers is exact", "statement": "The merge of two unifiers that are not empty keeps, up to the way keys are written, exactly the pairs obtained by merging a pair of the one with a pair of the other, and its keys are exactly the merges of their keys.", "quantifier": "every pair of unifiers", "why_tests_cant": "Unbounded numbers of keys and substitutions, grouped under equal keys.", "anchors": ["src/Core/global_unifier.go:Merge", "src/Core/global_unifier.go:appendNewUnifiersIfNeeded"]}
{"id": "C82", "title": "The unifier of a node does not depend on the order of the answers", "statement": "Merging the unifiers of the children in another order gives the same closing substitutions.", "quantifier": "every list of unifiers and permutation of it", "why_tests_cant": "The order of the answers is the order in which processes end.", "anchors": ["src/Core/global_unifier.go:MergeUnifierList", "src/Search/destructive.go:selectChildren"]}
{"id": "C83", "title": "A choice of the father only restricts the unifier", "statement": "After a node is told which substitution was chosen, each substitution of its unifier was there before and is compatible with the chosen one.", "quantifier": "every unifier, chosen and applied substitution", "why_tests_cant": "Needs a chosen substitution that was sent by the node but is compatible with no key of its unifier.", "anchors": ["src/Search/destructive.go:waitFather", "src/Core/global_unifier.go:PruneUncompatibleSubstitutions"]}
{"id": "C84", "title": "The incremental search answers VALID only for formulas without a model", "statement": "When the incremental search ends with every leaf of its tree closed, the formula it started from has no model.", "quantifier": "every closed formula, every Skolemization, every order of the goroutines", "why_tests_cant": "The answer depends on how the substitutions of distant branches meet, for every formula and every order.", "anchors": ["src/Search/incremental/search.go:Search", "src/Search/incremental/closureManager.go:isTreeClosed", "src/Search/incremental/searchNode.go:getResult"]}
{"id": "C85", "title": "An answer VALID of the incremental search comes with a substitution that closes every branch", "statement": "When the incremental search answers VALID the root has a compatible substitution, and what satisfies it closes every leaf of the tree.", "quantifier": "every closed formula, every order of the goroutines", "why_tests_cant": "The counters of the branching nodes depend on the order of the answers and on which leaves are asked to go on.", "anchors": ["src/Search/incremental/subsManager.go:sendClosingSubsToFather", "src/Search/incremental/subsManager.go:getCompatibleSubs", "src/Search/incremental/searchNode.go:getResult"]}
{"id": "C86", "title": "Two substitutions of the incremental search are merged exactly when they have a common solution", "statement": "buildCompatibleWith returns a substitution if and only if something satisfies both arguments, and what satisfies the result is what satisfies both.", "quantifier": "every pair of substitutions", "why_tests_cant": "Substitutions share metavariables inside terms in unboundedly many ways.", "anchors": ["src/Search/incremental/substitution.go:buildCompatibleWith", "src/Search/incremental/substitution.go:isCompatibleWith"]}
{"id": "C87", "title": "The incremental search can use a universal formula again", "statement": "After the gamma rule was applied to a universal formula, the nodes below can apply it again.", "quantifier": "every run and every node", "why_tests_cant": "The reintroduction is reached through a dynamic type test, whatever the formula is.", "anchors": ["src/Search/incremental/rules.go:GammaRule", "src/Search/incremental/rulesManager.go:tryToApply", "src/Search/incremental/reintroList.go:AddReintro"]}
{"id": "C88", "title": "The incremental search answers NOT VALID only for satisfiable formulas", "statement": "When the incremental search ends with an open leaf, the formula it started from has a model.", "quantifier": "every closed formula, every order of the goroutines", "why_tests_cant": "A missing proof is an absence, for every formula.", "anchors": ["src/Search/incremental/closureManager.go:setNothingToDo", "src/Search/incremental/closureManager.go:isTreeClosed", "src/Search/incremental/rulesManager.go:applyNonClosureRule"]}
{"id": "C89", "title": "The incremental search ends", "statement": "There is a bound on the number of goroutines run for a formula, whatever their order, and each of them ends without a failure other than that of the unification.", "quantifier": "every formula whose quantifiers bind at least one variable and whose terms are variables, metavariables and applications, every order of the goroutines", "why_tests_cant": "A bound for all the orders and all the formulas cannot be observed.", "anchors": ["src/Search/incremental/searchNode.go:continueSearch", "src/Search/incremental/searchNode.go:keepGoing", "src/Search/incremental/subsManager.go:tryingAgain"]}
{"id": "C90", "title": "The classes of the SAT-based equality reasoning are the equivalence closure of the merges", "statement": "Finding a representative always ends, and two classes have the same representative exactly when the merges made so far relate them, whatever shortening of paths was done in between.", "quantifier": "every sequence of allocations, searches and merges", "why_tests_cant": "The shape of the forest depends on the whole history of operations.", "anchors": ["src/Mods/equality/sateq/termrep.go:representative", "src/Mods/equality/sateq/termrep.go:merge", "src/Mods/equality/sateq/termrep.go:congruent"]}
{"id": "C91", "title": "Terms put in the same class are equal wherever the assumptions hold", "statement": "When a goal is answered without the SAT solver, its equations follow from the assumptions; no operation on the structure fails.", "quantifier": "every list of assumptions and goals", "why_tests_cant": "Congruence classes depend on the order in which unboundedly many terms are met.", "anchors": ["src/Mods/equality/sateq/problem.go:getEquivalenceClass", "src/Mods/equality/sateq/problem.go:mergeEquivalenceClasses", "src/Mods/equality/sateq/termrep.go:congruent"]}
{"id": "C92", "title": "A goal without metavariables that follows from the assumptions is found", "statement": "When the SAT-based equality reasoning answers that a problem without metavariables has no solution, none of its goals follows from the assumptions.", "quantifier": "every list of assumptions and goals without metavariables", "why_tests_cant": "A missing answer is an absence, for every problem.", "anchors": ["src/Mods/equality/sateq/problem.go:addNewTermRecord", "src/Mods/equality/sateq/problem.go:mergeEquivalenceClasses", "src/Mods/equality/sateq/problem.go:Solve"]}
{"id": "C93", "title": "A substitution read from the SAT solver solves a goal", "statement": "For every assignment that satisfies the clauses, the equations of one of the goals follow from the assumptions and from the bindings read from the assignment.", "quantifier": "every problem and every assignment that satisfies its clauses", "why_tests_cant": "The solver may return any of exponentially many assignments.", "anchors": ["src/Mods/equality/sateq/satbuilder.go:buildEConstraints", "src/Mods/equality/sateq/satbuilder.go:subsConstraint", "src/Mods/equality/sateq/subsgatherer.go:gatherSubs"]}
{"id": "C94", "title": "The substitution read from the SAT solver exists and can be satisfied", "statement": "For every assignment that satisfies the clauses, every class is translated to a term, and some substitution satisfies all the bindings.", "quantifier": "every first-order problem in which each symbol has one number of arguments, every assignment that satisfies its clauses, every choice of representatives", "why_tests_cant": "The absence of cycles is a property of all assignments.", "anchors": ["src/Mods/equality/sateq/satbuilder.go:buildAllAcyclicityConstraints", "src/Mods/equality/sateq/satbuilder.go:buildSubstitutionConstraints", "src/Mods/equality/sateq/subsgatherer.go:translate"]}
{"id": "C95", "title": "A copy of an equality structure is independent of the original", "statement": "What is added to the structure of a branch after the structures of two branches were copied from their father changes no answer of the other branch.", "quantifier": "every two sequences of additions after a copy", "why_tests_cant": "The answers of one branch depend on what runs in the others.", "anchors": ["src/Mods/equality/sateq/problem.go:Copy", "src/Search/state.go:GetEqStruct", "src/Mods/equality/sateq/termrep.go:merge"]}
{"id": "C96", "title": "A proof printed in TPTP format is a derivation", "statement": "Each printed step follows from steps printed before it, by the rule it names at the position it names, and the last step proves the conjecture from the axioms.", "quantifier": "every closed GS3 proof of a problem formula", "why_tests_cant": "The steps depend on the shape of the whole proof; no checker is run by the tests.", "anchors": ["src/Mods/tptp/proof.go:makeTptpProofFromGS3", "src/Mods/tptp/proof.go:makeStep", "src/Mods/tptp/proof.go:EquStep", "src/Mods/tptp/proof.go:updateSkolemSymbol", "src/Mods/tptp/proof.go:weakenStep"]}
{"id": "C97", "title": "Printing a proof in TPTP format does not stop the process", "statement": "For every closed GS3 proof of a problem formula, the printing ends without an anomaly or a panic.", "quantifier": "every closed GS3 proof of a problem formula", "why_tests_cant": "A panic needs a rule or a formula that no test proof has.", "anchors": ["src/Mods/tptp/proof.go:get", "src/Mods/tptp/proof.go:findIndexPos", "src/Mods/tptp/proof.go:updateSkolemSymbol", "src/AST/formula.go:replaceTermInTermList"]}
{"id": "C98", "title": "The printed TPTP steps have distinct names and use steps already printed", "statement": "No two steps of a printed proof have the same name, and the premises of a step are names of steps printed before it.", "quantifier": "every tree of sequents, correct or not, whose printing ends", "why_tests_cant": "The names come from a counter shared by the whole proof.", "anchors": ["src/Mods/tptp/proof.go:incrByOne", "src/Mods/tptp/proof.go:followProofSteps", "src/Mods/tptp/proof.go:performFirstStep", "src/Mods/tptp/proof.go:performCutAxiomStep"]}
{"id": "C99", "title": "A proof printed as a Rocq script is accepted", "statement": "Rocq accepts the printed script as a proof of the printed statement: each tactic applies to the first goal, names of hypotheses and of constants are new, and no goal is left.", "quantifier": "every closed GS3 proof of a negated conjecture, with or without axioms, when the symbols of the problem are declared", "why_tests_cant": "The tests run no proof assistant; acceptance depends on names and on the shape of the whole proof.", "anchors": ["src/Mods/rocq/proof.go:makeStep", "src/Mods/rocq/proof.go:alphaStep", "src/Mods/rocq/proof.go:betaStep", "src/Mods/rocq/proof.go:deltaStep", "src/Mods/rocq/proof.go:gammaStep", "src/Mods/rocq/proof.go:getRealConstantName", "src/Mods/rocq/proof.go:cleanHypotheses"]}
{"id": "C100", "title": "An accepted Rocq script proves the conjecture", "statement": "If Rocq accepts the printed script, the conjecture holds in every interpretation of the axioms of the problem, the registered axioms included, where equality is equality. The lemmas of the preamble are true.", "quantifier": "every tree of sequents, correct or not, whose script is accepted", "why_tests_cant": "It is about every interpretation.", "anchors": ["src/Mods/rocq/proof.go:makeRocqProofFromGS3", "src/Mods/rocq/proof.go:processMainFormula", "src/Mods/rocq/proof.go:makeTheorem", "src/Mods/rocq/proof.go:makeImpChain", "src/Mods/rocq/context.go:lemmas"]}
{"id": "C101", "title": "Printing a proof as a Rocq script does not stop the process", "statement": "For every closed GS3 proof of a problem formula, the printing ends without an anomaly or a panic.", "quantifier": "every closed GS3 proof of a problem formula", "why_tests_cant": "A panic needs a problem or a rule that no test proof has.", "anchors": ["src/Mods/rocq/proof.go:processMainFormula", "src/Mods/rocq/proof.go:makeStep", "src/Mods/rocq/proof.go:followProofSteps", "src/Mods/rocq/proof.go:addTermGenerated", "src/Mods/rocq/proof.go:cleanHypotheses"]}
{"id": "C102", "title": "The declarations of a Rocq script are accepted", "statement": "The script declares the predicate and function symbols of the problem and no others, each one once, with a type that is known, and no name of the preamble.", "quantifier": "every problem formula, every list of registered axioms and every environment of types", "why_tests_cant": "It is about every formula; the tests do not run the proof assistant.", "anchors": ["src/Mods/rocq/context.go:makeContextIfNeeded", "src/Mods/rocq/context.go:getContextFromFormula", "src/Mods/rocq/context.go:getContextFromTerm", "src/Mods/rocq/context.go:clean"]}
{"id": "C103", "title": "The proof printed is closed once the final substitution is applied", "statement": "If the rules of the recorded proof are applied as they are recorded and each branch is closed by the final substitution, then the proof with the substitution applied to its formulas is a closed tableau: its gamma and delta rules are instances, its results are components, its leaves are closed.", "quantifier": "every recorded proof, every substitution of term and type metavariables", "why_tests_cant": "It is about every proof and every substitution; the proof printed is not checked by the tests.", "anchors": ["src/Search/proof.go:ApplySubstitutionOnProofList", "src/Core/substitutions_search.go:ApplySubstitutionsOnFormAndTermsList", "src/Core/substitutions_search.go:ApplySubstitutionsOnFormula", "src/Core/form_and_terms_list.go:AppendIfNotContains", "src/Search/destructive.go:doOneStep"]}
{"id": "C104", "title": "The metavariables given to the printers are those of the proof", "statement": "The set of metavariables that are not instantiated, given to the printers, is the set of those that occur in a formula or a result of a step of the proof printed, in any branch.", "quantifier": "every recorded proof, every substitution", "why_tests_cant": "It is about proofs of any depth.", "anchors": ["src/Search/proof.go:RetrieveUninstantiatedMetaFromProof", "src/Search/destructive.go:doOneStep"]}
{"id": "C105", "title": "A tableau closed by its substitution is translated", "statement": "If the delta rules introduce terms new to their branch, the proof with the final substitution applied is translated, without a crash, to a GS3 proof of its root.", "quantifier": "every recorded proof, every substitution, every setting of the translation", "why_tests_cant": "It is about every proof and every substitution.", "anchors": ["src/Search/proof.go:ApplySubstitutionOnProofList", "src/Mods/gs3/proof.go:MakeGS3Proof", "src/Search/destructive.go:doOneStep"]}
{"id": "C106", "title": "The text of a formula is read as the formula", "statement": "The text printed for an axiom or the conjecture of a TPTP proof, read by the lexer and the FOF grammar of the parser, is the formula itself and no other one.", "quantifier": "every formula, every name and role of the line", "why_tests_cant": "It is about formulas of any depth; the outputs of a few problems do not show what is read.", "anchors": ["src/AST/modular-printing.go:OnFunctionalArgs", "src/AST/quantifiers.go:ToString", "src/AST/formsDef.go:ToString", "src/AST/termsDef.go:ToString", "src/Mods/tptp/proof.go:makeTheorem", "src/Parser/tptp_parse.y:fof_logic_formula"]}
{"id": "C107", "title": "The FOF grammar is not ambiguous", "statement": "A list of tokens is derived as at most one FOF formula, and where a formula ends is determined by the tokens after it.", "quantifier": "every list of tokens", "why_tests_cant": "It is about all the derivations of texts of any length.", "anchors": ["src/Parser/tptp_parse.y:fof_logic_formula", "src/Parser/tptp_parse.y:fof_unit_formula", "src/Parser/tptp_parse.y:fof_term"]}
{"id": "C108", "title": "Different formulas have different texts", "statement": "Two formulas with the same text are the same formula.", "quantifier": "every two formulas", "why_tests_cant": "It is about every pair of formulas.", "anchors": ["src/AST/formsDef.go:ToString", "src/AST/quantifiers.go:ToString", "src/AST/termsDef.go:ToString", "src/AST/printers.go:RemoveSuperfluousParenthesesAction"]}
{"id": "C109", "title": "The equalities and disequalities given to the equality reasoning are those of the branch", "statement": "Every pair of terms retrieved from the tree of positive (negative) literals is, up to the names and the types of metavariables, the two sides of an equality (a disequality) of the branch, and retrieving never stops the prover.", "quantifier": "every list of literals, every state of the counters of metavariables", "why_tests_cant": "The terms are read back from a unifier, and whether it is read well depends on the numbers that the counters have reached, which depend on the whole search before.", "anchors": ["src/Mods/equality/bse/equality_types.go:retrieveEqualities", "src/Mods/equality/bse/equality_types.go:retrieveInequalities", "src/Mods/equality/bse/equality_types.go:orderSubstForRetrieve"]}
{"id": "C110", "title": "A substitution answered by the equality reasoning closes the branch", "statement": "In every algebra with equality and every valuation of the metavariables where the bindings of the substitution hold, the literals of the branch do not all hold.", "quantifier": "every branch of literals, every run of the reasoning (schedules included), every algebra and valuation", "why_tests_cant": "It is about all algebras and all schedules of the rules; a wrong substitution gives an unsound proof only when no other substitution closes the branch.", "anchors": ["src/Mods/equality/bse/equality.go:TryEquality", "src/Mods/equality/bse/equality.go:EqualityReasoning", "src/Mods/equality/bse/equality_problem_list.go:buildEqualityProblemMultiList", "src/Mods/equality/bse/equality_rules_reasoning.go:RunEqualityReasoning", "src/Mods/equality/bse/equality_rules_reasoning.go:Solve"]}
{"id": "C111", "title": "A map of Glob is a finite map", "statement": "After any sequence of Set, Unset and Clear, looking up a key gives the last value set for an equal key since it was last removed; the keys are exactly those with a value, each once; Set answers the value it replaces; CopyInto overrides with every value of the first map; GetKey finds a key of an equal value whenever there is one.", "quantifier": "every sequence of calls, every equivalence on keys", "why_tests_cant": "Two keys may be Equals without being the same; the property is about all histories.", "anchors": ["src/Glob/map.go:getExists", "src/Glob/map.go:set", "src/Glob/map.go:Unset", "src/Glob/map.go:CopyInto", "src/Glob/map.go:GetKey"]}
{"id": "C112", "title": "RemoveAll removes every occurrence of an element and nothing else", "statement": "After RemoveAll, the list is the list of the elements that are not equal to the one removed, in order.", "quantifier": "every list and element", "why_tests_cant": "The faults depend on where the occurrences are in the list.", "anchors": ["src/Glob/list.go:RemoveAll", "src/Glob/list.go:remove"]}
{"id": "C113", "title": "The elements of a set of Glob are distinct", "statement": "No set has two equal elements; adding elements loses none and adds exactly the new ones; ContainsAll decides inclusion.", "quantifier": "every list of elements and every equivalence", "why_tests_cant": "About every sequence of additions and every Equals.", "anchors": ["src/Glob/set.go:NewSet", "src/Glob/set.go:Append", "src/Glob/list.go:AppendIfNotContains", "src/Glob/list.go:ContainsAll"]}
{"id": "C114", "title": "Pairs and triplets are equal when their components are", "statement": "Equals of pairs and triplets compares components with components, in order or, for unordered ones, in some order.", "quantifier": "every pair and triplet of components", "why_tests_cant": "A wrong component is compared only in some triplets.", "anchors": ["src/Glob/pair.go:Equals", "src/Glob/triplet.go:Equals", "src/Glob/triplet.go:containsAll"]}
{"id": "C115", "title": "Union and intersection of integer lists are right and leave other lists alone", "statement": "The result of UnionIntList has the elements of both lists, that of InterIntList the common ones, and no other list changes.", "quantifier": "every memory of arrays, slices in it, and growth policy of append", "why_tests_cant": "Sharing of arrays shows only for some capacities, which the language leaves open.", "anchors": ["src/Glob/int_functions.go:UnionIntList", "src/Glob/int_functions.go:InterIntList", "src/Glob/int_functions.go:AppendIfNotContainsInt"]}
{"id": "C116", "title": "The literals given to the SAT solver stand for their keys", "statement": "Each key of the nine mappings has one literal, shared with no other key of any mapping, which never changes; hence an assignment that satisfies the clauses of literals is read back as one that satisfies the clauses of keys, and the former are unsatisfiable only when the latter are.", "quantifier": "every list of clauses, every sequence of earlier calls, every solver", "why_tests_cant": "About all satisfying assignments of unboundedly many clauses.", "anchors": ["src/Mods/equality/sateq/satbuilder_mappings.go:getIdAndRegister", "src/Mods/equality/sateq/satbuilder.go:addClause", "src/Mods/equality/sateq/lit.go:Not", "src/Mods/equality/sateq/problem.go:solve"]}
{"id": "C117", "title": "The literal of an unordered pair does not depend on the order of the pair", "statement": "Asking for the literal of two classes or two records, in either order, gives the same literal.", "quantifier": "every pair of classes or records", "why_tests_cant": "The faulty pairs are those whose comparison says neither is smaller.", "anchors": ["src/Mods/equality/sateq/termrep.go:makeUnorderedPair", "src/Mods/equality/sateq/termrep.go:CompareTo", "src/Mods/equality/sateq/satbuilder_mappings.go:getVarFromFMapping"]}
{"id": "C118", "title": "The global unifier pairs each substitution sent with the one it was made from", "statement": "When a branch closes, each pair that it adds to the global unifier is a closing substitution and its restriction to the metavariables of the parent, both merged with the substitution applied there.", "quantifier": "every list of closing substitutions, every set of parent metavariables, every applied substitution", "why_tests_cant": "The faulty lists have two substitutions with the same restriction before one with another restriction.", "anchors": ["src/Search/destructive.go:ManageClosureRule", "src/Core/substitutions_search.go:DispatchSubst", "src/Lib/list.go:Add"]}
{"id": "C119", "title": "A branch that closes by itself asks nothing of its parent", "statement": "When a branch answers that it is closed and needs no answer, it can be closed whatever the metavariables of the parent stand for.", "quantifier": "every list of closing substitutions, all values of the metavariables in all algebras", "why_tests_cant": "Needs all values of the metavariables of the parent.", "anchors": ["src/Search/destructive.go:ManageClosureRule", "src/Core/substitutions_search.go:DispatchSubst", "src/Core/substitutions_search.go:RemoveElementWithoutMM"]}
{"id": "C120", "title": "The substitutions sent to the father close the branch, and none is lost", "statement": "Whatever solves a substitution sent to the father also solves the one applied there and closes the branch; whatever closes the branch solves one of those sent; a branch that closes always answers.", "quantifier": "every list of closing substitutions, all values of the metavariables in all algebras", "why_tests_cant": "Unbounded lists of substitutions and unbounded terms.", "anchors": ["src/Search/destructive.go:ManageClosureRule", "src/Core/substitutions_search.go:DispatchSubst", "src/Core/subst_and_form.go:MergeSubstAndForm", "src/Search/children.go:sendSubToFather"]}
{"id": "C121", "title": "The formulas to introduce again are those of the metavariables bound for the father", "statement": "The list of formulas that comes with the substitutions for the father is increasing, without repetition, and has exactly the formulas of the metavariables these substitutions bind.", "quantifier": "every list of closing substitutions", "why_tests_cant": "Unbounded lists.", "anchors": ["src/Search/destructive.go:ManageClosureRule", "src/Search/search.go:retrieveMetaFromSubst", "src/Glob/int_functions.go:UnionIntList"]}
{"id": "C122", "title": "The metavariables read off a substitution are all those it mentions", "statement": "A metavariable is returned exactly if it is bound by a binding of a term or occurs in its term.", "quantifier": "every substitution", "why_tests_cant": "Unbounded depth of the terms.", "anchors": ["src/Core/substitutions_search.go:GetMetaFromSubst"]}
{"id": "C123", "title": "A substitution preferred for having no metavariable of the parent has none", "statement": "If the test says that a substitution contains no metavariable of the parent, it has no binding of a type and none of these metavariables occurs in it.", "quantifier": "every substitution and every set of metavariables", "why_tests_cant": "The missed metavariables are below function symbols.", "anchors": ["src/Core/substitutions_search.go:ContainsMetaMother", "src/Search/destructive.go:chooseSubstitutionDestructive"]}
{"id": "C124", "title": "The variables of a Lambdapi script are in scope and stand for the right hypotheses", "statement": "In a script, every variable that is used is bound above its use, and its last binder gives it the formula it is used as: the formula and its negation for an axiom, the main formula for a rule.", "quantifier": "every GS3 proof and all names left by the scripts made before", "why_tests_cant": "Unbounded depth of the proofs; names are shared between branches.", "anchors": ["src/Mods/lambdapi/proof.go:makeProofStep", "src/Mods/lambdapi/proof.go:closureAxiom", "src/Mods/lambdapi/proof.go:allRules", "src/Mods/lambdapi/utils.go:addToContext"]}
{"id": "C125", "title": "The Lambdapi script of a GS3 proof is accepted", "statement": "With the rules of GS3 as the types of the constants, the term of the script has the type that is stated; and a script that is accepted shows that the statement has no model.", "quantifier": "every GS3 proof", "why_tests_cant": "Unbounded depth of the proofs, all interpretations.", "anchors": ["src/Mods/lambdapi/proof.go:makeLambdaPiProofFromGS3", "src/Mods/lambdapi/proof.go:makeProofStep"]}
{"id": "C126", "title": "The statement of a Lambdapi script is that the formula proved has no model", "statement": "The formula that the statement refutes has no model exactly if the axioms imply the conjecture.", "quantifier": "every formula at the root, all interpretations", "why_tests_cant": "All interpretations; the faulty statements have axioms.", "anchors": ["src/Mods/lambdapi/proof.go:processMainFormula", "src/Mods/lambdapi/proof.go:makeTheorem", "src/Mods/lambdapi/proof.go:makeImpChain"]}
{"id": "C127", "title": "A Lambdapi script declares each symbol once", "statement": "The declarations are those of the function and predicate symbols of the formula, but the equality, each of them once, and those of the metavariables.", "quantifier": "every formula, every way to print a declaration", "why_tests_cant": "Unbounded depth of the formulas.", "anchors": ["src/Mods/lambdapi/context.go:getContextFromFormula", "src/Mods/lambdapi/context.go:getContextFromTerm", "src/Mods/lambdapi/context.go:clean"]}
{"id": "C128", "title": "A name in a Lambdapi script means the symbol it is declared for", "statement": "Every name that is free in the formulas of the script is declared and is not hidden by a variable of the script.", "quantifier": "every GS3 proof", "why_tests_cant": "Unbounded depth; the faulty scripts depend on the names of the symbols.", "anchors": ["src/Mods/lambdapi/proof.go:allRulesQuantUniv", "src/Mods/lambdapi/proof.go:makeProofStep", "src/Mods/lambdapi/utils.go:addToContext"]}
{"id": "C129", "title": "Every GS3 proof is printed as a Lambdapi script", "statement": "The printer does not stop with an error on a proof made by the prover.", "quantifier": "every GS3 proof made from a tableau", "why_tests_cant": "The faulty proofs need rules that are applied again after a delta rule.", "anchors": ["src/Mods/lambdapi/proof.go:makeProofStep", "src/Mods/lambdapi/proof.go:processMainFormula", "src/Mods/gs3/proof.go:MakeGS3Proof"]}
{"id": "C130", "title": "The formula searched says what the problem says", "statement": "From the parsed statements to the search: elaboration, renaming and assembly give a closed formula that binds each variable once, and its models are the interpretations of the names in which the axioms hold and the conjecture does not; the flag for a conjecture is set exactly if there is one.", "quantifier": "every list of statements, all interpretations of the names", "why_tests_cant": "The steps share mutable tables and counters; all interpretations, formulas of any depth.", "anchors": ["src/main.go:presearchLoader", "src/main.go:StatementListToFormula", "src/Engine/syntax-translation.go:ToInternalSyntax", "src/AST/maker.go:Init"]}
{"id": "C131", "title": "When the branches close, the conjecture follows", "statement": "If every branch of the tableau for the loaded formula closes under one substitution, the conjecture holds in every interpretation of the names in which the axioms hold.", "quantifier": "every problem, every run, all interpretations of the names", "why_tests_cant": "Unbounded runs, all interpretations; depends on each step between the text and the search.", "anchors": ["src/main.go:presearchLoader", "src/Search/rules.go:ApplyClosureRules", "src/Search/search.go:Search"]}
{"id": "C132", "title": "A rewriting step keeps the other literals", "statement": "When deduction modulo rewrites a literal of the branch, the child has every formula of the branch except that literal, with the rewritten formula added; when nothing is rewritten the branch is what it would be without rules.", "quantifier": "every branch, every set of rules, every order of the literals", "why_tests_cant": "The loss depends on the order of literals and on which of them the rules match; any number of formulas.", "anchors": ["src/Search/destructive.go:manageRewriteRules", "src/Search/destructive.go:tryRewrite", "src/Search/destructive.go:getAtomicsForDMT"]}
{"id": "C133", "title": "A rewriting step is sound", "statement": "In every model of the axioms of the rules that satisfies the substitution of the step, if the branch holds then the branch of the child holds, for the first candidate and for those tried on backtracking.", "quantifier": "every branch, every set of axioms, all interpretations", "why_tests_cant": "All interpretations; unbounded branches.", "anchors": ["src/Search/destructive.go:tryRewrite", "src/Search/child_management.go:manageBacktrackForDMT", "src/Mods/dmt/rewrite.go:Rewrite"]}
{"id": "C134", "title": "The rewritings of a literal are tried alike", "statement": "Each candidate for the rewriting of a literal is tried once, in order, with the same other formulas, and its child is searched in the same way as the first.", "quantifier": "every branch, every list of candidates", "why_tests_cant": "Only seen when a first rewriting fails; any number of candidates.", "anchors": ["src/Search/child_management.go:manageBacktrackForDMT", "src/Search/destructive.go:getAtomicsForDMT"]}
{"id": "C135", "title": "The recorded rewriting step is the one made", "statement": "The step recorded in the proof has the literal rewritten, the result the child is launched with, and the number of the axiom that justifies it.", "quantifier": "every branch, every list of candidates", "why_tests_cant": "Needs two rules on one predicate; all candidates and interpretations.", "anchors": ["src/Search/destructive.go:tryRewrite", "src/Search/child_management.go:manageBacktrackForDMT", "src/Mods/gs3/sequent.go:setRewrittenWith", "src/Mods/dmt/rewrite.go:addUnifToAtomics"]}
{"id": "C136", "title": "What a node sends to its father comes from its children", "statement": "Each solution of a substitution that a node sends to its father extends to a solution of one of the substitutions its children agree on and of the one applied at the node; and each solution of those solves one that is sent.", "quantifier": "every list of substitutions, every set of metavariables, all interpretations", "why_tests_cant": "All values of the metavariables; any number of substitutions.", "anchors": ["src/Search/child_management.go:passSubstToParent", "src/Core/substitutions_search.go:RemoveElementWithoutMM"]}
{"id": "C137", "title": "A node asks its father for nothing when nothing is needed", "statement": "When the children of a node agree on a substitution that asks nothing of the metavariables of the father, the node reports that it is closed and awaits no answer.", "quantifier": "every list of substitutions", "why_tests_cant": "Depends on the metavariables shared with the father; any number of substitutions.", "anchors": ["src/Search/child_management.go:passSubstToParent"]}
{"id": "C138", "title": "The substitutions a node sends are gathered", "statement": "The substitutions sent are distinct, they are the restrictions of those of the children, and each carries the formulas of all the substitutions of the children that give it.", "quantifier": "every list of substitutions, every merge and restriction", "why_tests_cant": "Any number of substitutions and formulas, and their coincidences.", "anchors": ["src/Search/child_management.go:passSubstToParent", "src/Core/subst_and_form.go:AddFormulas"]}
{"id": "C139", "title": "A node remembers which formulas to introduce again", "statement": "The formulas to introduce again, kept for the answer of the father, are the former ones and those of the metavariables bound by the substitutions sent, each once.", "quantifier": "every list of substitutions, every merge and restriction", "why_tests_cant": "Any number of substitutions.", "anchors": ["src/Search/child_management.go:passSubstToParent", "src/Search/search.go:retrieveMetaFromSubst", "src/Glob/int_functions.go:UnionIntList"]}
{"id": "C140", "title": "A node whose children close by themselves reports its substitution", "statement": "The node sends the substitution applied to it, restricted to the metavariables of the father, and awaits no answer; each solution of what is sent extends to a solution of that substitution.", "quantifier": "every substitution, all interpretations", "why_tests_cant": "All values of the metavariables.", "anchors": ["src/Search/child_management.go:childrenClosedByThemselves"]}
{"id": "C141", "title": "What a node sends closes all its children", "statement": "Each solution of a substitution that a node sends, after choosing what its children agree on, extends to a value that solves one of the substitutions of each child that asked for one.", "quantifier": "every list of answers, all interpretations", "why_tests_cant": "All answers and all values; needs the choice, the merge and the restriction together.", "anchors": ["src/Search/child_management.go:passSubstToParent", "src/Search/destructive.go:selectChildren"]}
{"id": "C142", "title": "What a process reports of the branches under it is true", "statement": "In a tree of processes of any depth, the solutions of each substitution that a process sends close all the branches under it; when it sends none, all values do; a root that reports has all its branches closed.", "quantifier": "every tree of processes, all interpretations", "why_tests_cant": "Any depth and width; all values of the metavariables.", "anchors": ["src/Search/destructive.go:waitChildren", "src/Search/destructive.go:selectChildren", "src/Search/destructive.go:ManageClosureRule", "src/Search/child_management.go:passSubstToParent", "src/Search/child_management.go:childrenClosedByThemselves"]}
{"id": "C143", "title": "One value of the metavariables closes all the branches", "statement": "When the root reports, there is one value of all the metavariables under which every leaf of the tree has a closing substitution that holds, though each node only saw the metavariables it shares with its father.", "quantifier": "every tree of processes, all interpretations", "why_tests_cant": "Any depth and width; the values are chosen separately in each part of the tree.", "anchors": ["src/Search/destructive.go:waitChildren", "src/Search/destructive.go:selectChildren", "src/Search/destructive.go:ManageClosureRule", "src/Search/child_management.go:passSubstToParent", "src/Search/child_management.go:childrenClosedByThemselves"]}
{"id": "C144", "title": "A root that reports shows that the formula has no model", "statement": "When the root of the processes reports that all is closed, and each branch grown from the formula has a leaf working on it, the formula is satisfied in no interpretation.", "quantifier": "every formula, every growth of the branches, every tree of processes, all interpretations", "why_tests_cant": "Infinitely many interpretations; unbounded searches; needs the rules, the closure, the leaves and the nodes together.", "anchors": ["src/Search/destructive.go:waitChildren", "src/Search/destructive.go:selectChildren", "src/Search/destructive.go:ManageClosureRule", "src/Search/child_management.go:passSubstToParent", "src/Search/child_management.go:childrenClosedByThemselves", "src/Search/search.go:PrintSearchResult"]}
{"id": "C145", "title": "A root that reports shows that the conjecture follows", "statement": "When the root of the processes launched on a parsed problem reports that all is closed, the conjecture holds in every interpretation of the names in which the axioms hold.", "quantifier": "every problem, every search, all interpretations", "why_tests_cant": "Infinitely many interpretations; from the statements of the file to the answer of the root.", "anchors": ["src/Search/destructive.go:waitChildren", "src/Search/destructive.go:selectChildren", "src/Search/destructive.go:ManageClosureRule", "src/Search/child_management.go:passSubstToParent", "src/Search/child_management.go:childrenClosedByThemselves", "src/main.go:presearchLoader", "src/Engine/syntax-translation.go:ToInternalSyntax"]}
{"id": "C146", "title": "Applying a substitution keeps what the branch says", "statement": "For the values of the metavariables that obey the substitution, whose terms and types have no bound variable, the formulas of a state after ApplySubstitution hold exactly when those before did.", "quantifier": "every state, every substitution, all interpretations and values", "why_tests_cant": "Infinitely many interpretations; any formulas in any queue.", "anchors": ["src/Search/state.go:ApplySubstitution", "src/Core/substitutions_search.go:ApplySubstitutionsOnFormAndTermsList", "src/Core/substitutions_search.go:ApplySubstitutionsOnFormula", "src/Core/substitutions_search.go:ApplySubstitutionOnMetaGenList"]}
{"id": "C147", "title": "A contradiction found after a substitution is applied closes the branch", "statement": "When the search made after a substitution is applied finds a contradiction, the found substitution together with the applied one closes the branch, and there are values that obey both.", "quantifier": "every state, every applied substitution", "why_tests_cant": "Any terms, any number of literals; the substitution is applied to a part of the occurrences only.", "anchors": ["src/Search/state.go:ApplySubstitution", "src/Core/substitutions_search.go:ApplySubstitutionsOnFormAndTermsList", "src/Core/substitutions_search.go:ApplySubstitutionsOnFormula", "src/Core/substitutions_search.go:ApplySubstitutionOnMetaGenList", "src/Search/destructive.go:searchContradictionAfterApplySusbt", "src/AST/term-list.go:replaceFirstOccurrenceTermList"]}
{"id": "C148", "title": "The proof recorded after several answers of the father is a tableau", "statement": "When a process is answered several times by its father and launches a child at each answer, the proof it records is a tableau above its branch with the last answer applied, if the proof of the last child is one.", "quantifier": "every list of steps made before, every number of answers, every proof of each child", "why_tests_cant": "Any number of answers; it takes a father that goes back on a substitution whose child had already reported a proof.", "anchors": ["src/Search/child_management.go:updateProof", "src/Search/destructive.go:waitFather", "src/Search/state.go:SetProof"]}
