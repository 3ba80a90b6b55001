(** Model of the equality problems of a branch: how src/Mods/equality/bse reads the equalities, the disequalities and the
    complementary predicates from the indexes of a branch, and what it answers (equality_types.go, equality_problem_list.go, equality.go,
    equality_rules_reasoning.go).

    The counters are explicit: [ct] is cpt_term (AST/maker.go:47), which numbers the metavariables of terms, and [cm] is count_meta
    (AST/ty-syntax.go:49), which numbers those of types.  Both are global; here no other goroutine takes a number in between.  The number of
    occurrences of a metavariable name (maker.go:132-152) plays no part and is 0.  The struct of the state is always a copy of an empty one
    (Search/state.go:144-146, 290, 405), so every call starts from no assumption and no goal.  Debug messages are left out. *)
From Coq Require Import ZArith List Bool String.
From Verif Require Import Ast_Model Unif_Model UnifTree_Model Closure_Model Lpo_Model Bse_Model.
Import ListNotations.
Open Scope list_scope.
Open Scope Z_scope.

(** equality_types.go:151-169 orderSubstForRetrieve, the loop; [None] is the Anomaly *)
Fixpoint order_loop (m1 m2 : meta) (s res : substs) : option substs :=
  match s with
  | [] => Some res
  | (k, v) :: r =>
    if negb (meta_eqb k m1) && negb (meta_eqb k m2) then
      match v with
      | Meta x => order_loop m1 m2 r (sset res x (Meta k))
      | _ => None
      end
    else order_loop m1 m2 r (sset res k v)
  end.
(** the pattern of equality_types.go:88-99 and 122-133: an equality between two new metavariables of a new type *)
Definition eq_pattern (id_eq : ident) (ty_name n1 n2 : string) (ct cm : Z) : item * meta * meta :=
  let a := TyMeta ty_name cm (-1) in
  let m1 := mkMeta ct 0 n1 (-1) a in
  let m2 := mkMeta (ct + 1) 0 n2 (-1) a in
  (IPred 0 id_eq [a] [Meta m1; Meta m2], m1, m2).
(** equality_problem_list.go:171-174 buildEqualityProblemListFrom2Pred: the pairs of arguments; [None] is an index out of range *)
Fixpoint pairs (l1 l2 : list term) : option (list (term * term)) :=
  match l1, l2 with
  | [], _ => Some []
  | a :: r, b :: q => option_map (cons (a, b)) (pairs r q)
  | _ :: _, [] => None
  end.
(** equality_problem_list.go:200-202: one new metavariable for each argument (the metavariables are all different, so ListAdd keeps them all) *)
Fixpoint patterns (ct : Z) (args : list term) (tys : list ty) : option (list term) :=
  match args, tys with
  | [], _ => Some []
  | a :: r, t :: q => option_map (cons (Meta (mkMeta ct 0 ("METAEQ_" ++ show a) (-1) t))) (patterns (ct + 1) r q)
  | _ :: _, [] => None
  end.
(** Glob/list.go AppendIfNotContains, with the Equals of the elements *)
Definition add_absent {A} (eqb : A -> A -> bool) (l : list A) (x : A) : list A := if existsb (fun y => eqb y x) l then l else l ++ [x].
(** eqStruct/term_pair.go:80-86 Equals *)
Definition pair_eqb (x y : term * term) : bool := term_eqb (fst x) (fst y) && term_eqb (snd x) (snd y).

Section EqBuild.
Variable id_eq : ident.
(** maker.go:90-99 MakerId *)
Variable name_id : string -> ident.
(** the number of type variables of a symbol, for the conversion of the answers (Closure_Model.v) *)
Variable ty_arity : string -> nat.
(** equality_problem_list.go:190-198: the types of the arguments of a predicate, from the typing environment or $i *)
Variable arg_tys : ident -> list ty -> list term -> list ty.
(** Node.Unify, before the conversion into mixed substitutions *)
Variable query : node -> item -> out (list (item * substs)).
(** AddUnification *)
Variable add : term -> term -> substs -> out substs.
(** the number of rounds of Eliminate *)
Variable fe : nat.
(** the rules of the superposition that are run *)
Variable allowed : rule -> bool.

(** equality_types.go:103-112, 137-146: one answer of the index.  The conversion to mixed substitutions (matching.go:63) and back
    (MatchingSubstitutions().GetSubst()) leaves out the bindings of types. *)
Definition read_answer (m1 m2 : meta) (s : substs) : out (term * term) :=
  match to_mixed ty_arity s with
  | None => Crash
  | Some l =>
    match order_loop m1 m2 (term_part l) [] with
    | None => Crash
    | Some o =>
      do o <- elim_out fe o;
      match sget o m1, sget o m2 with
      | Some (a, _), Some (b, _) => Ok (a, b)
      | _, _ => Crash
      end
    end
  end.
Fixpoint read_all (m1 m2 : meta) (l : list (item * substs)) : out (list (term * term)) :=
  match l with
  | [] => Ok []
  | (_, s) :: r => do p <- read_answer m1 m2 s; do q <- read_all m1 m2 r; Ok (p :: q)
  end.
(** equality_types.go:85-115 retrieveEqualities, 118-148 retrieveInequalities *)
Definition retrieve (ty_name n1 n2 : string) (k : node) (ct cm : Z) : out (list (term * term)) :=
  let '(q, m1, m2) := eq_pattern id_eq ty_name n1 n2 ct cm in do l <- query k q; read_all m1 m2 l.
Definition retrieve_eqs : node -> Z -> Z -> out (list (term * term)) := retrieve "META_TY_EQ" "METAEQ1" "METAEQ2".
Definition retrieve_neqs : node -> Z -> Z -> out (list (term * term)) := retrieve "META_TY_NEQ" "META_NEQ_1" "META_NEQ_2".

(** equality_problem_list.go:178-218 buildEqualityProblemMultiListFromPredList, the goals; the equalities are the same in all problems *)
Fixpoint complements (args : list term) (l : list (item * substs)) : out (list (list (term * term))) :=
  match l with
  | [] => Ok []
  | (IPred _ _ _ args', _) :: r =>
    match pairs args args' with
    | None => Crash
    | Some g => do gs <- complements args r; Ok (g :: gs)
    end
  | (ITerm _ _, _) :: _ => Crash
  end.
Definition goals_of_pred (kn : node) (ct : Z) (p : ident) (tys : list ty) (args : list term) : out (list (list (term * term))) :=
  match patterns ct args (arg_tys p tys args) with
  | None => Crash
  | Some ms =>
    do l <- query kn (IPred 0 p tys ms);
    match all_some (map (fun x => to_mixed ty_arity (snd x)) l) with None => Crash | Some _ => complements args l end
  end.
(** equality_problem_list.go:221-234 buildEqualityProblemMultiListFromFormList *)
Fixpoint goals_of_forms (kn : node) (ct : Z) (fl : list form) : out (list (list (term * term))) :=
  match fl with
  | [] => Ok []
  | Pred _ p tys args :: r =>
    if id_eqb p id_eq then goals_of_forms kn ct r
    else do g <- goals_of_pred kn ct p tys args;
         do gs <- goals_of_forms kn (ct + Z.of_nat (List.length args)) r; Ok (g ++ gs)
  | _ :: r => goals_of_forms kn ct r
  end.
(** equality_problem_list.go:240-261 buildEqualityProblemMultiList; [None]: no equality or no goal *)
Definition build (fl : list form) (kp kn : node) (ct cm : Z) : out (option (list (term * term) * list (list (term * term)))) :=
  do E <- retrieve_eqs kp ct cm;
  match E with
  | [] => Ok None
  | _ =>
    do N <- retrieve_neqs kn (ct + 2) (cm + 1);
    do G <- goals_of_forms kn (ct + 4) fl;
    match map (fun x => [x]) N ++ G with
    | [] => Ok None
    | gs => Ok (Some (E, gs))
    end
  end.

(** equality_rules_reasoning.go:64-73 AddAssumption, AddGoal; 131-144 RunEqualityReasoning, before Solve *)
Definition assumptions (E : list (term * term)) : list (term * term) := fold_left (add_absent pair_eqb) E [].
Definition goal_list (gs : list (list (term * term))) : list (list (term * term)) :=
  fold_left (fun l g => add_absent (list_eqb pair_eqb) l (fold_left (add_absent pair_eqb) g [])) gs [].
(** equality_rules_reasoning.go:149-175 equalityReasoningList, when it answers false *)
Inductive fails : list problem -> list substs -> Prop :=
| fails_first ep r b : answer name_id query add allowed ep None b [] -> fails (ep :: r) []
| fails_next ep r s sl : each name_id query add fe allowed ep (s :: sl) [] -> fails (ep :: r) (s :: sl)
| fails_later ep r b l : answer name_id query add allowed ep None b l -> l <> [] -> fails r l -> fails (ep :: r) []
| fails_further ep r s sl l : each name_id query add fe allowed ep (s :: sl) l -> l <> [] -> fails r l -> fails (ep :: r) (s :: sl).
(** equality_rules_reasoning.go:75-113 Solve *)
Inductive solve (E : list (term * term)) : list (list (term * term)) -> list substs -> bool -> list substs -> Prop :=
| solve_nil acc : solve E [] acc false acc
| solve_yes g gs acc l b res : goals name_id query add fe allowed (problems E g) [] l ->
    solve E gs (fold_left (add_absent substs_eqb) l acc) b res -> solve E (g :: gs) acc true res
| solve_no g gs acc b res : fails (problems E g) [] -> solve E gs acc b res -> solve E (g :: gs) acc b res.
(** equality.go:107-115 EqualityReasoning with equality_rules_reasoning.go:130-147 RunEqualityReasoning.  The assumptions are those of the first problem of the first list:
    when that list is empty the index is out of range, and there is no answer. *)
Inductive reasoning (fl : list form) (kp kn : node) (ct cm : Z) : bool -> list substs -> Prop :=
| reasoning_none : build fl kp kn ct cm = Ok None -> reasoning fl kp kn ct cm false []
| reasoning_some E g gs b res : build fl kp kn ct cm = Ok (Some (E, g :: gs)) -> g <> [] ->
    solve (assumptions E) (goal_list (g :: gs)) [] b res -> reasoning fl kp kn ct cm b res.
End EqBuild.
