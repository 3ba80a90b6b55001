(** Model of the equality reasoning of src/Mods/equality/bse: rigid basic superposition.

    Goroutines: every rule that applies is tried in its own goroutine and the first one that answers with a solution wins
    (equality_solve_reasoning_problem.go:166-243), so the answers of a problem are a relation ([answer]), with one derivation
    per schedule.  The orders to stop (selectCleanup, 258-267) reach goroutines whose answer is no longer read; they are left out.
    The debug messages are left out. *)
From Coq Require Import ZArith List Bool String.
From Verif Require Import Ast_Model Subst_Model Unif_Model UnifTree_Model Lpo_Model.
Import ListNotations.
Open Scope list_scope.
Open Scope Z_scope.

(** ** Strings *)
(** Lib/list.go ListToString with a separator *)
Fixpoint join (sep : string) (l : list string) : string :=
  match l with
  | [] => ""
  | [a] => a
  | a :: r => a ++ sep ++ join sep r
  end%string.
(** termsDef.go:62, 120-127, 267, 318 ToString with the printer of AST/modular-printing.go:300-304 (the default one): an
    identifier and a metavariable are written as their name (AST/printers.go:73-75), without their index.  modular-printing.go:189-216
    OnFunctionalArgs.  Simplifications: the terms have no type arguments; the infix writing of = is left out (no term has it as
    head); RemoveSuperfluousParenthesesAction changes only names that begin and end with a parenthesis. *)
Fixpoint show (t : term) : string :=
  match t with
  | TId i => id_name i
  | Var _ n => n
  | Meta m => m_name m
  | Fun p _ args =>
    match join ", " (map show args) with
    | EmptyString => id_name p
    | a => (id_name p ++ "(" ++ a ++ ")")%string
    end
  end.

(** ** Constraints *)
(** constraints_type.go:72-74 equals, eqStruct/term_pair.go:80-86 Equals *)
Definition constr_eqb (a b : constr) : bool :=
  Bool.eqb (k_prec a) (k_prec b) && term_eqb (k_left a) (k_left b) && term_eqb (k_right a) (k_right b).
(** constraints_type.go:91-98 applySubstitution *)
Definition apply_all (s : substs) (t : term) : term := fold_left (fun t b => apply_subst_on_term (fst b) (snd b) t) s t.
Definition apply_constr (s : substs) (k : constr) : constr := mkConstr (k_prec k) (apply_all s (k_left k)) (apply_all s (k_right k)).
(** checkLPO, whose Anomaly is [Crash] *)
Definition check_out (k : constr) : out (bool * bool) := match check_lpo k with Some x => Ok x | None => Crash end.

(** constraints_list.go:90-116 isConsistantWithSubst *)
Fixpoint consistent_subst (l : list constr) (s : substs) : out bool :=
  match l with
  | [] => Ok true
  | k :: r => do x <- check_out (apply_constr s k); if snd x && negb (fst x) then Ok false else consistent_subst r s
  end.
(** constraints_type.go:130-153 appendToMapAndCheck: the map from strings to three lists is one list of (string, list, term);
    [None] is the answer false *)
Definition append_check (key : string) (t : term) (i : nat) (m : list (string * nat * term)) : option (list (string * nat * term)) :=
  if existsb (fun e => String.eqb (fst (fst e)) key && negb (Nat.eqb (snd (fst e)) i) && term_eqb (snd e) t) m then None
  else Some (m ++ [(key, i, t)]).
(** constraints_list.go:124-148 checkConstraintList *)
Fixpoint check_list_from (l : list constr) (m : list (string * nat * term)) : bool :=
  match l with
  | [] => true
  | k :: r =>
    let '(i, j) := if k_prec k then (1%nat, 2%nat) else (0%nat, 0%nat) in
    match append_check (show (k_left k)) (k_right k) i m with
    | None => false
    | Some m => match append_check (show (k_right k)) (k_left k) j m with None => false | Some m => check_list_from r m end
    end
  end.
Definition check_list (l : list constr) : bool := check_list_from l [].

(** constraints_struct.go:46-50 ConstraintStruct *)
Record cstruct : Type := mkC { c_all : list constr; c_sub : substs; c_prec : list constr }.
Definition empty_c : cstruct := mkC [] [] [].

(** ** Problems *)
(** equality_problem.go:50-56; E_tree and E_map are computed from the equalities when they are used (133-135) *)
Record problem : Type := mkEP { p_E : list (term * term); p_s : term; p_t : term; p_c : cstruct }.
(** equality_problem.go:138-144 makeDataStructFromEqualities, the formulas *)
Definition eq_items (E : list (term * term)) : list item := flat_map (fun e => [ITerm 0 (fst e); ITerm 0 (snd e)]) E.
(** equality_problem.go:147-173 makeEQMapFromEqualities, the entry of a key.  When both sides have the same string the second
    update of the map overwrites the first *)
Definition e_map (E : list (term * term)) (key : string) : list term :=
  flat_map (fun e =>
    if String.eqb (show (fst e)) (show (snd e)) then (if String.eqb (show (fst e)) key then [fst e] else [])
    else (if String.eqb (show (fst e)) key then [snd e] else []) ++ (if String.eqb (show (snd e)) key then [fst e] else [])) E.

(** termsDef.go:80, 242-251, 287, 353 GetSubTerms, Lib/list.go:197-203 Add *)
Definition add_new (l : list term) (x : term) : list term := if existsb (fun y => term_eqb y x) l then l else l ++ [x].
Fixpoint sub_terms (t : term) : list term :=
  match t with
  | Fun _ _ args => fold_left add_new (flat_map sub_terms args) [t]
  | _ => [t]
  end.

(** rule_struct.go:50-55; the index is that of the equality for a left rule *)
Record rule : Type := mkRule { r_left : bool; r_l : term; r_r : term; r_sub : term; r_s : term; r_t : term; r_smod : bool; r_ix : nat }.
(** eqStruct/term_pair.go:88-92 EqualsModulo *)
Definition eq_modulo (a b c d : term) : bool := term_eqb a c && term_eqb b d || term_eqb a d && term_eqb b c.

Section Bse.
(** AST.MakerId, as in UnifTree_Model.v *)
Variable name_id : string -> ident.
(** the code tree of the terms of the equalities: Unify *)
Variable query : node -> item -> out (list (item * substs)).
(** Unif.AddUnification *)
Variable add : term -> term -> substs -> out substs.
(** the two functions above use fuel for Eliminate *)
Variable fe : nat.

(** constraints_struct.go:118-206 isConsistantWith: [Ok None] is false *)
Definition consistent_with (k : constr) (c : cstruct) : out (option cstruct) :=
  if k_prec k then
    do x <- check_out (apply_constr (c_sub c) k);
    if snd x then Ok (if fst x then Some c else None)
    else
      let p := c_prec c ++ [k] in
      Ok (if check_list p then Some (mkC (c_all c ++ [k]) (c_sub c) p) else None)
  else
    do s0 <- add (k_left k) (k_right k) [];
    if is_failure s0 then Ok None
    else match s0 with
    | [] => Ok (Some c)
    | _ =>
      do s1 <- add (k_left k) (k_right k) (c_sub c);
      if is_failure s1 then Ok None
      else match s1 with
      | [] => Ok (Some c)
      | _ => do b <- consistent_subst (c_prec c) s1; Ok (if b then Some (mkC (c_all c ++ [k]) s1 (c_prec c)) else None)
      end
    end.
(** constraints_struct.go:94-115 appendIfConsistant *)
Definition append_if (k : constr) (c : cstruct) : out (option cstruct) :=
  if existsb (constr_eqb k) (c_all c) then Ok (Some c) else consistent_with k c.

(** equality_rules_apply.go:131-157 applyEQRule *)
Definition eq_rule (l r sub s t : term) (c : cstruct) : out (option (term * cstruct)) :=
  let new := replace_sub sub r s in
  do c1 <- append_if (mkConstr true r l) c;
  match c1 with
  | None => Ok None
  | Some c1 =>
    do c2 <- append_if (mkConstr true t s) c1;
    match c2 with
    | None => Ok None
    | Some c2 =>
      do c3 <- append_if (mkConstr false l sub) c2;
      Ok (match c3 with None => None | Some c3 => Some (new, c3) end)
    end
  end.
(** equality_rules_apply.go:48-122 applyRule, applyLeftRule, applyRightRule, up to the call of tryEqualityReasoningProblem:
    the next problem, and the equality a left rule worked on *)
Definition apply_rule (u : rule) (ep : problem) : out (option (problem * option nat)) :=
  do x <- eq_rule (r_l u) (r_r u) (r_sub u) (r_s u) (r_t u) (p_c ep);
  Ok (match x with
      | None => None
      | Some (new, c) =>
        if r_left u then
          Some (mkEP (set_nth (r_ix u) (if r_smod u then (new, r_t u) else (r_s u, new)) (p_E ep)) (p_s ep) (p_t ep) c, Some (r_ix u))
        else
          Some (if r_smod u then mkEP (p_E ep) new (r_t u) c else mkEP (p_E ep) (r_s u) new c, None)
      end).

(** equality_rules_try_apply.go:178-239 searchUnifBewteenListAndEq, checkUnifInTree *)
Fixpoint search_pairs (k : node) (l : list term) : out (list (term * term)) :=
  match l with
  | [] => Ok []
  | a :: r =>
    do here <- (if is_meta a then Ok []
                else do res <- query k (ITerm 0 a);
                     Ok (flat_map (fun x => match fst x with ITerm _ u => [(a, u)] | _ => [] end) res));
    do rest <- search_pairs k r;
    Ok (here ++ rest)
  end.
(** equality_rules_try_apply.go:94-175 tryApplyRuleCompute, connectLAndR, with 82-91 tryApplyRuleAux *)
Definition try_rule (E : list (term * term)) (left : bool) (smod : bool) (ix : nat) (s t : term) : out (list rule) :=
  match make_tree name_id (eq_items E) with
  | None => Crash
  | Some k =>
    do ps <- search_pairs k (sub_terms s);
    Ok (flat_map (fun p => flat_map (fun r =>
          if negb (eq_modulo s t (snd p) r) || negb left then [mkRule left (snd p) r (fst p) s t smod ix] else [])
          (e_map E (show (snd p)))) ps)
  end.
(** equality_rules_try_apply.go:68-79 tryApplyRightRules *)
Definition right_rules (ep : problem) : out (list rule) :=
  do a <- try_rule (p_E ep) false true 0 (p_s ep) (p_t ep);
  do b <- try_rule (p_E ep) false false 0 (p_t ep) (p_s ep);
  Ok (a ++ b).
(** equality_rules_try_apply.go:49-65 tryApplyLeftRules *)
Fixpoint left_rules_from (E todo : list (term * term)) (i : nat) : out (list rule) :=
  match todo with
  | [] => Ok []
  | e :: r =>
    do a <- try_rule E true true i (fst e) (snd e);
    do b <- try_rule E true false i (snd e) (fst e);
    do rest <- left_rules_from E r (S i);
    Ok (a ++ b ++ rest)
  end.
Definition left_rules (ep : problem) (from : nat) : out (list rule) := left_rules_from (p_E ep) (skipn from (p_E ep)) from.

(** equality_rules_utils.go:70-112 tryUnifySAndT, checkUnif: at most one substitution *)
Definition check_unif (ep : problem) : out (list substs) :=
  do s0 <- add (p_s ep) (p_t ep) [];
  if is_failure s0 then Ok []
  else
    do s1 <- add (p_s ep) (p_t ep) (c_sub (p_c ep));
    if is_failure s1 then Ok []
    else do b <- consistent_subst (c_prec (p_c ep)) s1; Ok (if b then [s1] else []).
(** equality_solve_reasoning_problem.go:88-94: only after a right rule (and at the start) *)
Definition checked (ep : problem) (last : option nat) : out (list substs) :=
  match last with None => check_unif ep | Some _ => Ok [] end.

(** Unif/substitutions_type.go:178-203 AppendIfNotContainsSubst *)
Definition dedup (l : list substs) : list substs :=
  fold_left (fun acc s => if existsb (substs_eqb s) acc then acc else acc ++ [s]) l [].

(** the rules through which a solution may come: all of them in the prover *)
Variable allowed : rule -> bool.

(** equality_solve_reasoning_problem.go:82-121 equalityReasoningProblem, 126-184 manageRLRules and manageRule, 189-243
    selectAnswerEP, applyRule.  [answer ep last found substs]: a possible answer; [last] is the index of the equality when
    the last rule is a left one. *)
Inductive answer : problem -> option nat -> bool -> list substs -> Prop :=
| ans_stop ep last u : checked ep last = Ok u -> term_eqb (p_s ep) (p_t ep) = true -> answer ep last true u
| ans_rules ep last u b l : checked ep last = Ok u -> term_eqb (p_s ep) (p_t ep) = false -> rules ep last b l ->
    answer ep last (nonempty u || b) (u ++ l)
with rules : problem -> option nat -> bool -> list substs -> Prop :=
| rules_right ep last rs l : right_rules ep = Ok rs -> managed ep rs true l -> rules ep last true l
| rules_left ep last rs rs' b l : right_rules ep = Ok rs -> managed ep rs false [] ->
    left_rules ep (match last with Some i => i | None => 0%nat end) = Ok rs' -> managed ep rs' b l -> rules ep last b l
with managed : problem -> list rule -> bool -> list substs -> Prop :=
| man_found ep rs u l : In u rs -> allowed u = true -> child ep u true l -> managed ep rs true (dedup l)
| man_none ep rs (ls : rule -> list substs) : (forall u, In u rs -> child ep u false (ls u)) -> managed ep rs false []
with child : problem -> rule -> bool -> list substs -> Prop :=
| child_reject ep u : apply_rule u ep = Ok None -> child ep u false []
| child_next ep u ep' last b l : apply_rule u ep = Ok (Some (ep', last)) -> answer ep' last b l -> child ep u b l.

(** ** Several goals *)
(** equality_problem.go:92-110 applySubstitution *)
Definition apply_problem (s : substs) (ep : problem) : problem :=
  mkEP (map (fun e => (apply_all s (fst e), apply_all s (snd e))) (p_E ep)) (apply_all s (p_s ep)) (apply_all s (p_t ep)) empty_c.
(** equality_rules_reasoning.go:191-201: MergeSubstitutions; a common key and a failure are Anomalies ([merged] does not hold).  A key
    is looked up in [s] itself, not in [s] extended with the bindings before it *)
Definition merged (s e m : substs) : Prop :=
  merge fe add s e = Ok m /\ is_failure m = false /\ (s <> [] -> forall k t, In (k, t) e -> has_subst s k = false).
(** equality_rules_reasoning.go:178-207 manageEqualityReasoningProblem, the loop *)
Inductive each (ep : problem) : list substs -> list substs -> Prop :=
| each_nil : each ep [] []
| each_cons s sl b l ms res : answer (apply_problem s ep) None b l -> Forall2 (merged s) l ms -> each ep sl res ->
    each ep (s :: sl) (ms ++ res).
(** equality_rules_reasoning.go:149-175 equalityReasoningList, when it answers true; the second argument is substs_res *)
Inductive goals : list problem -> list substs -> list substs -> Prop :=
| goals_nil sl : goals [] sl sl
| goals_first ep r b l res : answer ep None b l -> l <> [] -> goals r l res -> goals (ep :: r) [] res
| goals_next ep r s sl l res : each ep (s :: sl) l -> l <> [] -> goals r l res -> goals (ep :: r) (s :: sl) res.
(** equality_problem.go:123-131 makeEqualityProblemList *)
Definition problems (E : list (term * term)) (gs : list (term * term)) : list problem :=
  map (fun g => mkEP E (fst g) (snd g) empty_c) gs.
End Bse.
