(** Model of the incremental search: src/Search/incremental (option -incr, options.go:370-377).

    Simplifications:
    - a goroutine that runs doSearch or doKeepGoing runs to its end without interruption; which of the pending goroutines runs
      next is not fixed.  The first child of a node, searched by the goroutine of its father (searchNode.go:86-92), is treated
      as the others: its father does nothing after it;
    - the copies of slices and of substitutions are values (the slices are copied before they are changed:
      rulesManager.go:66-73, substitution.go:134-136);
    - the identifiers of the nodes, the recording and the printing of the proof are left out;
    - an index out of range or a nil dereference is [Crash]. *)
From Coq Require Import ZArith List Bool String.
From Verif Require Import LibSet_Model Ast_Model Problem_Model Rules_Model Unif_Model UnifTree_Model Closure_Model.
Import ListNotations.
Open Scope list_scope.
Open Scope Z_scope.

(** ** Substitutions: substitution.go *)
(** 48-52, 13, 19-22: a list of bindings, [None] is anyTerm.  SubJoker is recognised by its address: an empty list of bindings
    is another substitution. *)
Definition single : Type := meta * option term.
Inductive sub : Type := Joker | Sub (l : list single).
Definition every (s : sub) : list single := match s with Joker => [] | Sub l => l end.
(** 15-17, 36-38 *)
Definition single_eqb (a b : single) : bool :=
  meta_eqb (fst a) (fst b) &&
  match snd a, snd b with None, None => true | Some t, Some u => term_eqb t u | _, _ => false end.
(** 58-68 NewFromOldSub *)
Definition from_old (s : substs) : sub := Sub (map (fun b => (fst b, Some (snd b))) s).
(** 74-82 containsMeta *)
Definition contains_meta (s : sub) (m : meta) : option single := List.find (fun b => meta_eqb (fst b) m) (every s).
(** 118-132 isCompatibleWith *)
Definition compatible (s o : sub) : bool :=
  match s, o with
  | Joker, _ | _, Joker => true
  | _, _ =>
    forallb (fun b => match contains_meta o (fst b) with
                      | None => true
                      | Some c => match snd c, snd b with Some u, Some t => term_eqb u t | _, _ => true end
                      end) (every s)
  end.
(** 84-116 buildCompatibleWith; the copies of SubJoker are not SubJoker *)
Definition build (s o : sub) : option sub :=
  match s, o with
  | Joker, _ => Some (Sub (every o))
  | _, Joker => Some (Sub (every s))
  | _, _ =>
    if compatible s o then
      Some (Sub (map (fun b => match snd b with
                               | Some _ => b
                               | None => match contains_meta o (fst b) with Some c => c | None => b end
                               end) (every s) ++
                 filter (fun c => match contains_meta s (fst c) with Some _ => false | None => true end) (every o)))
    else None
  end.
(** 138-158 Equals *)
Definition sub_eqb (s o : sub) : bool :=
  Nat.eqb (List.length (every s)) (List.length (every o)) &&
  forallb (fun a => existsb (single_eqb a) (every o)) (every s).
(** substitutionList.go:15-33 AppendIfNotContains, Contains *)
Definition sl_contains (l : list sub) (o : sub) : bool := existsb (fun e => sub_eqb e o) l.
Definition sl_add (l : list sub) (o : sub) : list sub := if sl_contains l o then l else l ++ [o].
Definition sl_append (l os : list sub) : list sub := fold_left sl_add os l.
(** 222-234 getCompatibleBetween *)
Definition compat_between (l r : list sub) : list sub :=
  fold_left (fun acc s => fold_left (fun acc o => match build s o with Some x => sl_add acc x | None => acc end) r acc) l [].
(** Lib/list.go:205-209 ListAdd *)
Definition meta_add (l : list meta) (m : meta) : list meta := if existsb (fun x => meta_eqb x m) l then l else l ++ [m].
(** 236-263 addMissingMetas *)
Definition add_missing (l : list sub) (metas : list meta) : list sub :=
  match metas, l with
  | [], _ | _, [] => l
  | _, _ =>
    let metas := fold_left (fun ms s => fold_left meta_add (map fst (every s)) ms) l metas in
    fold_left (fun acc s =>
      sl_add acc (Sub (every s ++ map (fun m => (m, None))
                         (filter (fun m => match contains_meta s m with Some _ => false | None => true end) metas)))) l []
  end.
(** subsManager.go:80-90 getCompatibleSubs *)
Definition compat_all (closing : list (list sub)) (metas : list meta) : out (list sub) :=
  match closing with
  | [] => Crash
  | c :: r => Ok (add_missing (fold_left compat_between r c) metas)
  end.

(** ** Rules: rules.go *)
(** the types of rules, 160-494, and the choice of makeCorrectRule, 76-148 *)
Inductive rtype : Type :=
| RPred | RNotPred | RTop | RNotTop | RBot | RNotBot | RAlphaAnd | RAlphaNotNot | RAlphaNotOr | RAlphaNotImp
| RBetaNotAnd | RBetaNotEqu | RBetaOr | RBetaImp | RBetaEqu | RGammaNotExists | RGammaForall | RDeltaNotForall | RDeltaExists.
Definition make_rule (f : form) : rtype :=
  match f with
  | Pred _ _ _ _ => RPred | Top _ => RTop | Bot _ => RBot | And _ _ => RAlphaAnd | Or _ _ => RBetaOr | Imp _ _ _ => RBetaImp
  | Equ _ _ _ => RBetaEqu | All _ _ _ => RGammaForall | Ex _ _ _ => RDeltaExists
  | Not _ g =>
    match g with
    | Pred _ _ _ _ => RNotPred | Top _ => RNotTop | Bot _ => RNotBot | Not _ _ => RAlphaNotNot | And _ _ => RBetaNotAnd
    | Or _ _ => RAlphaNotOr | Imp _ _ _ => RAlphaNotImp | Equ _ _ _ => RBetaNotEqu | All _ _ _ => RDeltaNotForall
    | Ex _ _ _ => RGammaNotExists
    end
  end.
(** A value has an interface type when its type has all the methods of the interface, with the same signatures (The Go
    Programming Language Specification, "Implementing an interface").  Methods and signatures as written in the source; those
    of the embedded AnyRule (45-74) are promoted. *)
Definition signature : Type := (string * string)%type.
Definition rule_methods : list signature :=
  [("apply", "() []RuleList"); ("GetForm", "() AST.Form"); ("GetTerms", "() Lib.List[AST.Term]");
   ("ToFormula", "() Core.FormAndTerms"); ("Equals", "(any) bool"); ("GetRuleStrings", "() (string, string)")]%string.
(** 376-381 GammaRule *)
Definition gamma_interface : list signature :=
  rule_methods ++
  [("Copy", "() GammaRule"); ("getGeneratedMetas", "() Lib.List[AST.Meta]"); ("getVarList", "() []AST.Var")]%string.
(** 388-422, 429-461 *)
Definition methods (t : rtype) : list signature :=
  match t with
  | RGammaNotExists | RGammaForall =>
    rule_methods ++
    [("Copy", "() GammaRule"); ("getGeneratedMetas", "() Lib.List[AST.Meta]"); ("getVarList", "() Lib.List[AST.TypedVar]")]%string
  | _ => rule_methods
  end.
Definition signature_eqb (a b : signature) : bool := String.eqb (fst a) (fst b) && String.eqb (snd a) (snd b).
Definition implements (t : rtype) (i : list signature) : bool := forallb (fun m => existsb (signature_eqb m) (methods t)) i.
(** the test [case GammaRule] of rulesManager.go:128 and 241, searchNode.go:147 *)
Definition is_gamma (x : fat) : bool := implements (make_rule (ft_form x)) gamma_interface.
(** searchNode.go:150 *)
Definition is_beta (x : fat) : bool :=
  match make_rule (ft_form x) with
  | RBetaEqu | RBetaImp | RBetaNotAnd | RBetaNotEqu | RBetaOr => true
  | _ => false
  end.
(** 57-62 Equals *)
Definition rule_eqb (a b : fat) : bool := list_eqb term_eqb (ft_terms a) (ft_terms b) && form_eqb (ft_form a) (ft_form b).

(** 245-249, 286-288: the loops on negated formulas *)
Fixpoint negs (fs : list form) (terms : list term) (g : gen) : list fat * gen :=
  match fs with
  | [] => ([], g)
  | f :: r => let '(nf, g1) := maker_not f g in let '(l, g2) := negs r terms g1 in (mkFat nf terms :: l, g2)
  end.
(** 154-499 apply: the new rules of each branch, the metavariables made; instanciation.go and skolemisation.go are in
    Rules_Model.v.  The delta rules use the metavariables of the formula (471, 490). *)
Definition apply_rule (x : fat) (s : sko) (g : gen) : option (list (list fat) * list meta * sko * gen) :=
  let ts := ft_terms x in
  match ft_form x with
  | And _ fs => Some ([map (fun f => mkFat f ts) fs], [], s, g)
  | Not _ (Not _ f) => Some ([[mkFat f ts]], [], s, g)
  | Not _ (Or _ fs) => let '(l, g1) := negs fs ts g in Some ([l], [], s, g1)
  | Not _ (Imp _ a b) => let '(nb, g1) := maker_not b g in Some ([[mkFat a ts; mkFat nb ts]], [], s, g1)
  | Not _ (And _ fs) => let '(l, g1) := negs fs ts g in Some (map (fun y => [y]) l, [], s, g1)
  | Not _ (Equ _ a b) =>
    let '(na, g1) := maker_not a g in let '(nb, g2) := maker_not b g1 in
    Some ([[mkFat na ts; mkFat b ts]; [mkFat a ts; mkFat nb ts]], [], s, g2)
  | Or _ fs => Some (map (fun f => [mkFat f ts]) fs, [], s, g)
  | Imp _ a b => let '(na, g1) := maker_not a g in Some ([[mkFat na ts]; [mkFat b ts]], [], s, g1)
  | Equ _ a b =>
    let '(na, g1) := maker_not a g in let '(nb, g2) := maker_not b g1 in
    Some ([[mkFat na ts; mkFat nb ts]; [mkFat a ts; mkFat b ts]], [], s, g2)
  | All _ _ _ | Not _ (Ex _ _ _) =>
    match apply_gamma x 42 g with
    | None => None
    | Some (y, m, g1) =>
      let metas := match m with Some m => [m] | None => [] end in
      Some ([[mkFat (ft_form y) (fold_left term_list_add (map Meta metas) ts)]], metas, s, g1)
    end
  | Ex _ _ _ | Not _ (All _ _ _) =>
    match form_metas (ft_form x) with
    | None => None
    | Some metas =>
      match skolemize s (ft_form x) metas g with
      | None => None
      | Some (f, s1, g1) => Some ([[mkFat f ts]], [], s1, g1)
      end
    end
  | Pred _ _ _ _ | Top _ | Bot _ | Not _ (Pred _ _ _ _) | Not _ (Top _) | Not _ (Bot _) => Some ([[x]], [], s, g)
  end.

(** ** Rule managers: rulesManager.go, reintroList.go *)
(** rulesManager.go:11-25; reintroList.go:9-12: the rules and their counters *)
Record mgr : Type := mkMgr
  { mg_pos : list fat; mg_neg : list fat; mg_alpha : list fat; mg_beta : list fat; mg_gamma : list fat; mg_delta : list fat;
    mg_reintro : list (fat * Z); mg_metas : list meta }.
Definition empty_mgr : mgr := mkMgr [] [] [] [] [] [] [] [].
(** Glob/utils.go:46-63 AppendIfNotContains *)
Definition rl_append (l : list fat) (x : fat) : list fat := if existsb (fun e => rule_eqb e x) l then l else l ++ [x].
(** 42-64 insertIntoCorrectSlice *)
Definition insert_rule (m : mgr) (x : fat) : mgr :=
  match kind_of_rule (ft_form x) with
  | KAtomic =>
    match ft_form x with
    | Not _ _ => mkMgr (mg_pos m) (rl_append (mg_neg m) x) (mg_alpha m) (mg_beta m) (mg_gamma m) (mg_delta m) (mg_reintro m) (mg_metas m)
    | _ => mkMgr (rl_append (mg_pos m) x) (mg_neg m) (mg_alpha m) (mg_beta m) (mg_gamma m) (mg_delta m) (mg_reintro m) (mg_metas m)
    end
  | KAlpha => mkMgr (mg_pos m) (mg_neg m) (rl_append (mg_alpha m) x) (mg_beta m) (mg_gamma m) (mg_delta m) (mg_reintro m) (mg_metas m)
  | KBeta => mkMgr (mg_pos m) (mg_neg m) (mg_alpha m) (rl_append (mg_beta m) x) (mg_gamma m) (mg_delta m) (mg_reintro m) (mg_metas m)
  | KGamma => mkMgr (mg_pos m) (mg_neg m) (mg_alpha m) (mg_beta m) (rl_append (mg_gamma m) x) (mg_delta m) (mg_reintro m) (mg_metas m)
  | KDelta => mkMgr (mg_pos m) (mg_neg m) (mg_alpha m) (mg_beta m) (mg_gamma m) (rl_append (mg_delta m) x) (mg_reintro m) (mg_metas m)
  end.
(** rules.go:525-533 RemoveIfContains *)
Fixpoint rl_remove (l : list fat) (x : fat) : list fat :=
  match l with
  | [] => []
  | y :: r => if rule_eqb y x then r else y :: rl_remove r x
  end.
(** 75-82 removeRule *)
Definition remove_rule (m : mgr) (x : fat) : mgr :=
  mkMgr (rl_remove (mg_pos m) x) (rl_remove (mg_neg m) x) (rl_remove (mg_alpha m) x) (rl_remove (mg_beta m) x)
    (rl_remove (mg_gamma m) x) (rl_remove (mg_delta m) x) (mg_reintro m) (mg_metas m).
(** 31-33 *)
Definition only_reintro (m : mgr) : bool :=
  match mg_alpha m, mg_beta m, mg_gamma m, mg_delta m with [], [], [], [] => true | _, _, _, _ => false end.
(** reintroList.go:14-19 AddReintro *)
Definition add_reintro (l : list (fat * Z)) (x : fat) : list (fat * Z) :=
  if existsb (fun e => rule_eqb (fst e) x) l then l else l ++ [(x, 0)].
(** 66-73, 233-248: the manager of a branch, [m] as the previous branches left it *)
Definition branch_mgr (m : mgr) (x : fat) (metas : list meta) (new : list fat) : mgr :=
  let c := remove_rule (mkMgr (mg_pos m) (mg_neg m) (mg_alpha m) (mg_beta m) (mg_gamma m) (mg_delta m) [] []) x in
  let c := fold_left insert_rule new c in
  mkMgr (mg_pos c) (mg_neg c) (mg_alpha c) (mg_beta c) (mg_gamma c) (mg_delta c)
    (if is_gamma x then add_reintro (mg_reintro m) x else mg_reintro m)
    (if is_gamma x then mg_metas m ++ metas else mg_metas m).
(** what the rule does to the list of its own manager, 243; nothing when there is no branch *)
Definition applied_mgr (m : mgr) (x : fat) (new : list (list fat)) : mgr :=
  match new with
  | [] => m
  | _ => mkMgr (mg_pos m) (mg_neg m) (mg_alpha m) (mg_beta m) (mg_gamma m) (mg_delta m)
           (if is_gamma x then add_reintro (mg_reintro m) x else mg_reintro m) (mg_metas m)
  end.
(** 229-252 tryToApply on the first rule of a list *)
Record applied : Type := mkApplied
  { ap_rule : fat; ap_metas : list meta; ap_self : mgr; ap_new : list mgr; ap_sko : sko; ap_gen : gen }.
Definition try_to_apply (m : mgr) (category : list fat) (s : sko) (g : gen) : out (option applied) :=
  match category with
  | [] => Ok None
  | x :: _ =>
    match apply_rule x s g with
    | None => Crash
    | Some (news, metas, s1, g1) =>
      Ok (Some (mkApplied x metas (applied_mgr m x news) (map (branch_mgr m x metas) news) s1 g1))
    end
  end.
(** 97-120 applyNonClosureRule *)
Definition apply_non_closure (m : mgr) (s : sko) (g : gen) : out (option applied) :=
  try_to_apply m
    (match mg_alpha m with
     | _ :: _ => mg_alpha m
     | [] => match mg_delta m with
             | _ :: _ => mg_delta m
             | [] => match mg_beta m with _ :: _ => mg_beta m | [] => mg_gamma m end
             end
     end) s g.
(** reintroList.go:33-61 TryToApply, rulesManager.go:122-134 applyReintroductionRule *)
Fixpoint least (l : list (fat * Z)) (i best : nat) (min : Z) : nat :=
  match l with
  | [] => best
  | (_, c) :: r => if c <? min then least r (S i) i c else least r (S i) best min
  end.
Definition apply_reintro (m : mgr) (s : sko) (g : gen) : out (option applied) :=
  match mg_reintro m with
  | [] => Ok None
  | (_, c) :: _ =>
    let i := least (mg_reintro m) 0 0 c in
    match nth_error (mg_reintro m) i with
    | None => Crash
    | Some (x, c) =>
      let l := firstn i (mg_reintro m) ++ (x, c + 1) :: skipn (S i) (mg_reintro m) in
      let copy := insert_rule (mkMgr (mg_pos m) (mg_neg m) (mg_alpha m) (mg_beta m) (mg_gamma m) (mg_delta m) l (mg_metas m)) x in
      do a <- try_to_apply copy (mg_gamma copy) s g;
      match a with
      | None => Ok None
      | Some a =>
        let self := if is_gamma (ap_rule a)
          then mkMgr (mg_pos m) (mg_neg m) (mg_alpha m) (mg_beta m) (mg_gamma m) (mg_delta m)
                 (add_reintro (mg_reintro m) (ap_rule a)) (mg_metas m ++ ap_metas a)
          else m in
        Ok (Some (mkApplied (ap_rule a) (ap_metas a) self (ap_new a) (ap_sko a) (ap_gen a)))
      end
    end
  end.

Section Closure.
Variable name_id : string -> ident.
Variable ty_arity : string -> nat.
Variable add : term -> term -> substs -> out substs.
Variable comp : list (nat * term) -> list meta -> substs -> out substs.

(** 152-168 tryTrivialClosureRules *)
Definition trivial_closure (m : mgr) : option fat :=
  match List.find (fun x => match ft_form x with Bot _ => true | _ => false end) (mg_pos m) with
  | Some x => Some x
  | None => List.find (fun x => match ft_form x with Not _ (Top _) => true | _ => false end) (mg_neg m)
  end.
(** 170-185 tryComplementaryClosureRules *)
Definition complementary (x y : fat) : bool :=
  match ft_form x, ft_form y with
  | Pred _ _ _ _ as p, Not _ (Pred _ _ _ _ as q) => form_eqb p q
  | _, _ => false
  end.
Definition complementary_closure (m : mgr) : option fat :=
  List.find (fun x => existsb (complementary x) (mg_neg m)) (mg_pos m).
(** 209-227 getAtomicsWithoutTopOrBottom *)
Definition is_pred (x : fat) : bool :=
  match ft_form x with Pred _ _ _ _ | Not _ (Pred _ _ _ _) => true | _ => false end.
(** matching_substitutions.go:217-226, 267-269: only the bindings of terms are kept *)
Definition matches (ms : list (item * substs)) : out (list sub) :=
  match all_some (map (fun x => to_mixed ty_arity (snd x)) ms) with
  | None => Crash
  | Some l => Ok (map (fun s => from_old (term_part s)) l)
  end.
(** 187-207 trySubstitutionClosureRules: the last rule with a match and the matches of all *)
Fixpoint closure_loop (tneg : node) (l : list fat) (applied : option fat) (subs : list sub) : out (option fat * list sub) :=
  match l with
  | [] => Ok (applied, subs)
  | x :: r =>
    do ms <- match ft_form x with
             | Pred ix p tys args => unify_tree name_id add comp tneg (IPred ix p tys args)
             | _ => Ok []
             end;
    do new <- matches ms;
    closure_loop tneg r (match ms with [] => applied | _ => Some x end) (subs ++ new)
  end.
Definition substitution_closure (m : mgr) : out (option fat * list sub) :=
  match make_tree name_id (atoms false (map ft_form (filter is_pred (mg_neg m)))) with
  | None => Crash
  | Some tneg => closure_loop tneg (filter is_pred (mg_pos m)) None []
  end.
(** 136-150 tryClosureRules *)
Definition try_closure (m : mgr) : out (option (fat * list sub)) :=
  match trivial_closure m with
  | Some x => Ok (Some (x, [Joker]))
  | None =>
    match complementary_closure m with
    | Some x => Ok (Some (x, [Joker]))
    | None =>
      do r <- substitution_closure m;
      Ok (match fst r with Some x => Some (x, snd r) | None => None end)
    end
  end.

(** ** Nodes: searchNode.go, subsManager.go, closureManager.go *)
(** subsManager.go: SimpleSubsManager (and IntroSubsManager, which does not differ here), BranchingSubsManager with its counter *)
Inductive skind : Type := Simple | Branching (counter : Z).
Record snode : Type := mkNode
  { n_father : nat; n_nb : nat; n_children : list nat; n_mgr : mgr;
    n_kind : skind; n_closing : list (list sub); n_amount : nat; n_done : list sub;
    n_closed : bool; n_finished : bool; n_subs : list sub }.
(** the goroutines that are still to run: doSearch or doKeepGoing on a node *)
Inductive task : Type := DoSearch (n : nat) | DoKeepGoing (n : nat).
Record world : Type := mkWorld
  { w_nodes : list snode; w_gen : gen; w_sko : sko; w_impossible : bool; w_tasks : list task }.

Definition set_node (l : list snode) (i : nat) (n : snode) : list snode := firstn i l ++ n :: skipn (S i) l.
Definition get (w : world) (i : nat) : out snode := match nth_error (w_nodes w) i with Some n => Ok n | None => Crash end.
Definition put (w : world) (i : nat) (n : snode) : world :=
  mkWorld (set_node (w_nodes w) i n) (w_gen w) (w_sko w) (w_impossible w) (w_tasks w).
Definition spawn (w : world) (t : list task) : world :=
  mkWorld (w_nodes w) (w_gen w) (w_sko w) (w_impossible w) (w_tasks w ++ t).
Definition set_impossible (w : world) (b : bool) : world := mkWorld (w_nodes w) (w_gen w) (w_sko w) b (w_tasks w).
Definition set_counters (w : world) (s : sko) (g : gen) : world := mkWorld (w_nodes w) g s (w_impossible w) (w_tasks w).

Definition with_mgr (n : snode) (m : mgr) : snode :=
  mkNode (n_father n) (n_nb n) (n_children n) m (n_kind n) (n_closing n) (n_amount n) (n_done n) (n_closed n) (n_finished n) (n_subs n).
Definition with_children (n : snode) (l : list nat) : snode :=
  mkNode (n_father n) (n_nb n) l (n_mgr n) (n_kind n) (n_closing n) (n_amount n) (n_done n) (n_closed n) (n_finished n) (n_subs n).
Definition with_manager (n : snode) (k : skind) (c : list (list sub)) (a : nat) (d : list sub) : snode :=
  mkNode (n_father n) (n_nb n) (n_children n) (n_mgr n) k c a d (n_closed n) (n_finished n) (n_subs n).
Definition with_closing (n : snode) (k : skind) (c : list (list sub)) : snode := with_manager n k c (n_amount n) (n_done n).
Definition with_done (n : snode) (d : list sub) : snode := with_manager n (n_kind n) (n_closing n) (n_amount n) d.
Definition with_closure (n : snode) (closed finished : bool) (s : list sub) : snode :=
  mkNode (n_father n) (n_nb n) (n_children n) (n_mgr n) (n_kind n) (n_closing n) (n_amount n) (n_done n) closed finished s.

(** searchNode.go:54-70 newSearchNode *)
Definition new_node (father nb : nat) (m : mgr) (done : list sub) : snode :=
  mkNode father nb [] m Simple [[]] 1 done false false [].
(** searchNode.go:38-52 resetSearchTree, search.go:25-27 *)
Definition first_world (g : gen) (k : sko_kind) (f : form) : world :=
  mkWorld [new_node 0 0 (insert_rule empty_mgr (mkFat f [])) []] g (mkSko k 0 []) false [DoSearch 0].

(** searchNode.go:173-192 allKeepGoing, keepGoing; subsManager.go:99-101, 178-185 and closureManager.go:48-51 tryingAgain.
    The tree is walked down, [fuel] bounds its depth. *)
Fixpoint keep_going (fuel : nat) (i : nat) (w : world) : out world :=
  match fuel with
  | O => Out
  | S fuel =>
    do n <- get w i;
    match n_children n with
    | [] => Ok (spawn w [DoKeepGoing i])
    | _ =>
      let k := match n_kind n with Simple => Simple | Branching _ => Branching (Z.of_nat (List.length (n_children n))) end in
      let n := with_closure (with_closing n k (repeat [] (n_amount n))) false false (n_subs n) in
      fold_left (fun w c => do w <- w; keep_going fuel c w) (n_children n) (Ok (put w i n))
    end
  end.
(** subsManager.go:60-68, 70-78, 146-153, 155-169: a node whose children are closed tells its father, and so on up to the root.
    [add_for_father i] is AddClosingSubsForFather of the manager of [i], [add_closing i] is addClosingSubs,
    [send i] sendClosingSubsToFather.  [fuel] bounds the height. *)
Definition add_at (l : list (list sub)) (i : nat) (subs : list sub) : out (list (list sub)) :=
  match nth_error l i with
  | None => Crash
  | Some old => Ok (firstn i l ++ sl_append old subs :: skipn (S i) l)
  end.
Definition is_root (i : nat) (n : snode) : bool := Nat.eqb i (n_father n).
Definition compat_of (n : snode) : out (list sub) := compat_all (n_closing n) (mg_metas (n_mgr n)).
Fixpoint add_for_father (fuel : nat) (i : nat) (subs : list sub) (w : world) : out world :=
  match fuel with
  | O => Out
  | S fuel =>
    do n <- get w i;
    let w := put w i (with_done n (sl_append (n_done n) subs)) in
    let f := n_father n in
    do nf <- get w f;
    do closing <- add_at (n_closing nf) (n_nb n) subs;
    match n_kind nf with
    | Simple =>
      let nf := with_closing nf Simple closing in
      let w := put w f nf in
      if is_root f nf then Ok w else
      do c <- compat_of nf;
      match c with [] => Ok w | _ => add_for_father fuel f c w end
    | Branching k =>
      let nf := with_closing nf (Branching (k - 1)) closing in
      let w := put w f nf in
      if k - 1 =? 0 then
        do c <- compat_of nf;
        match c with
        | [] =>
          let w := put w f (with_closing nf (Branching (Z.of_nat (List.length (n_children nf)))) closing) in
          fold_left (fun w c => do w <- w; keep_going (List.length (w_nodes w)) c w) (n_children nf) (Ok w)
        | _ => if is_root f nf then Ok w else add_for_father fuel f c w
        end
      else Ok w
    end
  end.
(** sendClosingSubsToFather on a node that is not searched again, searchNode.go:101 and 111 *)
Definition send (i : nat) (w : world) : out world :=
  do n <- get w i;
  match n_kind n with
  | Simple =>
    if is_root i n then Ok w else
    do c <- compat_of n;
    match c with [] => Ok w | _ => add_for_father (S i) i c w end
  | Branching k =>
    do c <- compat_of n;
    match c with
    | [] =>
      let w := put w i (with_closing n (Branching (k + Z.of_nat (List.length (n_children n)))) (n_closing n)) in
      fold_left (fun w c => do w <- w; keep_going (List.length (w_nodes w)) c w) (n_children n) (Ok w)
    | _ => if is_root i n then Ok w else add_for_father (S i) i c w
    end
  end.

(** closureManager.go:40-46, 60-62 setNothingToDo *)
Definition set_nothing (i : nat) (w : world) : out world :=
  do n <- get w i;
  let w := put w i (with_closure n false true (n_subs n)) in
  Ok (match mg_reintro (n_mgr n) with [] => set_impossible w true | _ => w end).
(** subsManager.go:111-123 hasNewSubs *)
Definition has_new (done subs : list sub) : bool :=
  match done with
  | [] => true
  | _ => existsb (fun s => negb (sl_contains done s)) subs
  end.
(** searchNode.go:145-171 continueSearch when the rule is not a closure: managers of substitutions, closure information
    (closureManager.go:32-38), children *)
Definition expand_node (i : nat) (a : applied) (w : world) : out world :=
  do n <- get w i;
  do nf <- get w (n_father n);
  let n :=
    if is_gamma (ap_rule a) then with_manager n Simple [[]] 1 (n_done nf)
    else if is_beta (ap_rule a) then
      with_manager n (Branching (Z.of_nat (List.length (ap_new a)))) (repeat [] (List.length (ap_new a))) (List.length (ap_new a)) (n_done nf)
    else n in
  let base := List.length (w_nodes w) in
  let ids := seq base (List.length (ap_new a)) in
  let n := with_children (with_closure n false (n_finished n) []) ids in
  let w := put w i n in
  let news := map (fun x => new_node i (fst x) (snd x) (n_done n)) (combine (seq 0 (List.length (ap_new a))) (ap_new a)) in
  Ok (mkWorld (w_nodes w ++ news) (w_gen w) (w_sko w) (w_impossible w) (w_tasks w ++ map DoSearch ids)).
(** searchNode.go:120-143 nonClosureSearch, processAppliedRule and tryReintroduction *)
Definition non_closure (i : nat) (w : world) : out world :=
  do n <- get w i;
  do a <- apply_non_closure (n_mgr n) (w_sko w) (w_gen w);
  let retry w :=
    do n <- get w i;
    if only_reintro (n_mgr n) then
      do a <- apply_reintro (n_mgr n) (w_sko w) (w_gen w);
      match a with
      | None => set_nothing i w
      | Some a => expand_node i a (set_counters (put w i (with_mgr n (ap_self a))) (ap_sko a) (ap_gen a))
      end
    else set_nothing i w in
  match a with
  | None => retry w
  | Some a =>
    let w := set_counters (put w i (with_mgr n (ap_self a))) (ap_sko a) (ap_gen a) in
    match ap_new a with
    | [] => retry w
    | _ => expand_node i a w
    end
  end.
(** searchNode.go:115-118 search, 145-161 continueSearch when the rule is a closure *)
Definition search_node (i : nat) (w : world) : out world :=
  do n <- get w i;
  do c <- try_closure (n_mgr n);
  match c with
  | None => non_closure i w
  | Some (_, subs) =>
    let n := with_closure n true (n_finished n) subs in
    let w := put w i n in
    if has_new (n_done n) subs then add_for_father (S i) i subs w else non_closure i w
  end.
(** closureManager.go:53-62 shouldDoSearch, shouldKeepGoing *)
Definition should_search (w : world) (n : snode) : bool := negb (n_closed n) && negb (n_finished n) && negb (w_impossible w).
Definition should_keep (w : world) (n : snode) : bool :=
  (negb (match n_subs n with Joker :: _ => true | _ => false end) || negb (n_closed n)) && negb (w_impossible w).
(** searchNode.go:95-113 doSearch, doKeepGoing *)
Definition run_task (t : task) (w : world) : out world :=
  match t with
  | DoSearch i => do n <- get w i; if should_search w n then search_node i w else send i w
  | DoKeepGoing i => do n <- get w i; if should_keep w n then non_closure i w else send i w
  end.
(** any pending goroutine may run next *)
Definition step (k : nat) (w : world) : out world :=
  match nth_error (w_tasks w) k with
  | None => Fail
  | Some t => run_task t (mkWorld (w_nodes w) (w_gen w) (w_sko w) (w_impossible w) (firstn k (w_tasks w) ++ skipn (S k) (w_tasks w)))
  end.
Fixpoint run (sched : list nat) (w : world) : out world :=
  match sched with
  | [] => Ok w
  | k :: r => do w' <- step k w; run r w'
  end.

(** closureManager.go:76-88 isTreeClosed, searchNode.go:194-205 getResult: when no goroutine is left.  The proof is printed with
    the first compatible substitution of the root, [None] when there is none (then an empty one is used). *)
Fixpoint tree_closed (fuel : nat) (w : world) (i : nat) : out bool :=
  match fuel with
  | O => Out
  | S fuel =>
    do n <- get w i;
    match n_children n with
    | [] => Ok (n_closed n)
    | l => fold_left (fun b c => do b <- b; do x <- tree_closed fuel w c; Ok (b && x)) l (Ok true)
    end
  end.
Definition answer (w : world) : out bool := tree_closed (List.length (w_nodes w)) w 0.
Definition chosen (w : world) : out (option sub) :=
  do n <- get w 0; do c <- compat_of n; Ok (match c with [] => None | s :: _ => Some s end).
End Closure.
