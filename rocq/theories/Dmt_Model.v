(** Model of deduction modulo: Mods/dmt.

    The two trees and the two maps of the plugin are the list of the rules, in the order of registration.  Simplifications:
    no preskolemisation (the option presko, off by default); the predicates of the rules have no type arguments; a set of
    metavariables is the list of its members; the debug messages are left out. *)
From Coq Require Import ZArith List Bool String.
From Verif Require Import Ast_Model Rules_Model Unif_Model UnifTree_Model Closure_Model Restrict_Model Bse_Model.
Import ListNotations.
Open Scope list_scope.
Open Scope Z_scope.

(** dmt.go:47-61: [d_pos] and [d_neg] are positiveRewrite and negativeRewrite with their trees; an entry is the atom and
    what it is rewritten to *)
Record dmt : Type := mkDmt { d_pos : list (form * form); d_neg : list (form * form); d_axioms : list form }.
(** dmt.go:83-91 *)
Definition dmt0 : dmt := mkDmt [] [] [].

Section Register.
Variable eqi : Z. (* the index of AST.Id_eq *)
(** dmt.go:94-99, the option polarized *)
Variable polarized : bool.

(** axiom_registration.go:69-75 instanciateForalls; Instantiate gives the name of each metavariable *)
Fixpoint inst_foralls (n : nat) (f : form) (g : gen) : out (form * gen) :=
  match f with
  | All _ _ _ =>
    match n with
    | O => Out
    | S n => match apply_gamma (mkFat f []) (-1) g with
             | Some (x, _, g') => inst_foralls n (ft_form x) g'
             | None => Crash
             end
    end
  | _ => Ok (f, g)
  end.
(** the number of rounds *)
Fixpoint prefix (f : form) : nat := match f with All _ vs h => List.length vs + prefix h | _ => O end.

(** axiom_registration.go:77-99 addPosRewriteRule, addNegRewriteRule, addRewriteRule *)
Definition add_pos (a c : form) (d : dmt) : dmt := mkDmt (d_pos d ++ [(remove_neg a, c)]) (d_neg d) (d_axioms d).
Definition add_neg (a c : form) (d : dmt) : dmt := mkDmt (d_pos d) (d_neg d ++ [(remove_neg a, c)]) (d_axioms d).
(** AST/maker.go MakerNot *)
Definition maker_not (f : form) (g : gen) : form * gen := let '(i, g) := maker_index_formula g in (Not i f, g).

(** axiom_registration.go:178-180 isAtomic *)
Definition is_atomic (f : form) : bool := match kind_of_rule f with KAtomic => true | _ => false end.
(** utils.go:41-47 isEquality, predFromNegatedAtom; axiom_registration.go:190-193 isEqualityPred: [None] is the failed
    type assertion *)
Definition is_equality_pred (f : form) : option bool :=
  match f with
  | Pred _ p _ _ => Some (id_index p =? eqi)
  | Not _ (Pred _ p _ _) => Some (id_index p =? eqi)
  | Not _ _ => None
  | _ => Some false
  end.
Definition pred_from_negated (f : form) : option form := match f with Not _ (Pred i p tys args) => Some (Pred i p tys args) | _ => None end.
Definition is_pred (f : form) : bool := match f with Pred _ _ _ _ => true | _ => false end.
Definition is_not (f : form) : bool := match f with Not _ _ => true | _ => false end.

(** axiom_registration.go:203-211 addEquivalenceRewriteRule *)
Definition add_equ (a c : form) (d : dmt) (g : gen) : dmt * gen :=
  let '(nc, g) := maker_not c g in
  if is_not a then (add_neg a c (add_pos a nc d), g) else (add_neg a nc (add_pos a c d), g).
(** axiom_registration.go:161-176, 195-201 makeRewriteRuleFromEquivalence, addEquRewriteRuleIfNotEquality *)
Definition rules_of_equ (a b : form) (d : dmt) (g : gen) : out (bool * dmt * gen) :=
  if Bool.eqb (is_atomic a) (is_atomic b) then Ok (false, d, g)
  else
    let '(f1, f2) := if is_atomic a then (a, b) else (b, a) in
    match is_equality_pred f1 with
    | None => Crash
    | Some true => Ok (false, d, g)
    | Some false => let '(d, g) := add_equ f1 f2 d g in Ok (true, d, g)
    end.
(** axiom_registration.go:223-251 makeRewriteRuleFromImplication *)
Definition rules_of_imp (a b : form) (d : dmt) (g : gen) : out (bool * dmt * gen) :=
  if negb (is_atomic a) && negb (is_atomic b) then Ok (false, d, g)
  else
    match is_equality_pred a with
    | None => Crash
    | Some true => Ok (false, d, g)
    | Some false =>
      do d <- (if is_atomic a then
                 if is_pred a then Ok (add_pos a b d)
                 else match pred_from_negated a with Some p => Ok (add_neg p b d) | None => Crash end
               else Ok d);
      if is_atomic b then
        match is_equality_pred b with
        | None => Crash
        | Some true => Ok (true, d, g)
        | Some false =>
          let '(na, g) := maker_not a g in
          if is_pred b then Ok (true, add_neg b na d, g)
          else match pred_from_negated b with Some p => Ok (true, add_pos p na d, g) | None => Crash end
        end
      else Ok (true, d, g)
    end.
(** axiom_registration.go:54-66 RegisterAxiom; the boolean tells whether the axiom is consumed *)
Definition register (ax : form) (d : dmt) (g : gen) : out (bool * dmt * gen) :=
  do r <- inst_foralls (S (prefix ax)) ax g;
  let '(f, g) := r in
  match f with
  | Equ _ a b => rules_of_equ a b (mkDmt (d_pos d) (d_neg d) (d_axioms d ++ [ax])) g
  | Imp _ a b =>
    if polarized then rules_of_imp a b (mkDmt (d_pos d) (d_neg d) (d_axioms d ++ [ax])) g else Ok (false, d, g)
  | _ => Ok (false, d, g)
  end.
(** main.go:335-357 doAxiomStatement on renamed axioms: those that are not consumed stay in the problem *)
Fixpoint register_all (axs : list form) (d : dmt) (g : gen) : out (list form * dmt * gen) :=
  match axs with
  | [] => Ok ([], d, g)
  | ax :: r =>
    do x <- register ax d g;
    let '(b, d, g) := x in
    do y <- register_all r d g;
    let '(l, d, g) := y in
    Ok (if b : bool then l else ax :: l, d, g)
  end.
End Register.

(** ** Rewriting *)
(** formsDef.go:847-854, 1012, 1040 ToString, on what is registered *)
Definition key (f : form) : string :=
  match f with
  | Pred _ p _ args => show (Fun p [] args)
  | Top _ => "$true"
  | Bot _ => "$false"
  | _ => ""
  end%string.
Definition item_key (f : item) : string := match f with IPred _ p _ args => show (Fun p [] args) | ITerm _ t => show t end.
(** rewrite.go:246-248 findEquivalence *)
Definition equivalences (rules : list (form * form)) (k : string) : list form :=
  map snd (filter (fun r => String.eqb (key (fst r)) k) rules).
(** rewrite.go:192-209 isFiltering, checkAllMetaAreInstanciated *)
Definition item_metas_list (f : item) : list meta := match f with IPred _ _ _ args => flat_map meta_list args | ITerm _ t => meta_list t end.
Definition filtering (f : item) (s : substs) : bool :=
  forallb (fun m => existsb (fun b => meta_eqb m (fst b) || term_eqb (Meta m) (snd b)) s) (item_metas_list f).
Definition bot_or_top (f : form) : bool := match f with Top _ | Bot _ => true | _ => false end.
(** rewrite.go:152-190 sortUnifications, insert, insertFirst *)
Definition sort_unifs (rules : list (form * form)) (l : list (item * substs)) : list (item * substs) :=
  fold_left (fun acc u =>
      if filtering (fst u) (snd u) then
        if existsb bot_or_top (equivalences rules (item_key (fst u))) then u :: acc else acc ++ [u]
      else acc) l [].
(** rewritten.go:51-57 substitute *)
Definition substitute (f : form) (s : substs) : form := fold_left (fun f b => replace_meta (fst b) (snd b) f) s f.
(** Lib/list.go:205-209 ListAdd *)
Definition form_add (l : list form) (f : form) : list form := if existsb (fun g => form_eqb g f) l then l else l ++ [f].
(** rewrite.go:211-244 checkMetaAreFromSearch *)
Definition from_search (metas : list meta) (s : substs) : bool :=
  forallb (fun b => mem (fst b) metas && match snd b with Meta m => mem m metas | _ => true end) s.
(** an IntSubstAndForm: the index of the rule (-1: not rewritten), the substitution and the formula *)
Definition candidate : Type := (Z * (substs * form))%type.
(** rewrite.go:124-131 rewriteFailure *)
Definition not_rewritten (f : form) : list candidate := [(-1, (failure, f))].
Definition item_index (f : item) : Z := match f with IPred ix _ _ _ => ix | ITerm ix _ => ix end.

Section Rewrite.
Variable fe : nat.
Variable name_id : string -> ident.
Variable ty_arity : string -> nat.
Variable add : term -> term -> substs -> out substs.
Variable comp : list (nat * term) -> list meta -> substs -> out substs.

(** rewrite.go:133-146 addUnifToAtomics *)
Definition add_candidate (u : item) (s : substs) (l : list candidate) (f : form) : list candidate :=
  if bot_or_top f then (item_index u, (s, f)) :: l else l ++ [(item_index u, (s, f))].
(** rewrite.go:78-108, 232-244: one match *)
Definition rewrite_one (rules : list (form * form)) (metas : list meta) (l : list candidate) (u : item * substs) : out (list candidate) :=
  match equivalences rules (item_key (fst u)) with
  | [] => Crash
  | eqs =>
    do s <- restrict fe add (snd u) metas;
    if from_search metas s then
      Ok (fold_left (add_candidate (fst u) s) (fold_left form_add (map (fun f => substitute f (snd u)) eqs) []) l)
    else Crash
  end.
Fixpoint rewrite_each (rules : list (form * form)) (metas : list meta) (us : list (item * substs)) (l : list candidate) : out (list candidate) :=
  match us with
  | [] => Ok l
  | u :: r => do l <- rewrite_one rules metas l u; rewrite_each rules metas r l
  end.
(** rewrite.go:53-76 Rewrite, rewriteGeneric; [matches] comes from the tree of the rules of this polarity *)
Definition rewrite_matches (rules : list (form * form)) (lit : form) (metas : list meta) (ms : list (item * substs)) : out (list candidate) :=
  match all_some (map (fun m => to_mixed ty_arity (snd m)) ms) with
  | None => Crash
  | Some ss =>
    match sort_unifs rules (combine (map fst ms) (map term_part ss)) with
    | [] => Ok (not_rewritten lit)
    | us => rewrite_each rules metas us []
    end
  end.
(** code-trees.go:158-173: only predicates are put in the tree *)
Definition rule_items (rules : list (form * form)) : list item := atoms_any (map fst rules).
Definition rewrite (d : dmt) (lit : form) : out (list candidate) :=
  let go (rules : list (form * form)) (atom : form) :=
    match atom with
    | Pred ix p tys args =>
      match make_tree name_id (rule_items rules) with
      | None => Crash
      | Some t => do ms <- unify_tree name_id add comp t (IPred ix p tys args); rewrite_matches rules lit (flat_map meta_list args) ms
      end
    | _ => Ok (not_rewritten lit)
    end in
  match lit with
  | Not _ a => go (d_neg d) a
  | _ => go (d_pos d) lit
  end.
End Rewrite.
