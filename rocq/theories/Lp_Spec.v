(** What a Lambdapi script has to be (C124 to C129). *)
From Coq Require Import ZArith List Bool String.
From Verif Require Import Ast_Model Sem_Spec Occ_Spec GsProof_Model GsProof_Spec Lp_Model.
Import ListNotations.
Open Scope list_scope.
Open Scope Z_scope.

(** ** Scopes (C124)

    The variables in scope, the last first: a variable stands for the hypothesis of its last binder. *)
Definition scope : Type := list (nat * option form).
Definition bind_one (b : binder) : nat * option form := match b with BForm n f => (n, Some f) | BTerm n _ => (n, None) end.
Definition bind_all (bs : list binder) (G : scope) : scope := rev (map bind_one bs) ++ G.
Definition stands_for (G : scope) (x : option nat) (f : form) : Prop :=
  exists n g, x = Some n /\ option_map snd (List.find (fun e => Nat.eqb (fst e) n) G) = Some (Some g) /\ same g f.
(** the formula that a rule is applied to, given the formulas in its text, for the rules without a quantifier *)
Definition main_of (r : rule) (args : list form) : option form :=
  match r, args with
  | NNOT, [a] => Some (neg (neg a))
  | AND, l => Some (And 0 l)
  | NOR, l => Some (neg (Or 0 l))
  | NIMP, [a; b] => Some (neg (Imp 0 a b))
  | OR, l => Some (Or 0 l)
  | NAND, l => Some (neg (And 0 l))
  | IMP, [a; b] => Some (Imp 0 a b)
  | EQU, [a; b] => Some (Equ 0 a b)
  | NEQU, [a; b] => Some (neg (Equ 0 a b))
  | _, _ => None
  end.
(** a quantified formula with these variables and this body, or its negation *)
Definition quantifies (r : rule) (vs : list tvar) (a f : form) : Prop :=
  match r with
  | ALL => exists i, f = All i vs a
  | EX => exists i, f = Ex i vs a
  | NALL => exists i j, f = Not i (All j vs a)
  | NEX => exists i j, f = Not i (Ex j vs a)
  | _ => False
  end.
(** a universal rule is given its term; each premise of an existential rule binds it, before the formulas *)
Definition hypothesis (b : binder) : Prop := match b with BForm _ _ => True | BTerm _ _ => False end.
Definition term_at (r : rule) (t : option term) (bs : list binder) : Prop :=
  match r with
  | ALL | NEX => t <> None /\ Forall hypothesis bs
  | _ => t = None /\ exists n u l, bs = BTerm n u :: l /\ Forall hypothesis l
  end.
(** every variable that is used is in scope and stands for what it is used as: the hypotheses of an axiom are the formula and its
    negation, that of a rule is the formula the rule is about; as many variables are bound as the quantifier has *)
Inductive in_scope : scope -> lp -> Prop :=
| Sc_axiom G f x y : stands_for G x f -> stands_for G y (neg f) -> in_scope G (LAxiom f x y)
| Sc_ntop G y : stands_for G y (neg (Top 0)) -> in_scope G (LNtop y)
| Sc_bot G x : stands_for G x (Bot 0) -> in_scope G (LBot x)
| Sc_rule G r args m kids x : main_of r args = Some m -> stands_for G x m ->
    Forall (fun k => in_scope (bind_all (fst k) G) (snd k)) kids -> in_scope G (LRule r [] args None kids x)
| Sc_quant G r vs xs a f t kids x : quantifies r xs a f -> List.length vs = List.length xs -> stands_for G x f -> Forall (fun k => term_at r t (fst k)) kids ->
    Forall (fun k => in_scope (bind_all (fst k) G) (snd k)) kids -> in_scope G (LRule r vs [a] t kids x).

(** the proofs that are printed: the formulas at hand are the one at the root and those generated above *)
Definition opposites (G : list form) (f : form) : Prop :=
  match f with
  | Pred _ _ _ _ => available G f /\ available G (neg f)
  | Not _ (Pred i p tys l) => available G f /\ available G (Pred i p tys l)
  | Not _ (Top _) | Bot _ => available G f
  | _ => False
  end.
Inductive printed_well : list form -> sequent -> Prop :=
| W_close G s f : s_rule s = AX -> target s f -> opposites G f -> printed_well G s
| W_alpha G s f l : target s f -> available G f -> alpha_of (s_rule s) f l ->
    Forall2 (fun fs k => printed_well (G ++ fs) k) (s_forms s) (s_kids s) -> printed_well G s
| W_beta G s f ls : target s f -> available G f -> beta_of (s_rule s) f ls ->
    Forall2 (fun fs k => printed_well (G ++ fs) k) (s_forms s) (s_kids s) -> printed_well G s
| W_quant G s f vs a : target s f -> available G f -> quantifies (s_rule s) vs a f -> s_term s <> None ->
    Forall2 (fun fs k => printed_well (G ++ fs) k) (s_forms s) (s_kids s) -> printed_well G s.

(** ** The type checker, for the rules without a quantifier (C125)

    The constants of Logic.Goeland.GS3, which is not part of the repository, are taken to be the rules of GS3 for formulas of
    one or two components: GS3and : Π p q, (ϵ p → ϵ q → ϵ ⊥) → ϵ (p ∧ q) → ϵ ⊥, and so on. *)
Definition const_type (r : rule) (args : list form) : option (form * list (list form)) :=
  match r, args with
  | NNOT, [a] => Some (neg (neg a), [[a]])
  | AND, [a; b] => Some (And 0 [a; b], [[a; b]])
  | NOR, [a; b] => Some (neg (Or 0 [a; b]), [[neg a; neg b]])
  | NIMP, [a; b] => Some (neg (Imp 0 a b), [[a; neg b]])
  | OR, [a; b] => Some (Or 0 [a; b], [[a]; [b]])
  | NAND, [a; b] => Some (neg (And 0 [a; b]), [[neg a]; [neg b]])
  | IMP, [a; b] => Some (Imp 0 a b, [[neg a]; [b]])
  | EQU, [a; b] => Some (Equ 0 a b, [[neg a; neg b]; [a; b]])
  | NEQU, [a; b] => Some (neg (Equ 0 a b), [[neg a; b]; [a; neg b]])
  | _, _ => None
  end.
Definition binds (b : binder) (f : form) : Prop := match b with BForm _ g => same g f | BTerm _ _ => False end.
Inductive checks : scope -> lp -> Prop :=
| Ck_axiom G f x y : stands_for G x f -> stands_for G y (neg f) -> checks G (LAxiom f x y)
| Ck_ntop G y : stands_for G y (neg (Top 0)) -> checks G (LNtop y)
| Ck_bot G x : stands_for G x (Bot 0) -> checks G (LBot x)
| Ck_rule G r args m ps kids x : const_type r args = Some (m, ps) -> stands_for G x m ->
    Forall2 (fun p k => Forall2 binds (fst k) p) ps kids ->
    Forall (fun k => checks (bind_all (fst k) G) (snd k)) kids -> checks G (LRule r [] args None kids x).
(** a script is accepted: the type that is stated is that of the term *)
Definition accepted (sc : script) : Prop :=
  same (sc_statement sc) (sc_formula sc) /\ checks [(sc_var sc, Some (sc_formula sc))] (sc_proof sc).
(** GS3 proofs without quantifiers, where the connectives have two components *)
Inductive propositional : list form -> sequent -> Prop :=
| O_close G s f : s_rule s = AX -> target s f -> opposites G f -> propositional G s
| O_alpha G s f l : target s f -> available G f -> alpha_of (s_rule s) f l -> (s_rule s = NNOT \/ List.length l = 2%nat) ->
    Forall2 (Forall2 same) [l] (s_forms s) ->
    Forall2 (fun fs k => propositional (G ++ fs) k) (s_forms s) (s_kids s) -> propositional G s
| O_beta G s f ls : target s f -> available G f -> beta_of (s_rule s) f ls -> List.length ls = 2%nat ->
    Forall2 (Forall2 same) ls (s_forms s) ->
    Forall2 (fun fs k => propositional (G ++ fs) k) (s_forms s) (s_kids s) -> propositional G s.

(** ** The statement (C126) *)
Definition unsat (f : form) : Prop := forall I (v : val I), ~ holds f v.

(** ** The names (C127, C128) *)

(** the names of the symbols of a formula, but the equality *)
Fixpoint t_symbols (t : term) : list string := match t with Fun p _ l => id_name p :: flat_map t_symbols l | _ => [] end.
Definition f_symbols (id_eq : Z) : form -> list string :=
  f_collect (fun p _ args => (if id_index p =? id_eq then [] else [id_name p]) ++ flat_map t_symbols args).
(** the names that are free in the text of a formula *)
Fixpoint t_names (t : term) : list string :=
  match t with
  | TId i => [id_name i]
  | Fun p _ l => id_name p :: flat_map t_names l
  | Var _ n => [n]
  | Meta m => [(m_name m ++ "_" ++ dec (m_index m))%string]
  end.
Section Free.
Variable id_eq : Z.
Fixpoint free_names (f : form) : list string :=
  match f with
  | All _ vs g | Ex _ vs g => filter (fun x => negb (existsb (fun v => String.eqb (tv_name v) x) vs)) (free_names g)
  | Not _ g => free_names g
  | Or _ l | And _ l => flat_map free_names l
  | Equ _ a b | Imp _ a b => free_names a ++ free_names b
  | Pred _ p _ l => (if id_index p =? id_eq then [] else [id_name p]) ++ flat_map t_names l
  | Top _ | Bot _ => []
  end.
Definition var_name (n : nat) : string := ("v" ++ dec (Z.of_nat n))%string.
Definition binder_var (b : binder) : nat := match b with BForm n _ | BTerm n _ => n end.
Definition binder_names (b : binder) : list string := match b with BForm _ f => free_names f | BTerm _ _ => [] end.
(** every name in the formulas of the text is declared, and is not the name of a variable of the script in scope, which would
    hide the declaration; [vs] are the variables in scope *)
Definition meant (declared : list string) (vs : list nat) (x : string) : Prop := In x declared /\ ~ In x (map var_name vs).
Fixpoint binders_meant (declared : list string) (vs : list nat) (bs : list binder) : Prop :=
  match bs with
  | [] => True
  | b :: r => (forall x, In x (binder_names b) -> meant declared vs x) /\ binders_meant declared (binder_var b :: vs) r
  end.
Inductive all_meant (declared : list string) : list nat -> lp -> Prop :=
| M_empty vs : all_meant declared vs LEmpty
| M_axiom vs f x y : (forall s, In s (free_names f) -> meant declared vs s) -> all_meant declared vs (LAxiom f x y)
| M_ntop vs y : all_meant declared vs (LNtop y)
| M_bot vs x : all_meant declared vs (LBot x)
| M_rule vs r ns args t kids x :
    (forall f s, In f args -> In s (free_names f) -> meant declared (ns ++ vs) s) ->
    (forall u s, t = Some u -> In s (t_names u) -> meant declared vs s) ->
    Forall (fun k => binders_meant declared vs (fst k) /\ all_meant declared (rev (map binder_var (fst k)) ++ vs) (snd k)) kids ->
    all_meant declared vs (LRule r ns args t kids x).
Definition script_meant (declared : list string) (sc : script) : Prop :=
  (forall x, In x (free_names (sc_statement sc)) -> meant declared [] x) /\
  (forall x, In x (free_names (sc_formula sc)) -> meant declared [] x) /\
  all_meant declared [sc_var sc] (sc_proof sc).
End Free.
(** two texts of one formula *)
Definition copy (id_eq : Z) (f g : form) : Prop := same f g /\ free_names id_eq f = free_names id_eq g.
(** GS3 proofs without quantifier rules, whose formulas are copies of the components of those above *)
Inductive without_quantifiers (id_eq : Z) : list form -> sequent -> Prop :=
| Q_close G s f : s_rule s = AX -> target s f -> (exists h, In h G /\ copy id_eq h f) -> without_quantifiers id_eq G s
| Q_alpha G s f l : target s f -> (exists h, In h G /\ copy id_eq h f) -> alpha_of (s_rule s) f l ->
    Forall (fun fs => forall g, In g fs -> exists c, In c l /\ copy id_eq c g) (s_forms s) ->
    Forall2 (fun fs k => without_quantifiers id_eq (G ++ fs) k) (s_forms s) (s_kids s) -> without_quantifiers id_eq G s
| Q_beta G s f ls : target s f -> (exists h, In h G /\ copy id_eq h f) -> beta_of (s_rule s) f ls ->
    Forall2 (fun fs l => forall g, In g fs -> exists c, In c l /\ copy id_eq c g) (s_forms s) ls ->
    Forall2 (fun fs k => without_quantifiers id_eq (G ++ fs) k) (s_forms s) (s_kids s) -> without_quantifiers id_eq G s.

(** ** The end (C129) *)

(** the names that were given by the scripts made before *)
Inductive reachable : names_st -> Prop :=
| R_start : reachable no_names
| R_next st s sc st' : reachable st -> make_script s st = Unif_Model.Ok (sc, st') -> reachable st'.
(** the last formula of a conjunction at the root is a negated conjecture *)
Definition has_conjecture (f : form) : Prop := match f with And _ l => exists axs i c, l = axs ++ [Not i c] | _ => True end.
