(** What a parsed problem says, on the parsed statements alone; the problems considered. *)
From Coq Require Import ZArith List Bool String.
From Verif Require Import Ast_Model Sem_Spec Occ_Spec Rename_Spec Elab_Model Elab_Spec Elab_Final.
Import ListNotations.
Open Scope Z_scope.

(** type variables of a parsed type *)
Fixpoint ptyvars (t : ptype) : list string :=
  match t with
  | PTyVar n => [n]
  | PTyFun _ l => flat_map ptyvars l
  | PTyBin _ l r => ptyvars l ++ ptyvars r
  | PTyQuant _ b => ptyvars b
  end.

(** each quantifier has distinct names, and types without type variables *)
Fixpoint plain_form (f : pform) : Prop :=
  match f with
  | PTop | PBot | PPred _ _ => True
  | PNeg h => plain_form h
  | PBin _ l r => plain_form l /\ plain_form r
  | PQuant _ vs h => NoDup (map fst vs) /\ Forall (fun v => ptyvars (snd v) = []) vs /\ plain_form h
  end.

(** variables are variables for individuals, and their names do not end with a digit *)
Definition plain_names (kappa : string -> option bool) : Prop :=
  forall x, kappa x <> None -> kappa x = Some false /\ ends_digit x = false.

(** the numbers of the variables are not those of the symbols *)
Definition apart (g : gen) : Prop :=
  forall s s' i, lookup s (idTable g) = Some i -> lookup s' (idVar g) = Some i -> False.

(** the roles the program handles *)
Definition handled (s : pstmt) : bool :=
  match s with PSForm RAxiom _ | PSForm RConjecture _ | PSForm RNegConjecture _ => true | _ => false end.
Definition is_goal (s : pstmt) : bool :=
  match s with PSForm RConjecture _ | PSForm RNegConjecture _ => true | _ => false end.

(** an interpretation of the names in which the axioms hold and the conjecture does not *)
Definition refutes {D T} (N : ninterp D T) (tysym : string -> bool) (l : list pstmt) (env : string -> D + T) : Prop :=
  Forall (fun s => match s with
                   | PSForm RAxiom f | PSForm RNegConjecture f => psat N tysym f env
                   | PSForm RConjecture f => ~ psat N tysym f env
                   | _ => True
                   end) l.

(** the conjecture holds in the interpretations in which the axioms hold *)
Definition entailed {D T} (N : ninterp D T) (tysym : string -> bool) (l : list pstmt) (env : string -> D + T) : Prop :=
  (forall f, In (PSForm RAxiom f) l -> psat N tysym f env) -> (forall f, In (PSForm RNegConjecture f) l -> psat N tysym f env) ->
  exists c, In (PSForm RConjecture c) l /\ psat N tysym c env.

(** The problem: declarations, then formulas; [kappa] is the kind of its variables. *)
Definition file (decls : list (string * ptype)) (l : list pstmt) : list pstmt :=
  map (fun d => PSType RType (fst d) (snd d)) decls ++ l.

(** The problems considered: formulas of the handled roles, at least one, at most one of them a goal; symbols declared with types
    of the prenex form, variables and symbols used with their kind, no variable of types. *)
Record plain_problem (kappa : string -> option bool) (decls : list (string * ptype)) (l : list pstmt) : Prop := {
  pp_roles : forall s, In s l -> handled s = true;
  pp_some : l <> [];
  pp_goals : (List.length (filter is_goal l) <= 1)%nat;
  pp_kinds : forall s t, In (s, t) (initial_context ++ decls) -> kappa s = None;
  pp_types : forall s t, In (s, t) decls -> top_type t;
  pp_names : plain_names kappa;
  pp_forms : forall r f, In (PSForm r f) l -> wk_form kappa (sig_tysym (initial_context ++ decls)) [] f /\ plain_form f }.
