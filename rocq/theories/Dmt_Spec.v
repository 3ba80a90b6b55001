(** What registering an axiom as rewrite rules and rewriting a literal with them should be (C43-C45, C56). *)
From Coq Require Import ZArith List Bool String.
From Verif Require Import Ast_Model Sem_Spec Occ_Spec Rules_Spec Tableau_Spec Unif_Spec Restrict_Spec.
Import ListNotations.
Open Scope list_scope.
Open Scope Z_scope.

(** ** The shape of an axiom *)
(** without its universal prefix *)
Fixpoint matrix (f : form) : form := match f with All _ _ h => matrix h | _ => f end.
(** every quantifier of the prefix binds something *)
Fixpoint binds (f : form) : Prop := match f with All _ vs h => vs <> [] /\ binds h | _ => True end.
(** no type variable is quantified *)
Definition untyped (f : form) : Prop := forall x, In x (f_binders f) -> is_ttype (tv_ty x) = false.

Definition const (f : form) : Prop := exists i, f = Top i \/ f = Bot i.
Definition neg_const (f : form) : Prop := exists i c, const c /\ f = Not i c.
Definition pred (f : form) : Prop := exists i p tys args, f = Pred i p tys args.
(** an equality or a disequality *)
Definition equality (eqi : Z) (f : form) : Prop :=
  exists i p tys args, id_index p = eqi /\ (f = Pred i p tys args \/ exists j, f = Not j (Pred i p tys args)).
(** The axioms on which registration panics. *)
Inductive bad (eqi : Z) (polarized : bool) : form -> Prop :=
| bad_equ_l i a b : neg_const a -> ~ literal b -> bad eqi polarized (Equ i a b)
| bad_equ_r i a b : ~ literal a -> neg_const b -> bad eqi polarized (Equ i a b)
| bad_imp_not i a b j h : polarized = true -> literal a \/ literal b -> a = Not j h -> ~ pred h -> bad eqi polarized (Imp i a b)
| bad_imp_l i a b : polarized = true -> const a -> bad eqi polarized (Imp i a b)
| bad_imp_r i a b : polarized = true -> const b \/ neg_const b -> ~ equality eqi a -> bad eqi polarized (Imp i a b).
(** The axioms that are consumed without any rule: an implication to an equality from something that is not a literal. *)
Definition dropped (eqi : Z) (f : form) : Prop := exists i a b, f = Imp i a b /\ ~ literal a /\ equality eqi b.

(** ** The meaning of the rules *)
(** [a --> c] on positive literals: c follows from a; on negative ones: from its negation *)
Definition rule_valid (I : interp) (pos : bool) (r : form * form) : Prop :=
  forall v : val I, (if pos then holds (fst r) v else ~ holds (fst r) v) -> holds (snd r) v.
Definition rules_valid (I : interp) (rp rn : list (form * form)) : Prop :=
  (forall r, In r rp -> rule_valid I true r) /\ forall r, In r rn -> rule_valid I false r.

(** ** Rewriting *)
(** atoms equal up to what the prover looks at *)
Definition same_atom (a b : form) : Prop :=
  match a, b with
  | Pred _ p ty1 l, Pred _ q ty2 r => id_index p = id_index q /\ ty1 = [] /\ ty2 = [] /\ Forall2 same_term l r
  | Top _, Top _ | Bot _, Bot _ => True
  | _, _ => False
  end.
Definition atom_of (f : form) : form := match f with Not _ a => a | _ => f end.
Definition atom_args (f : form) : list term := match f with Pred _ _ _ args => args | _ => [] end.
(** [s] makes the two atoms equal *)
Definition atoms_unified (s : list (meta * term)) (a b : form) : Prop :=
  match a, b with
  | Pred _ p ty1 l, Pred _ q ty2 r =>
    id_index p = id_index q /\ ty1 = [] /\ ty2 = [] /\ Forall2 (fun t u => same_term (ssubst s t) (ssubst s u)) l r
  | _, _ => False
  end.
(** the valuation satisfies the equations of the substitution *)
Definition satisfies {I} (v : val I) (s : list (meta * term)) : Prop := forall k t, In (k, t) s -> mv v (m_index k) = ev v t.
(** Every metavariable of the formula that the substitution binds occurs at most once in each argument of an atom. *)
Definition linear_for (s : list (meta * term)) (f : form) : Prop :=
  forall k t, In (k, t) s -> all_atom_args (fun u => (mcount (m_index k) u <= 1)%nat) f.
(** A metavariable of the literal is not bound to a metavariable that is neither one of the literal nor in a function term
    bound to one of it. *)
Definition direct_relevant (mm : list meta) (s : list (meta * term)) : Prop :=
  forall k b, In (k, Meta b) s -> In (m_index k) (map m_index mm) -> relevant mm s (m_index b).
(** The key under which a rule is filed, its printed form, tells its atom from those of the other rules. *)
Definition keys_apart (key : form -> string) (rules : list (form * form)) : Prop :=
  forall r r', In r rules -> In r' rules -> key (fst r) = key (fst r') -> same_atom (fst r) (fst r').
