(** What the incremental search should do, stated without its substitution and closure managers. *)
From Coq Require Import ZArith List Bool String.
From Verif Require Import LibSet_Model Ast_Model Problem_Model Rules_Model Sem_Spec Rules_Spec Unif_Model Unif_Spec Incr_Model.
Import ListNotations.
Open Scope list_scope.
Open Scope Z_scope.

(** ** Substitutions *)
(** [t] satisfies the equations of [s]; a metavariable bound to anyTerm is not constrained, SubJoker constrains nothing *)
Definition satisfies (t : list (meta * term)) (s : sub) : Prop :=
  forall k u, In (k, Some u) (every s) -> same_term (ssubst t (Meta k)) (ssubst t u).
(** each metavariable is bound once *)
Definition functional (s : sub) : Prop := NoDup (map (fun b => m_index (fst b)) (every s)).
(** some metavariable is bound to different terms *)
Definition disagree (s o : sub) : Prop :=
  exists k k' u u', In (k, Some u) (every s) /\ In (k', Some u') (every o) /\ m_index k = m_index k' /\ ~ same_term u u'.

(** ** Trees *)
(** the formulas of a node *)
Definition forms_of (m : mgr) : list fat := mg_pos m ++ mg_neg m ++ mg_alpha m ++ mg_beta m ++ mg_gamma m ++ mg_delta m.
Definition node_at (w : world) (i : nat) (n : snode) : Prop := nth_error (w_nodes w) i = Some n.
Inductive below (w : world) : nat -> nat -> Prop :=
| be_self i : below w i i
| be_child i n c j : node_at w i n -> In c (n_children n) -> below w c j -> below w i j.
Definition leaf_of (w : world) (i j : nat) (n : snode) : Prop := below w i j /\ node_at w j n /\ n_children n = [].
(** [t] makes the formulas contradictory: bottom, the negation of top, or two complementary literals *)
Inductive clash (t : list (meta * term)) (l : list fat) : Prop :=
| ch_bot i ts : In (mkFat (Bot i) ts) l -> clash t l
| ch_top i j ts : In (mkFat (Not i (Top j)) ts) l -> clash t l
| ch_pair i p tys args ts i' j' p' tys' args' ts' :
    In (mkFat (Pred i p tys args) ts) l -> In (mkFat (Not i' (Pred j' p' tys' args')) ts') l ->
    id_index p = id_index p' -> Forall2 same_ty tys tys' ->
    Forall2 (fun a a' => same_term (ssubst t a) (ssubst t a')) args args' -> clash t l.
(** [t] closes every leaf below [i] *)
Definition closed_below (t : list (meta * term)) (w : world) (i : nat) : Prop :=
  forall j n, leaf_of w i j n -> clash t (forms_of (n_mgr n)).

(** no quantifier, no connective without arguments, and first-order literals *)
Fixpoint propositional (ar : Unif_Spec.signature) (f : form) : Prop :=
  match f with
  | All _ _ _ | Ex _ _ _ => False
  | Or _ fs | And _ fs =>
    fs <> [] /\ (fix go (l : list form) : Prop := match l with [] => True | a :: r => propositional ar a /\ go r end) fs
  | Equ _ a b | Imp _ a b => propositional ar a /\ propositional ar b
  | Not _ g => propositional ar g
  | Pred _ p tys args => tys = [] /\ well ar (Fun p [] args)
  | Top _ | Bot _ => True
  end.

(** ** Models *)
Definition unsat (f : form) : Prop := forall I (v : val I), ~ holds f v.

(** the formula can be used at a node, now or by a reintroduction *)
Definition available (f : form) (m : mgr) : Prop :=
  exists y, (In y (forms_of m) \/ In y (map fst (mg_reintro m))) /\ form_eqb (ft_form y) f = true.
