(** What the recovery of instantiation terms should do (C51). *)
From Coq Require Import ZArith List.
From Verif Require Import Ast_Model Sem_Spec Occ_Spec Subst_Model.
Import ListNotations.
Open Scope list_scope.
Open Scope Z_scope.

(** the variables and the body of a formula with a gamma rule, of a formula with a delta rule *)
Definition gamma_of (f : form) (vs : list tvar) (body : form) : Prop :=
  (exists i, f = All i vs body) \/ exists i j, f = Not i (Ex j vs body).
Definition delta_of (f : form) (vs : list tvar) (body : form) : Prop :=
  (exists i, f = Ex i vs body) \/ exists i j, f = Not i (All j vs body).

(** Textbook replacement of every occurrence of variable [i] by [u]. *)
Fixpoint vinst (i : Z) (u : term) (t : term) : term :=
  match t with
  | Var j _ => if j =? i then u else t
  | Fun p tys args => Fun p tys (map (vinst i u) args)
  | _ => t
  end.
Fixpoint fvinst (i : Z) (u : term) (f : form) : form :=
  match f with
  | All x vs g => All x vs (fvinst i u g)
  | Ex x vs g => Ex x vs (fvinst i u g)
  | Or x fs => Or x (map (fvinst i u) fs)
  | And x fs => And x (map (fvinst i u) fs)
  | Equ x a b => Equ x (fvinst i u a) (fvinst i u b)
  | Imp x a b => Imp x (fvinst i u a) (fvinst i u b)
  | Not x g => Not x (fvinst i u g)
  | Pred x p tys args => Pred x p tys (map (vinst i u) args)
  | Top _ | Bot _ => f
  end.
(** [r] is [f] with its first variable [v] replaced by [u], whatever the indices of the formulas *)
Definition gamma_instance (f : form) (v : tvar) (body : form) (u : term) (r : form) : Prop :=
  let b := fvinst (tv_index v) u body in
  (exists i, f = All i [v] body /\ r = b) \/
  (exists i j w rest, f = All i (v :: w :: rest) body /\ r = All j (w :: rest) b) \/
  (exists i j k, f = Not i (Ex j [v] body) /\ r = Not k b) \/
  (exists i j k l w rest, f = Not i (Ex j (v :: w :: rest) body) /\ r = Not k (Ex l (w :: rest) b)).
Definition delta_instance (f : form) (v : tvar) (body : form) (u : term) (r : form) : Prop :=
  let b := fvinst (tv_index v) u body in
  (exists i, f = Ex i [v] body /\ r = b) \/
  (exists i j w rest, f = Ex i (v :: w :: rest) body /\ r = Ex j (w :: rest) b) \/
  (exists i j k, f = Not i (All j [v] body) /\ r = Not k b) \/
  (exists i j k l w rest, f = Not i (All j (v :: w :: rest) body) /\ r = Not k (All l (w :: rest) b)).

(** the bindings of a substitution applied one after the other, each to all the occurrences *)
Definition bind_term (b : mixed) (t : term) : term :=
  match b with MTy m u => term_subst_ty m u t | MTerm m u => msubst (m_index m) u t end.
Definition bind_form (b : mixed) (f : form) : form :=
  match b with MTy m u => form_subst_ty m u f | MTerm m u => fmsubst (m_index m) u f end.
Definition full_term (s : list mixed) (t : term) : term := fold_left (fun t b => bind_term b t) s t.
Definition full_form (s : list mixed) (f : form) : form := fold_left (fun f b => bind_form b f) s f.
(** no metavariable is replaced that occurs twice in an argument of an atom, or by itself *)
Fixpoint stays_linear (s : list mixed) (f : form) : Prop :=
  match s with
  | [] => True
  | b :: r =>
    match b with
    | MTy _ _ => True
    | MTerm m u => (forall m', u = Meta m' -> m_index m' <> m_index m) /\ all_atom_args (fun t => mcount (m_index m) t <= 1)%nat f
    end /\ stays_linear r (bind_form b f)
  end.
(** the variable does not occur in the terms of the substitution *)
Definition avoids (i : Z) (s : list mixed) : Prop := forall m u, In (MTerm m u) s -> ~ In i (t_vars u).
