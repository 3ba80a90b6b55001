(** What substitutions should be: finite systems of equations.  Independent of Unif_Model.v. *)
From Coq Require Import ZArith List.
From Verif Require Import Ast_Model Occ_Spec Sem_Spec.
Import ListNotations.
Open Scope list_scope.
Open Scope Z_scope.

(** An algebra interprets the symbols, a valuation the metavariables. *)
Record alg : Type := mkAlg
  { dom : Type; a_fun : Z -> list ty -> list dom -> dom; a_id : Z -> dom; a_var : Z -> dom }.
Fixpoint tev (A : alg) (v : Z -> dom A) (t : term) : dom A :=
  match t with
  | TId i => a_id A (id_index i)
  | Fun p tys l => a_fun A (id_index p) tys (map (tev A v) l)
  | Var i _ => a_var A i
  | Meta m => v (m_index m)
  end.
(** every binding is an equation between the metavariable and its term *)
Definition solves (A : alg) (v : Z -> dom A) (s : list (meta * term)) : Prop :=
  forall k t, In (k, t) s -> v (m_index k) = tev A v t.

Definition keys (s : list (meta * term)) : list Z := map (fun p => m_index (fst p)) s.
(** the metavariables of the prover have non-negative indices; -1 is the one of MakeEmptyMeta *)
Definition proper (s : list (meta * term)) : Prop := ~ In (-1) (keys s).

(** Solved form: each metavariable bound once, none of them occurs in a bound term. *)
Definition solved (s : list (meta * term)) : Prop :=
  NoDup (keys s) /\ forall k t b, In (k, t) s -> In b (t_metas t) -> ~ In b (keys s).

(** Cycle: a non-empty set of bound metavariables, each of which has in its term a member of the set. *)
Definition cyclic (s : list (meta * term)) : Prop :=
  exists B, B <> [] /\ forall b, In b B ->
    exists k t b', In (k, t) s /\ m_index k = b /\ In b' (t_metas t) /\ In b' B.
(** No cycle: the bound metavariables can be ranked. *)
Definition ranked (r : Z -> nat) (s : list (meta * term)) : Prop :=
  forall k t b, In (k, t) s -> In b (keys s) -> In b (t_metas t) -> (r b < r (m_index k))%nat.
Definition acyclic (s : list (meta * term)) : Prop := exists r, ranked r s.

(** The symbols and the metavariables of a problem: the number of arguments of each symbol, and which metavariables and
    symbols there are ([fun _ => True] to say nothing about them). *)
Record signature : Type := mkSig { arity :> Z -> nat; known : meta -> Prop; symbol : ident -> Prop }.
Definition pmeta (ar : signature) (m : meta) : Prop := 0 <= m_index m /\ known ar m.
(** A proper unification problem has first-order terms only, the applications of a symbol have all the same number of
    arguments, and no type arguments are left. *)
Fixpoint well (ar : signature) (t : term) : Prop :=
  match t with
  | Meta m => pmeta ar m
  | Fun p tys l => tys = [] /\ List.length l = ar (id_index p) /\ symbol ar p /\
                   (fix go (l : list term) : Prop := match l with [] => True | a :: r => well ar a /\ go r end) l
  | _ => False
  end.

(** A proper substitution: each metavariable bound once, to a proper term. *)
Definition okS (ar : signature) (s : list (meta * term)) : Prop :=
  NoDup (keys s) /\ forall k t, In (k, t) s -> pmeta ar k /\ well ar t.
(** algebras in which the applications of a symbol are equal only when their arguments are, as for terms *)
Definition injective (A : alg) : Prop := forall p tys l tys' l', a_fun A p tys l = a_fun A p tys' l' -> l = l'.
Definition entails (s1 s2 : list (meta * term)) : Prop := forall A w, solves A w s1 -> solves A w s2.

(** ** Substitutions as finite maps *)
Definition same_map (s1 s2 : list (meta * term)) : Prop :=
  forall i, match assoc i s1, assoc i s2 with
            | Some a, Some b => same_term a b
            | None, None => True
            | _, _ => False
            end.
(** A substitution of the equations by terms, and its application. *)
Fixpoint tsub (w : Z -> term) (t : term) : term :=
  match t with
  | Meta m => w (m_index m)
  | Fun p tys args => Fun p tys (map (tsub w) args)
  | _ => t
  end.
Definition unifies (w : Z -> term) (s : list (meta * term)) : Prop :=
  forall k t, In (k, t) s -> same_term (w (m_index k)) (tsub w t).
