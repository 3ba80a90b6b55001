(** Solutions of equality problems.  Independent of Bse_Model.v. *)
From Coq Require Import ZArith List Bool String Ascii.
From Verif Require Import Ast_Model Unif_Spec.
Import ListNotations.
Open Scope Z_scope.

(** The equalities hold in the algebra, for the values of the metavariables. *)
Definition eqs (A : alg) (v : Z -> dom A) (E : list (term * term)) : Prop := forall a b, In (a, b) E -> tev A v a = tev A v b.
(** A solution of E |- s = t: wherever the bindings of the substitution hold (the metavariables are rigid) and the
    equalities hold, the two terms are equal. *)
Definition solution (E : list (term * term)) (s t : term) (sg : list (meta * term)) : Prop :=
  forall A v, solves A v sg -> eqs A v E -> tev A v s = tev A v t.

(** Names without the characters of the syntax of terms *)
Fixpoint plain (s : string) : Prop :=
  match s with
  | EmptyString => True
  | String c r => c <> "("%char /\ c <> ")"%char /\ c <> ","%char /\ plain r
  end.
Definition good_name (s : string) : Prop := s <> EmptyString /\ plain s.
(** A name is the one of a single symbol or of a single metavariable. *)
Definition distinct_names (ar : signature) : Prop :=
  (forall m m', known ar m -> known ar m' -> m_name m = m_name m' -> m_index m = m_index m') /\
  (forall p q, symbol ar p -> symbol ar q -> id_name p = id_name q -> id_index p = id_index q) /\
  (forall m p, known ar m -> symbol ar p -> m_name m <> id_name p) /\
  (forall m, known ar m -> good_name (m_name m)) /\ (forall p, symbol ar p -> good_name (id_name p)).
