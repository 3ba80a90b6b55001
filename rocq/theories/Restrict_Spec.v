(** What the restriction of a substitution to the metavariables of the parent must preserve, independently of how it is
    computed (C39). *)
From Coq Require Import ZArith List.
From Verif Require Import Ast_Model Occ_Spec Unif_Spec.
Import ListNotations.
Open Scope Z_scope.

Definition agree (mm : list meta) {D} (v v' : Z -> D) : Prop := forall m, In m mm -> v (m_index m) = v' (m_index m).
(** Nothing about the metavariables of the parent is lost: a solution of the restriction is, on them, one of the whole. *)
Definition keeps (mm : list meta) (s r : list (meta * term)) : Prop :=
  forall A v, solves A v r -> exists v', agree mm v v' /\ solves A v' s.
(** Nothing is invented: a solution of the whole is one of the restriction. *)
Definition invents_nothing (s r : list (meta * term)) : Prop := forall A v, injective A -> solves A v s -> solves A v r.

(** The metavariables a restriction in the sense of the code may mention: those of the parent and those of the function
    terms they are bound to. *)
Definition relevant (mm : list meta) (s : list (meta * term)) (b : Z) : Prop :=
  In b (map m_index mm) \/
  exists k t, In (k, t) s /\ In (m_index k) (map m_index mm) /\ (forall n, t <> Meta n) /\ In b (t_metas t).
(** Two metavariables of the parent are bound to the same metavariable, which is not a relevant one. *)
Definition shared (mm : list meta) (s : list (meta * term)) : Prop :=
  exists k k' n n', In (k, Meta n) s /\ In (k', Meta n') s /\ m_index k <> m_index k' /\ m_index n = m_index n' /\
    In (m_index k) (map m_index mm) /\ In (m_index k') (map m_index mm) /\ ~ relevant mm s (m_index n).

(** Nothing is lost, and only local metavariables of the substitution change. *)
Definition untouched (s : list (meta * term)) (b : Z) : Prop := ~ In b (map (fun p => m_index (fst p)) s) /\ forall k t, In (k, t) s -> ~ In b (t_metas t).
Definition keeps_more (mm : list meta) (s r : list (meta * term)) : Prop :=
  forall A v, solves A v r -> exists v', (forall b, relevant mm s b \/ untouched s b -> v b = v' b) /\ solves A v' s.
