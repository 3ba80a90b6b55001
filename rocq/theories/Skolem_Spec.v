(** What a run of the delta rule is, and what is asked of the formulas it is applied to. *)
From Coq Require Import ZArith List Bool String.
From Verif Require Import LibSet_Model Ast_Model Problem_Model Rules_Model Sem_Spec Occ_Spec Free_Spec Rules_Spec Ast_Proofs.
Import ListNotations.
Open Scope Z_scope.

(** An existential formula: its first variable and what remains of the formula without it. *)
Definition ex_tail (f : form) : option (tvar * form) :=
  match f with
  | Ex i (x :: r) h => Some (x, Ex i r h)
  | Not j (All i (x :: r) h) => Some (x, Not j (All i r h))
  | _ => None
  end.
(** no quantification on types *)
Definition no_ty_binders (f : form) : Prop := forall x, In x (f_binders f) -> is_ttype (tv_ty x) = false.

(** [d] can be Skolemized in a run that started with counter [b0]: closed, bound variables older than the
    run, the first variable is an individual, no type metavariable; outer Skolemization is given all its
    metavariables; pre-inner Skolemization is given no quantification on types. *)
Record delta_ok (b0 : Z) (k : sko_kind) (g : gen) (mm mc : mset) (d : form) : Prop := {
  dl_wff : wff g d;
  dl_old : forall x, In x (f_binders d) -> tv_index x < b0;
  dl_var : exists x t, ex_tail d = Some (x, t) /\ is_ttype (tv_ty x) = false;
  dl_ty : f_tymetas d = [];
  dl_sets : mok mm /\ mok mc;
  dl_lt : forall m, has mm m \/ has mc m -> m_index m < cpt_term g;
  dl_outer : k = Outer -> forall m, In (m_index m) (f_metas d) -> has mm m \/ has mc m;
  dl_pre : k = PreInner -> no_ty_binders d }.

(** Runs: successive delta rules, with other uses of the counters in between; the list holds the formulas
    Skolemized and their results. *)
Inductive sko_run (b0 : Z) (k : sko_kind) : gen -> sko -> list (form * form) -> Prop :=
| run_start g c : b0 <= cpt_term g -> sko_run b0 k g (mkSko k c []) []
| run_other g g' s h : sko_run b0 k g s h -> cpt_term g <= cpt_term g' -> sko_run b0 k g' s h
| run_delta g s h x mm mc y s' g' : sko_run b0 k g s h -> delta_ok b0 k g mm mc (ft_form x) ->
    apply_delta s x mm mc g = Some (y, s', g') -> sko_run b0 k g' s' ((ft_form x, ft_form y) :: h).
