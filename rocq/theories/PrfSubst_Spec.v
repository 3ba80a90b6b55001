(** What the proof printed should be (C103, C104). *)
From Coq Require Import ZArith List Bool.
From Verif Require Import Ast_Model Sem_Spec Occ_Spec Subst_Model GsTerm_Spec GsProof_Model GsProof_Spec.
Import ListNotations.
Open Scope list_scope.
Open Scope Z_scope.

(** A tableau with metavariables that is closed by [s]: the rules are applied to the formulas as they are, and each branch is
    closed once all the occurrences of the metavariables are replaced by [s]. *)
Section Free.
Variable s : list mixed.
Variable delta_ok : list form -> tvar -> form -> term -> Prop.
Inductive vtab : list form -> list pstep -> Prop :=
| V_close Gamma p : ps_rule p = AX -> In (ps_form p) Gamma -> clash (map (full_form s) Gamma) (full_form s (ps_form p)) -> ps_children p = [] -> vtab Gamma [p]
| V_alpha Gamma p rest l fs : In (ps_form p) Gamma -> alpha_of (ps_rule p) (ps_form p) l -> ps_results p = [fs] -> among fs l ->
    vtab (Gamma ++ fs) rest -> ps_children p = [] -> vtab Gamma (p :: rest)
| V_gamma Gamma p rest v b u r : In (ps_form p) Gamma -> gamma_by (ps_rule p) (ps_form p) v b u r -> avoids (tv_index v) s -> ps_results p = [[r]] ->
    vtab (Gamma ++ [r]) rest -> ps_children p = [] -> vtab Gamma (p :: rest)
| V_delta Gamma p rest v b u r : In (ps_form p) Gamma -> delta_by (ps_rule p) (ps_form p) v b u r -> avoids (tv_index v) s -> ps_results p = [[r]] ->
    (forall v', tv_index v' = tv_index v -> delta_ok (map (full_form s) Gamma) v' (full_form s b) (full_term s u)) ->
    vtab (Gamma ++ [r]) rest -> ps_children p = [] -> vtab Gamma (p :: rest)
| V_skip Gamma p rest : ps_rule p = R -> vtab Gamma rest -> ps_children p = [] -> vtab Gamma (p :: rest)
| V_beta Gamma p ls : In (ps_form p) Gamma -> beta_of (ps_rule p) (ps_form p) ls -> Forall2 among (ps_results p) ls -> ls <> [] ->
    Forall2 (fun fs c => vtab (Gamma ++ fs) c) (ps_results p) (ps_children p) -> vtab Gamma [p].
End Free.
(** The same with the formulas of a rule found in the branch up to [R], without substitution: [R] is equality for a proof whose
    formulas have the indices of the branch ([GsProof_Spec.tab]), [same] when indices do not count. *)
Section Up.
Variable R : form -> form -> Prop.
Variable delta_ok : list form -> tvar -> form -> term -> Prop.
Definition found (f : form) (Gamma : list form) : Prop := exists h, In h Gamma /\ R f h.
Inductive utab : list form -> list pstep -> Prop :=
| U_close Gamma p : ps_rule p = AX -> found (ps_form p) Gamma -> clash Gamma (ps_form p) -> ps_children p = [] -> utab Gamma [p]
| U_alpha Gamma p rest l fs : found (ps_form p) Gamma -> alpha_of (ps_rule p) (ps_form p) l -> ps_results p = [fs] -> among fs l ->
    utab (Gamma ++ fs) rest -> ps_children p = [] -> utab Gamma (p :: rest)
| U_gamma Gamma p rest v b u r : found (ps_form p) Gamma -> gamma_by (ps_rule p) (ps_form p) v b u r -> ps_results p = [[r]] ->
    utab (Gamma ++ [r]) rest -> ps_children p = [] -> utab Gamma (p :: rest)
| U_delta Gamma p rest v b u r : found (ps_form p) Gamma -> delta_by (ps_rule p) (ps_form p) v b u r -> ps_results p = [[r]] ->
    delta_ok Gamma v b u -> utab (Gamma ++ [r]) rest -> ps_children p = [] -> utab Gamma (p :: rest)
| U_skip Gamma p rest : ps_rule p = GsProof_Model.R -> utab Gamma rest -> ps_children p = [] -> utab Gamma (p :: rest)
| U_beta Gamma p ls : found (ps_form p) Gamma -> beta_of (ps_rule p) (ps_form p) ls -> Forall2 among (ps_results p) ls -> ls <> [] ->
    Forall2 (fun fs c => utab (Gamma ++ fs) c) (ps_results p) (ps_children p) -> utab Gamma [p].
End Up.
(** no two formulas of the list are equal up to indices *)
Fixpoint distinct (l : list form) : Prop := match l with [] => True | f :: l => Forall (fun g => ~ same g f) l /\ distinct l end.
(** the formulas generated by a rule for a branch somewhere in a proof *)
Inductive generated : list form -> list pstep -> Prop :=
| Gen_here fs p l : In p l -> In fs (ps_results p) -> generated fs l
| Gen_child fs c p l : In p l -> In c (ps_children p) -> generated fs c -> generated fs l.
(** the condition on the terms of the delta rules is kept when there are fewer formulas *)
Definition antitone (delta_ok : list form -> tvar -> form -> term -> Prop) : Prop :=
  forall Gamma Gamma' v b u, incl Gamma' Gamma -> delta_ok Gamma v b u -> delta_ok Gamma' v b u.
(** the formulas of a proof *)
Inductive in_proof : form -> list pstep -> Prop :=
| In_form p l : In p l -> in_proof (ps_form p) l
| In_result f r p l : In p l -> In r (ps_results p) -> In f r -> in_proof f l
| In_child f c p l : In p l -> In c (ps_children p) -> in_proof f c -> in_proof f l.
