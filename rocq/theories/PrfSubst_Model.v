(** Model of what is done to the proof found before it is printed: Search/proof.go:385-432, Search/destructive.go:139-150.

    The lists of terms beside the formulas are left out, as in [GsProof_Model.pstep]: the formulas generated for one branch by
    one rule have the same list (Core/rules.go keeps the list of the formula decomposed), so they are equal for
    FormAndTerms.Equals when the formulas are equal. The copies are the identity. *)
From Coq Require Import ZArith List Bool.
From Verif Require Import LibSet_Model Ast_Model Subst_Model GsProof_Model.
Import ListNotations.
Open Scope list_scope.
Open Scope Z_scope.

(** Core/form_and_terms_list.go:141-158 Contains, AppendIfNotContains *)
Definition add_new (l : list form) (f : form) : list form := if existsb (form_eqb f) l then l else l ++ [f].
(** Core/substitutions_search.go:335-343 ApplySubstitutionsOnFormAndTermsList *)
Definition subst_forms (s : list mixed) (l : list form) : list form :=
  fold_left (fun res f => add_new res (apply_substs_on_form s f)) l [].
(** proof.go:411-432 ApplySubstitutionOnProofList, one step; Core/substitutions_search.go:298-332 *)
Fixpoint subst_step (s : list mixed) (p : pstep) : pstep :=
  let '(PS f d i n rs cs) := p in
  PS (apply_substs_on_form s f) d i n (map (subst_forms s) rs) (map (map (subst_step s)) cs).
Definition subst_proof (s : list mixed) (l : list pstep) : list pstep := map (subst_step s) l.
(** proof.go:385-405 RetrieveUninstantiatedMetaFromProof, one step: what is added to the set *)
Fixpoint step_metas (res : option mset) (p : pstep) : option mset :=
  let '(PS f _ _ _ rs cs) := p in
  let res := union_opt res (form_metas f) in
  let res := fold_left (fun res g => union_opt res (form_metas g)) (concat rs) res in
  fold_left (fun res c => union_opt res (fold_left step_metas c (Some Leaf))) cs res.
Definition proof_metas (l : list pstep) : option mset := fold_left step_metas l (Some Leaf).
(** destructive.go:145-149: the proof that is printed and the metavariables left *)
Definition final_proof (unif : list mixed) (l : list pstep) : list pstep * option mset :=
  let l := match unif with [] => l | _ => subst_proof unif l end in (l, proof_metas l).
