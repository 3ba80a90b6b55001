(** C146, C147: a substitution is applied to a branch, and the search for a contradiction is made again. *)
From Coq Require Import ZArith List Bool String.
From Verif Require Import LibSet_Model Ast_Model Occ_Spec Rules_Model Sem_Spec Rules_Spec Tableau_Spec Expand_Model Expand_Spec Ast_Proofs Skolem_Witness Tableau_Witness Expand_Witness
  Unif_Model Unif_Spec Unif_Witness UnifTree_Model UnifTree_Witness Closure_Model Closure_Spec Closure_Proofs Closure_Final Closure_Witness
  Select_Model Select_Spec GlobUnif_Model Restrict_Model Leaf_Model Apply_Model Apply_Spec Apply_Proofs Apply_Witness.
Import ListNotations.
Open Scope list_scope.
Open Scope Z_scope.

(** C146: for the values of the metavariables and of the type metavariables that obey the substitution, the branch after it is applied
    says what it said before, whatever the occurrences that are replaced. *)
Theorem C146 : forall same I (v : val I) s st, unbound_subst s -> obeys v s ->
  (all_hold (forms_of (apply_state same s st)) v <-> all_hold (forms_of st) v).
Proof. exact (fun same I v s st => @applied_says same I v s st). Qed.
Print Assumptions C146.
(** A := $i and X := b on p(A,f(X,X)) and ! [Y] : p(A,f(X,Y)) *)
Example C146_case : unbound_subst ab /\ obeys valL ab /\
  map ft_form (forms_of (apply_state same0 ab t_st)) = [Pred 1 pP [iT] [ff bb (Meta mX30)]; All 2 [mkTV "Y" 21 iT] (Pred 3 pP [iT] [ff bb y_])].
Proof. exact (conj ab_unbound (conj ab_obeyed t_applied)). Qed.

(** C147 refuted: a branch that no substitution closes, a substitution applied to it; the search that follows finds one that closes
    it, and the process that has it to send stops the prover. *)
Theorem C147_refuted : exists ar st s f sg m, monomorphic ar mono0 /\ arity ar 0 = 2%nat /\ plain_subst ar s /\
  (forall x, In x (q_atomic (st_q (apply_state same0 s st))) -> first_order ar (ft_form x)) /\
  again_strict 0 nid mono0 30 30 (apply_state same0 s st) [] <> Out /\
  again_real 0 nid mono0 30 30 (apply_state same0 s st) [] = Ok (Some (f, [sg])) /\
  (forall w, ~ closes 0 w (branch_of st)) /\ leaf 30 30 [m] (s, []) [] [sg] f = Crash.
Proof.
  exact (ex_intro _ aar (ex_intro _ w_st (ex_intro _ xb (ex_intro _ _ (ex_intro _ xc (ex_intro _ mX30
    (conj aar_mono (conj eq_refl (conj xb_plain (conj w_fo (conj w_strict (conj w_found (conj w_open w_stops))))))))))))).
Qed.
Print Assumptions C147_refuted.
(** C147 (partial): the values that obey both the applied substitution and one that is found close the branch as it was before; those
    that obey the applied one do when nothing is asked.  Missing: that there are such values; types; the runs which lose a binding (C30). *)
Theorem C147_partial : forall same eqi name_id ty_arity n fe ar st s forb f l, arity ar eqi = 2%nat -> monomorphic ar ty_arity ->
  (forall x i fo u, ~ In (MTy x i fo u) s) ->
  (forall x, In x (q_atomic (st_q (apply_state same s st))) -> first_order ar (ft_form x)) ->
  again_strict eqi name_id ty_arity n fe (apply_state same s st) forb <> Out ->
  again_real eqi name_id ty_arity n fe (apply_state same s st) forb = Ok (Some (f, l)) ->
  (l = [] -> forall w, extends w (binds s) -> closes eqi w (branch_of st)) /\
  forall sg, In sg l -> forall w, extends w (binds sg) -> extends w (binds s) -> closes eqi w (branch_of st).
Proof. exact again_closes. Qed.
Print Assumptions C147_partial.
(** p(f(X,Y)) and ~ p(f(b,c)): X := b is applied, Y := c is found *)
Example C147_case : arity aar 0 = 2%nat /\ monomorphic aar mono0 /\ plain_subst aar xb /\
  (forall x, In x (q_atomic (st_q (apply_state same0 xb a_st))) -> first_order aar (ft_form x)) /\
  again_strict 0 nid mono0 30 30 (apply_state same0 xb a_st) [] <> Out /\
  again_real 0 nid mono0 30 30 (apply_state same0 xb a_st) [] = Ok (Some (Pred 1 pP [] [ff bb (Meta mY31)], [yc])).
Proof. exact (conj eq_refl (conj aar_mono (conj xb_plain (conj a_fo (conj a_strict a_found))))). Qed.
