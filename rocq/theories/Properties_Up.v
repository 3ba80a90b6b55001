(** C136-C141: what a node with children sends to its father. *)
From Coq Require Import ZArith List Bool String.
From Verif Require Import Ast_Model Occ_Spec Sem_Spec Unif_Model Unif_Spec UnifLoss_Model Unif_Witness Closure_Model Select_Model Select_Spec Select_Final GlobUnif_Model Restrict_Model Restrict_Spec Restrict_Witness
  Leaf_Model Leaf_Spec Leaf_Witness Up_Model Up_Spec Up_Proofs Up_Witness.
From Verif Require Select_Witness.
Import ListNotations.
Open Scope list_scope.
Open Scope Z_scope.

(** C136 refuted: a substitution sent to the father has a solution that extends to none of the substitutions of the children. *)
Theorem C136_refuted : exists n fe mm applied l again st t, node_pass n fe mm applied l again = Ok st /\ up_need st = true /\ In t (up_substs st) /\ ~ honest mm applied l t.
Proof.
  exact (ex_intro _ 30%nat (ex_intro _ 30%nat (ex_intro _ (mX 4 :: mm_sh) (ex_intro _ none (ex_intro _ u_sh (ex_intro _ [] (ex_intro _ u_shsent (ex_intro _ ([MTerm (mX 4) ka], [f0])
    (conj u_shpass (conj eq_refl (conj (or_introl eq_refl) u_shopen))))))))))).
Qed.
Print Assumptions C136_refuted.
(** C136 (partial): otherwise each one extends to a solution of one of them and of the substitution applied at the node.  Missing: the
    merges that drop an equation (C36), and the substitutions that bind two metavariables of the father to a local one (C39). *)
Theorem C136_partial : forall ar n fe mm applied l, clean ar n fe mm applied l ->
  forall again st, node_pass n fe mm applied l again = Ok st -> forall t, In t (up_substs st) -> honest mm applied l t.
Proof. exact node_honest. Qed.
Print Assumptions C136_partial.
(** C136 (partial): nothing is lost: what solves a substitution of the children, and the one applied at the node, solves one that is sent,
    if the father is asked for something. *)
Theorem C136_complete_partial : forall ar n fe mm applied l, clean ar n fe mm applied l ->
  forall again st, node_pass n fe mm applied l again = Ok st ->
  forall s, In s l -> ~ seen (restrict_mixed fe (add_unif n fe)) (merge_mixed n fe) mm applied s [] ->
  forall A v, injective A -> typeless A -> solves A v (binds (fst s)) -> solves A v (binds (fst applied)) ->
  exists t, In t (up_substs st) /\ solves A v (binds (fst t)).
Proof. exact node_complete. Qed.
Print Assumptions C136_complete_partial.
Example C136_case : clean war 30 30 [mX 1] u_ap u_3 /\ node_pass 30 30 [mX 1] u_ap u_3 [7] = Ok u_sent /\ In (s_2, [Bot 2]) u_3 /\
  ~ seen (restrict_mixed 30 (add_unif 30 30)) (merge_mixed 30 30) [mX 1] u_ap (s_2, [Bot 2]) [].
Proof. exact (conj u_clean (conj u_pass (conj (or_intror (or_intror (or_introl eq_refl))) u_asks))). Qed.

(** C137 refuted: the children agree on a substitution that asks nothing of the father, and the node asks for something. *)
Theorem C137_refuted : exists ar n fe mm applied l again st s, clean ar n fe mm applied l /\ node_pass n fe mm applied l again = Ok st /\ In s l /\
  seen (restrict_mixed fe (add_unif n fe)) (merge_mixed n fe) mm applied s [] /\ up_need st = true.
Proof.
  exact (ex_intro _ war (ex_intro _ 30%nat (ex_intro _ 30%nat (ex_intro _ [mX 1] (ex_intro _ none (ex_intro _ u_free (ex_intro _ [] (ex_intro _ u_fsent (ex_intro _ (s_g, [Top 1])
    (conj u_fclean (conj u_fpass (conj (or_introl eq_refl) (conj u_fseen eq_refl))))))))))))).
Qed.
Print Assumptions C137_refuted.
(** C137 (partial): it asks for nothing exactly when none of the substitutions asks for something. *)
Theorem C137_partial : forall restr mg mm applied l again st, pass_up restr mg mm applied l again = Ok st ->
  (up_need st = false <-> forall s c, In s l -> seen restr mg mm applied s c -> c = []).
Proof. exact (fun restr mg mm applied l again st E => proj2 (proj2 (proj2 (pass_up_ok restr mg mm applied l again st E)))). Qed.
Print Assumptions C137_partial.
(** C137 (partial): and then whatever the metavariables of the father are, the children can be closed. *)
Theorem C137_alone_partial : forall ar n fe mm applied l, clean ar n fe mm applied l ->
  forall again st, node_pass n fe mm applied l again = Ok st -> up_need st = false -> l <> [] ->
  forall A v, closable mm (fst applied) (map fst l) A v.
Proof. exact node_alone. Qed.
Print Assumptions C137_alone_partial.
Example C137_case : clean war 30 30 [mX 1] none [(s_g, [Top 1])] /\ node_pass 30 30 [mX 1] none [(s_g, [Top 1])] [3] = Ok (mkSent false [] [3]).
Proof. exact (conj u_gclean u_gpass). Qed.

(** C138: the substitutions that are sent are distinct, they are those the father sees, and each has the formulas of all the
    substitutions of the children that give it. *)
Theorem C138_gathers : forall restr mg mm applied l again st, pass_up restr mg mm applied l again = Ok st -> gathers (seen restr mg mm applied) l (up_substs st).
Proof. exact (fun restr mg mm applied l again st E => proj1 (pass_up_ok restr mg mm applied l again st E)). Qed.
Print Assumptions C138_gathers.
Example C138_case : node_pass 30 30 [mX 1] u_ap u_3 [7] = Ok u_sent /\ up_substs u_sent = [([MTerm (mX 1) ka], [Top 1; Bot 2]); ([MTerm (mX 1) kb], [Top 4])].
Proof. exact (conj u_pass eq_refl). Qed.

(** C139: the formulas to introduce again are the ones of before and those of the metavariables bound by what the father sees. *)
Theorem C139_reintroduces : forall restr mg mm applied l again st, pass_up restr mg mm applied l again = Ok st ->
  reintroduces (seen restr mg mm applied) l again (up_again st).
Proof. exact (fun restr mg mm applied l again st E => proj1 (proj2 (pass_up_ok restr mg mm applied l again st E))). Qed.
Print Assumptions C139_reintroduces.
Example C139_case : node_pass 30 30 [mX 1] u_ap u_3 [7] = Ok u_sent /\ up_again u_sent = [7; 0].
Proof. exact (conj u_pass eq_refl). Qed.

(** C140 refuted: the children close by themselves, and what is sent says nothing of an equality the applied substitution asks for. *)
Theorem C140_refuted : exists n fe mm applied current again st, node_itself n fe mm applied current again = Ok (Some st) /\
  exists A (v : Z -> dom A), (forall t, In t (up_substs st) -> solves A v (binds (fst t))) /\ ~ exists v', agree mm v v' /\ solves A v' (binds (fst applied)).
Proof.
  exact (ex_intro _ 30%nat (ex_intro _ 30%nat (ex_intro _ mm_sh (ex_intro _ (mixed_terms s_sh, [f0]) (ex_intro _ none (ex_intro _ [] (ex_intro _ (mkSent false [] [])
    (conj u_shitself u_shlost)))))))).
Qed.
Print Assumptions C140_refuted.
(** C140 (partial): otherwise the solutions of what is sent extend to solutions of the applied substitution.  Missing: as in C39. *)
Theorem C140_partial : forall ar n fe mm applied current again st, sane ar n fe mm (fst applied) -> node_itself n fe mm applied current again = Ok (Some st) ->
  forall A v, (forall t, In t (up_substs st) -> solves A v (binds (fst t))) -> exists v', agree mm v v' /\ solves A v' (binds (fst applied)).
Proof. exact itself_keeps. Qed.
Print Assumptions C140_partial.
(** C140 (partial): the applied substitution, restricted, is sent with its formulas and asks for no answer; nothing is sent, with an
    error, exactly when the node works with a substitution. *)
Theorem C140_sent_partial : forall restr mm applied current again x, by_itself restr mm applied current again = Ok x ->
  exists c, restr (fst applied) mm = Ok c /\
    ((saf_empty current = false /\ x = None) \/
     (saf_empty current = true /\ exists st, x = Some st /\ up_need st = false /\ up_again st = again /\
      (c = [] -> up_substs st = []) /\ (c <> [] -> up_substs st = [(c, snd applied)]))).
Proof. exact itself_ok. Qed.
Print Assumptions C140_sent_partial.
Example C140_case : sane war 30 30 [mX 1] (fst u_self) /\ node_itself 30 30 [mX 1] u_self none [4] = Ok (Some (mkSent false [([MTerm (mX 1) ka], [Top 1])] [4])).
Proof. exact (conj u_itsane u_itself). Qed.

(** C141 (partial): each solution of a substitution that a node sends, after it has chosen what its children agree on, extends to one
    that solves the substitution applied at the node and one of those of each child that asked for one.  Missing: as in C27, C36 and C39. *)
Theorem C141_partial : forall ar n fe mm applied current l r again st,
  no_drop ar n fe current l -> at_most (wants current) 2 l -> Forall distinct l ->
  (Forall (fun a => ~ returns_just current a) l \/ at_most (wants current) 1 l \/
   Forall (fun a => wants current a -> Forall (fun t => consequence (fst t) (fst current)) (an_substs a)) l) ->
  select (merge_mixed n fe) current (List.length l) (map Answer l) = Ok (SubstForParent, r) ->
  clean ar n fe mm applied r -> node_pass n fe mm applied r again = Ok st ->
  forall t, In t (up_substs st) -> forall A v, typeless A -> solves A v (binds (fst t)) ->
  exists v', agree mm v v' /\ solves A v' (binds (fst applied)) /\
    forall a, In a l -> an_substs a <> [] -> exists u, In u (an_substs a) /\ solves A v' (binds (fst u)).
Proof. exact node_up. Qed.
Print Assumptions C141_partial.
Example C141_case :
  no_drop war 30 30 (Select_Witness.to 2 kb) Select_Witness.one1 /\ at_most (wants (Select_Witness.to 2 kb)) 2 Select_Witness.one1 /\
  Forall distinct Select_Witness.one1 /\ at_most (wants (Select_Witness.to 2 kb)) 1 Select_Witness.one1 /\
  select (merge_mixed 30 30) (Select_Witness.to 2 kb) 2 (map Answer Select_Witness.one1) = Ok (SubstForParent, u_both) /\
  clean war 30 30 [mX 1; mX 2] (Select_Witness.to 2 kb) u_both /\ node_pass 30 30 [mX 1; mX 2] (Select_Witness.to 2 kb) u_both [] = Ok (mkSent true u_both [0]).
Proof.
  exact (conj Select_Witness.one1_drop (conj Select_Witness.one1_most2 (conj Select_Witness.one1_distinct (conj Select_Witness.one1_most (conj Select_Witness.one1_parent (conj u_bclean u_bpass)))))).
Qed.
