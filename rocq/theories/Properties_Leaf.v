(** C118-C123: what a process answers when its branch closes. *)
From Coq Require Import ZArith List Bool String.
From Verif Require Import Ast_Model Occ_Spec Sem_Spec Unif_Model Unif_Spec UnifLoss_Model Unif_Witness Closure_Model Select_Model Select_Spec GlobUnif_Model Restrict_Model Restrict_Spec Restrict_Witness
  Leaf_Model Leaf_Spec Leaf_Proofs Leaf_Final Leaf_Witness.
Import ListNotations.
Open Scope list_scope.
Open Scope Z_scope.

(** C118 refuted: the global unifier pairs a substitution for the father with one that is incompatible with it. *)
Theorem C118_pairs_refuted : exists ar n fe mm applied l f rp c a,
  (forall s, In s l -> sane ar n fe (mm ++ metas_of_subst (fst applied)) s) /\ leaf n fe mm applied [] l f = Ok (Some rp) /\ In (c, a) (rp_pairs rp) /\
  forall w, ~ (unifies w (binds c) /\ unifies w (binds a)).
Proof.
  exact (ex_intro _ war (ex_intro _ 30%nat (ex_intro _ 30%nat (ex_intro _ [mX 1] (ex_intro _ none (ex_intro _ l_3 (ex_intro _ f0 (ex_intro _ r_3 (ex_intro _ _ (ex_intro _ _
    (conj l_3_sane (conj l_3_leaf (conj (or_intror (or_introl eq_refl)) l_3_wrong))))))))))))).
Qed.
Print Assumptions C118_pairs_refuted.
(** C118 (partial): when different substitutions have different restrictions, each pair is made of a closing substitution and
    of its restriction, both merged with the substitution applied there. *)
Theorem C118_pairs_partial : forall (destructive : bool) (restr : subst -> list meta -> out subst) (mg raw : subst -> subst -> out subst) mm applied found l f rp,
  let rs := fun s => if destructive then restr s (mm ++ metas_of_subst (fst applied)) else Ok s in
  faithful rs l -> manage destructive restr mg raw mm applied found l f = Ok (Some rp) -> forall c a, In (c, a) (rp_pairs rp) ->
  (l = [] /\ c = fst applied /\ a = fst applied) \/
  exists s r, In s l /\ rs s = Ok r /\ raw (fst applied) s = Ok a /\ ((r = [] /\ c = fst applied) \/ (r <> [] /\ raw (fst applied) r = Ok c)).
Proof. exact manage_pairs. Qed.
Print Assumptions C118_pairs_partial.
(** C118 (partial): the lists hold the restrictions that are not empty, each once, and the substitutions whose restriction is empty. *)
Theorem C118_lists_partial : forall rs l d, dispatch_substs rs l (mkD [] [] []) = Ok d -> is_image rs l (d_with d) /\ is_kernel rs l (d_without d).
Proof. exact dispatch_lists. Qed.
Print Assumptions C118_lists_partial.
(** C118 (partial): the second list can be read at each place of the first, if equal substitutions have equal restrictions. *)
Theorem C118_index_partial : forall rs l d, congruent rs l -> dispatch_substs rs l (mkD [] [] []) = Ok d -> (List.length (d_with d) <= List.length (d_uncleared d))%nat.
Proof. exact dispatch_index. Qed.
Print Assumptions C118_index_partial.
Example C118_case : faithful rs_2 l_2 /\ congruent rs_2 l_2 /\ leaf 30 30 [m1; m4] apd [] l_2 f0 = Ok (Some r_2).
Proof. exact (conj (proj1 l_2_faithful) (conj (proj2 l_2_faithful) l_2_leaf)). Qed.
Example C118_lists_case : exists d, dispatch_substs rs_2 l_2 (mkD [] [] []) = Ok d /\ List.length (d_with d) = 2%nat.
Proof. eexists. split; vm_compute; reflexivity. Qed.

(** C119 refuted: a branch says that it is closed by itself, and some values of the metavariables of the parent do not close it. *)
Theorem C119_by_itself_refuted : exists n fe mm applied l f rp, leaf n fe mm applied [] l f = Ok (Some rp) /\ rp_need rp = false /\ l <> [] /\
  exists A (v : Z -> dom A), solves A v (binds (fst applied)) /\ ~ closable mm (fst applied) l A v.
Proof.
  exact (ex_intro _ 30%nat (ex_intro _ 30%nat (ex_intro _ mm_sh (ex_intro _ none (ex_intro _ l_sh (ex_intro _ f0 (ex_intro _ r_sh
    (conj l_sh_leaf (conj eq_refl (conj (fun E => @nil_cons _ _ _ (eq_sym E)) l_sh_open)))))))))).
Qed.
Print Assumptions C119_by_itself_refuted.
(** C119 (partial): otherwise all the values that agree with the substitution applied there close it.  Missing: the
    substitutions that bind two metavariables of the parent to a local one, and those whose restriction drops an equation. *)
Theorem C119_by_itself_partial : forall ar n fe mm applied l, (forall s, In s l -> sane ar n fe (mm ++ metas_of_subst (fst applied)) s) ->
  forall found f rp, leaf n fe mm applied found l f = Ok (Some rp) -> rp_need rp = false -> l <> [] ->
  forall A v, solves A v (binds (fst applied)) -> closable mm (fst applied) l A v.
Proof. exact leaf_by_itself. Qed.
Print Assumptions C119_by_itself_partial.
Example C119_case : (forall s, In s [s_g] -> sane war 30 30 ([mX 1] ++ metas_of_subst (fst none)) s) /\ leaf 30 30 [mX 1] none [] [s_g] f0 = Ok (Some r_g) /\ rp_need r_g = false.
Proof. exact (conj g_sane (conj g_leaf eq_refl)). Qed.

(** C120 refuted: a substitution sent to the father does not close the branch. *)
Theorem C120_sent_refuted : exists n fe mm applied l f rp t, leaf n fe mm applied [] l f = Ok (Some rp) /\ rp_need rp = true /\ In t (rp_substs rp) /\
  exists A (v : Z -> dom A), solves A v (binds (fst t)) /\ ~ closable mm (fst applied) l A v.
Proof.
  exact (ex_intro _ 30%nat (ex_intro _ 30%nat (ex_intro _ (mX 4 :: mm_sh) (ex_intro _ none (ex_intro _ l_sh4 (ex_intro _ f0 (ex_intro _ r_sh4 (ex_intro _ _
    (conj l_sh4_leaf (conj eq_refl (conj (or_introl eq_refl) l_sh4_open))))))))))).
Qed.
Print Assumptions C120_sent_refuted.
(** C120 (partial): otherwise what solves a substitution sent to the father solves the one applied there and closes the branch. *)
Theorem C120_sent_partial : forall ar n fe mm applied l, (forall s, In s l -> sane ar n fe (mm ++ metas_of_subst (fst applied)) s) ->
  okS ar (binds (fst applied)) ->
  (forall s r, In s l -> restrict_mixed fe (add_unif n fe) s (mm ++ metas_of_subst (fst applied)) = Ok r ->
    merge fe (add_unif_s true n fe) (binds r) (binds (fst applied)) <> Out) ->
  forall f rp, leaf n fe mm applied [] l f = Ok (Some rp) -> rp_need rp = true ->
  forall t, In t (rp_substs rp) -> forall A v, solves A v (binds (fst t)) -> solves A v (binds (fst applied)) /\ closable mm (fst applied) l A v.
Proof. exact leaf_sent. Qed.
Print Assumptions C120_sent_partial.
(** C120 (partial): no way to close the branch is lost: what solves a closing substitution and the one applied there solves
    one of those sent.  The merges that ask for nothing are left out, they are not sent. *)
Theorem C120_complete_partial : forall ar n fe mm applied l, (forall s, In s l -> sane ar n fe (mm ++ metas_of_subst (fst applied)) s) ->
  okS ar (binds (fst applied)) ->
  (forall s r, In s l -> restrict_mixed fe (add_unif n fe) s (mm ++ metas_of_subst (fst applied)) = Ok r ->
    merge fe (add_unif_s true n fe) (binds r) (binds (fst applied)) <> Out) ->
  forall found f rp, leaf n fe mm applied found l f = Ok (Some rp) -> rp_need rp = true ->
  (forall s r, In s l -> restrict_mixed fe (add_unif n fe) s (mm ++ metas_of_subst (fst applied)) = Ok r -> merge_mixed n fe r (fst applied) <> Ok []) ->
  forall s, In s l -> forall A v, injective A -> typeless A -> solves A v (binds s) -> solves A v (binds (fst applied)) ->
  exists t, In t (rp_substs rp) /\ solves A v (binds (fst t)).
Proof. exact leaf_complete. Qed.
Print Assumptions C120_complete_partial.
(** C120 (partial): a branch that closes always answers, and needs no answer exactly if it closes without substitution or
    one of its substitutions asks nothing of the parent; then it sends only the substitution applied there. *)
Theorem C120_answers_partial : forall (destructive : bool) (restr : subst -> list meta -> out subst) (mg raw : subst -> subst -> out subst) mm applied found l f o,
  let rs := fun s => if destructive then restr s (mm ++ metas_of_subst (fst applied)) else Ok s in
  manage destructive restr mg raw mm applied found l f = Ok o -> exists rp, o = Some rp /\
  (rp_need rp = false <-> l = [] \/ exists s, In s l /\ rs s = Ok []) /\
  (rp_need rp = false -> rp_substs rp = remove_empty [applied] /\ rp_again rp = []).
Proof. exact manage_answers. Qed.
Print Assumptions C120_answers_partial.
Example C120_case : (forall s, In s l_2 -> sane war 30 30 ([m1; m4] ++ metas_of_subst (fst apd)) s) /\ okS war (binds (fst apd)) /\
  (forall s r, In s l_2 -> rs_2 s = Ok r -> merge 30 (add_unif_s true 30 30) (binds r) (binds (fst apd)) <> Out /\ merge_mixed 30 30 r (fst apd) <> Ok []) /\
  leaf 30 30 [m1; m4] apd [] l_2 f0 = Ok (Some r_2) /\ rp_need r_2 = true /\ List.length (rp_substs r_2) = 2%nat.
Proof. exact (conj l_2_sane (conj apd_ok (conj l_2_kept (conj l_2_leaf (conj eq_refl eq_refl))))). Qed.

(** C121: the formulas to introduce again are those of the metavariables bound by the restrictions, in increasing order. *)
Theorem C121_again : forall (destructive : bool) (restr : subst -> list meta -> out subst) (mg raw : subst -> subst -> out subst) mm applied found l f rp,
  let rs := fun s => if destructive then restr s (mm ++ metas_of_subst (fst applied)) else Ok s in
  manage destructive restr mg raw mm applied found l f = Ok (Some rp) -> rp_need rp = true ->
  (forall s s' r r' k k' v v', In s l -> In s' l -> rs s = Ok r -> rs s' = Ok r' -> In (MTerm k v) r -> In (MTerm k' v') r' -> m_index k = m_index k' -> m_formula k = m_formula k') ->
  sorted_set (fun i => exists s r k v, In s l /\ rs s = Ok r /\ In (MTerm k v) r /\ m_formula k = i) (rp_again rp).
Proof. exact manage_again. Qed.
Print Assumptions C121_again.
Example C121_case : leaf 30 30 [m1; m4] apd [] l_2 f0 = Ok (Some r_2) /\ rp_need r_2 = true /\ rp_again r_2 = [3; 7] /\
  (forall s s' r r' k k' v v', In s l_2 -> In s' l_2 -> rs_2 s = Ok r -> rs_2 s' = Ok r' -> In (MTerm k v) r -> In (MTerm k' v') r' -> m_index k = m_index k' -> m_formula k = m_formula k').
Proof. exact (conj l_2_leaf (conj eq_refl (conj eq_refl l_2_formulas))). Qed.

(** C122: the metavariables read off a substitution are those that occur in its bindings of terms. *)
Theorem C122_metas : forall s i, In i (map m_index (metas_of_subst s)) <-> occurs s i.
Proof. exact metas_ok. Qed.
Print Assumptions C122_metas.
Example C122_case : map m_index (metas_of_subst [MTerm (mX 1) (fn 30 [fn 20 [vX 6]; vX 5]); MTy "T" 9 0 (TyConstr "$i" []); MTerm (mX 2) (vX 4); MTerm (mX 3) ka]) = [1; 6; 5; 2; 4; 3].
Proof. reflexivity. Qed.

(** C123 refuted: a substitution said to contain no metavariable of the parent contains one. *)
Theorem C123_mother_refuted : exists s mm, contains_mother s mm = false /\ ~ apart s mm.
Proof. exact (ex_intro _ s_g (ex_intro _ [mX 1] g_mother)). Qed.
Print Assumptions C123_mother_refuted.
(** C123 (partial): the metavariables below function symbols are the only ones missed, and the other answer is right. *)
Theorem C123_mother_partial :
  (forall s mm, contains_mother s mm = true -> ~ apart s mm) /\
  (forall s mm, contains_mother s mm = false -> (forall k p tys l, In (MTerm k (Fun p tys l)) s -> t_metas (Fun p tys l) = []) -> apart s mm).
Proof. exact (conj mother_right mother_misses). Qed.
Print Assumptions C123_mother_partial.
Example C123_case : contains_mother s_m [mX 1] = true /\ contains_mother s_h [mX 1] = false /\ (forall k p tys l, In (MTerm k (Fun p tys l)) s_h -> t_metas (Fun p tys l) = []).
Proof. exact (conj eq_refl h_mother). Qed.
