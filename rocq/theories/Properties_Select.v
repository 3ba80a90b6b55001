(** C27, C28: the decision of a branching node from the answers of its children. *)
From Coq Require Import ZArith List Bool String Permutation.
From Verif Require Import Ast_Model Sem_Spec Unif_Model Unif_Spec Closure_Model Select_Model Select_Spec Select_Proofs Select_Final Unif_Witness Select_Witness.
Import ListNotations.
Open Scope list_scope.
Open Scope Z_scope.

(** C27 refuted: three children ask for X := a, X := b and X := a, in this order; the node passes X := a to its parent,
    although the second child is not closed by it. *)
Theorem C27_agreement_refuted :
  exists n current l r s, Forall distinct l /\ (forall a, In a l -> an_closed a = true) /\
  select (merge_mixed n n) current (List.length l) (map Answer l) = Ok (SubstForParent, r) /\ In s r /\ ~ closes_all consequence l s.
Proof.
  refine (ex_intro _ 30%nat (ex_intro _ none (ex_intro _ aba (ex_intro _ [to 1 ka] (ex_intro _ (to 1 ka)
    (conj aba_distinct (conj _ (conj aba_parent (conj (or_introl eq_refl) aba_unclosed))))))))).
  intros a [<-|[<-|[<-|[]]]]; reflexivity.
Qed.
Print Assumptions C27_agreement_refuted.
(** C27 (partial): it holds when at most two children want a substitution of their own, in particular when there are two
    branches.  Missing: three children or more that want one (refuted above); the answers that list a substitution twice;
    a child content with the substitution of the node next to two others whose answers do not contain it. *)
Theorem C27_agreement_partial :
  forall mg current ent l r, entailment ent -> merges ent mg current l -> at_most (wants current) 2 l -> Forall distinct l ->
  (Forall (fun a => ~ returns_just current a) l \/ at_most (wants current) 1 l \/
   Forall (fun a => wants current a -> Forall (fun t => ent (fst t) (fst current)) (an_substs a)) l) ->
  select mg current (List.length l) (map Answer l) = Ok (SubstForParent, r) ->
  forall s, In s r -> closes_all ent l s.
Proof. exact parent_closes_all. Qed.
Print Assumptions C27_agreement_partial.
(** C27 (partial): the same with the merge of the code and the equations of the substitutions. *)
Theorem C27_merge_partial :
  forall ar n fe current l r, no_drop ar n fe current l -> at_most (wants current) 2 l -> Forall distinct l ->
  (Forall (fun a => ~ returns_just current a) l \/ at_most (wants current) 1 l \/
   Forall (fun a => wants current a -> Forall (fun t => consequence (fst t) (fst current)) (an_substs a)) l) ->
  select (merge_mixed n fe) current (List.length l) (map Answer l) = Ok (SubstForParent, r) ->
  forall s, In s r -> closes_all consequence l s.
Proof. exact node_closes_all. Qed.
Print Assumptions C27_merge_partial.
Example C27_case :
  no_drop war 30 30 none two /\ at_most (wants none) 2 two /\ Forall distinct two /\ Forall (fun a => ~ returns_just none a) two /\
  select (merge_mixed 30 30) none 3 (map Answer two) = Ok (SubstForParent, [to 1 kb]).
Proof. exact (conj two_drop (conj two_most (conj two_distinct (conj two_no_current two_parent)))). Qed.
Example C27_merge_case :
  no_drop war 30 30 (to 2 kb) one1 /\ at_most (wants (to 2 kb)) 2 one1 /\ Forall distinct one1 /\ at_most (wants (to 2 kb)) 1 one1 /\
  select (merge_mixed 30 30) (to 2 kb) 2 (map Answer one1) = Ok (SubstForParent, [([MTerm (mX 1) ka; MTerm (mX 2) kb], [])]).
Proof. exact (conj one1_drop (conj one1_most2 (conj one1_distinct (conj one1_most one1_parent)))). Qed.
(** C27 (partial): the formulas of both parts are kept when two answers are merged, and no other. *)
Theorem C27_formulas_partial : forall mg s1 s2 s, merge_saf mg s1 s2 = Ok s ->
  (forall f, In f (snd s1) \/ In f (snd s2) -> exists f', In f' (snd s) /\ form_eqb f' f = true) /\ (forall f, In f (snd s) -> In f (snd s1) \/ In f (snd s2)).
Proof. exact merge_formulas. Qed.
Print Assumptions C27_formulas_partial.
Example C27_formulas_case : merge_saf (merge_mixed 30 30) ([], [Top 1; Bot 2]) ([MTerm (mX 1) ka], [Top 3]) = Ok ([MTerm (mX 1) ka], [Top 1; Bot 2]).
Proof. vm_compute. reflexivity. Qed.
(** C27 (partial): for any number of children, what is passed was returned by the last child that wants a substitution of
    its own and by an earlier one. *)
Theorem C27_last_two_partial :
  forall mg current l1 a l2 r, Forall distinct (l1 ++ a :: l2) -> wants current a -> (exists b, In b l1 /\ wants current b) ->
  (forall b, In b l2 -> ~ wants current b) ->
  select mg current (List.length (l1 ++ a :: l2)) (map Answer (l1 ++ a :: l2)) = Ok (SubstForParent, r) ->
  forall s, In s r -> (exists t, In t (an_substs a) /\ same_bindings (fst s) (fst t)) /\
    exists b t, In b l1 /\ wants current b /\ In t (an_substs b) /\ same_bindings (fst s) (fst t).
Proof. exact parent_last_two. Qed.
Print Assumptions C27_last_two_partial.
Example C27_last_two_case :
  Forall distinct ([ans [to 1 ka]; ans [to 1 kb]] ++ ans [to 1 ka] :: []) /\ wants none (ans [to 1 ka]) /\ wants none (ans [to 1 kb]) /\
  select (merge_mixed 30 30) none 3 (map Answer ([ans [to 1 ka]; ans [to 1 kb]] ++ ans [to 1 ka] :: [])) = Ok (SubstForParent, [to 1 ka]).
Proof. exact (conj aba_distinct (conj (wants_one 1 ka) (conj (wants_one 1 kb) aba_parent))). Qed.
(** a node closes by itself only when all its children did *)
Theorem C27_itself_partial :
  forall mg current l r, select mg current (List.length l) (map Answer l) = Ok (CloseByItself, r) ->
  r = [] /\ Forall (fun a => an_closed a = true /\ an_substs a = []) l.
Proof. exact itself_all_closed. Qed.
Print Assumptions C27_itself_partial.
Example C27_itself_case : select (merge_mixed 30 30) none 2 (map Answer [ans []; ans []]) = Ok (CloseByItself, []).
Proof. exact itself_case. Qed.

(** C28 refuted: with the second and the third answers exchanged the node asks its children instead. *)
Theorem C28_order_refuted :
  exists n current l l' v v' r r', Permutation l l' /\ Forall distinct l /\
  select (merge_mixed n n) current (List.length l) (map Answer l) = Ok (v, r) /\
  select (merge_mixed n n) current (List.length l') (map Answer l') = Ok (v', r') /\ v <> v'.
Proof.
  refine (ex_intro _ 30%nat (ex_intro _ none (ex_intro _ aba (ex_intro _ aab (ex_intro _ SubstForParent (ex_intro _ SubstForChildren
    (ex_intro _ [to 1 ka] (ex_intro _ [to 1 ka; to 1 kb] (conj aba_aab (conj aba_distinct (conj aba_parent (conj aab_children _)))))))))))).
  discriminate.
Qed.
Print Assumptions C28_order_refuted.
(** C28 (partial): with at most two children that want a substitution of their own, the verdict and the set of the
    substitutions do not depend on the order.  Missing: three children or more; the formulas kept with the substitutions. *)
Theorem C28_order_partial :
  forall n fe current l l' v v' r r', (forall a s, In a l -> In s (an_substs a) -> on_terms (fst s) /\ not_failure (fst s)) ->
  Permutation l l' -> at_most (wants current) 2 l -> Forall distinct l ->
  select (merge_mixed n fe) current (List.length l) (map Answer l) = Ok (v, r) ->
  select (merge_mixed n fe) current (List.length l') (map Answer l') = Ok (v', r') ->
  v = v' /\ (v <> Opened -> same_set r r').
Proof. exact node_any_order. Qed.
Print Assumptions C28_order_partial.
Example C28_case :
  (forall a s, In a two -> In s (an_substs a) -> on_terms (fst s) /\ not_failure (fst s)) /\ Permutation two two' /\
  at_most (wants none) 2 two /\ Forall distinct two /\
  select (merge_mixed 30 30) none 3 (map Answer two) = Ok (SubstForParent, [to 1 kb]) /\
  select (merge_mixed 30 30) none 3 (map Answer two') = Ok (SubstForParent, [to 1 kb]).
Proof. exact (conj two_terms (conj two_perm (conj two_most (conj two_distinct (conj two_parent two_parent'))))). Qed.
(** C28 (partial): for any number of children, a node is open exactly when one of them is, in whatever order they answer *)
Theorem C28_open_partial :
  forall mg current l, (exists a, In a l /\ an_closed a = false) <-> exists r, select mg current (List.length l) (map Answer l) = Ok (Opened, r).
Proof. exact (fun mg current l => conj (open_child mg current l) (fun H => match H with ex_intro _ r E => opened_child mg current l r E end)). Qed.
Print Assumptions C28_open_partial.
Example C28_open_case : select (merge_mixed 30 30) none 2 (map Answer [ans [to 1 ka]; mkAns false []]) = Ok (Opened, [to 1 ka]).
Proof. exact open_case. Qed.
