(** C32, C37, C38: the index of literals. *)
From Coq Require Import ZArith List Bool String Permutation.
From Verif Require Import Ast_Model Sem_Spec Occ_Spec Unif_Model Unif_Spec UnifLoss_Model Unif_Witness UnifTree_Model UnifTree_Spec UnifTree_Proofs
  UnifTree_Final UnifTree_Witness.
Import ListNotations.
Open Scope Z_scope.

(** C37: the formulas reached in the tree are the inserted ones, each at the end of its own instructions, and each inserted
    formula is reached, there or in an equal one. *)
Theorem C37_contents :
  forall name_id fs n, make_tree name_id fs = Some n ->
  (forall p g, stored n p g -> In g fs /\ exists is, parse_item name_id g = Some is /\ Forall2 same_instr is p) /\
  (forall f, In f fs -> exists p is g, stored n p g /\ same_item f g /\ parse_item name_id f = Some is /\ Forall2 same_instr is p).
Proof. exact tree_contents. Qed.
Print Assumptions C37_contents.
(** insertion into a tree that was built before keeps what is there *)
Theorem C37_insertion :
  forall name_id fs1 fs2 n1 n2, make_tree name_id fs1 = Some n1 -> insert_all name_id fs2 n1 = Some n2 ->
  (forall p g, stored n1 p g -> stored n2 p g) /\
  (forall p g, stored n2 p g -> stored n1 p g \/ In g fs2) /\
  (forall f, In f fs2 -> exists p g, stored n2 p g /\ same_item f g).
Proof. exact insertion_keeps. Qed.
Print Assumptions C37_insertion.
(** a tree is built as soon as the type arguments of the formulas can be written as terms *)
Theorem C37_total :
  forall ar name_id fs, Forall (fit ar name_id) fs -> exists n, make_tree name_id fs = Some n.
Proof. exact (fun ar name_id fs H => fit_tree ar name_id fs H empty_node). Qed.
Print Assumptions C37_total.
Example C37_case : make_tree nid fs_ok = Some k_ok /\ List.length fs_ok = 9%nat /\ Forall (fit war nid) fs_ok.
Proof. exact (conj k_ok_tree (conj eq_refl k_ok_fit)). Qed.

(** C32, C37: a query answers as the formulas taken one by one. *)
Theorem C32_index_is_direct_partial :
  forall name_id add comp fs n q l, make_tree name_id fs = Some n -> unify_tree name_id add comp n q = Ok l ->
  (forall f s, In (f, s) l -> In f fs /\ direct name_id add comp q f s) /\
  (forall f, In f fs -> exists g, In g fs /\ same_item f g /\ forall s, direct name_id add comp q g s -> In (g, s) l).
Proof. exact search_direct. Qed.
Print Assumptions C32_index_is_direct_partial.
Example C32_index_case :
  make_tree nid fs_ok = Some k_ok /\ unify_real nid 30 30 k_ok q_tree = Ok l_ok /\
  map (fun p => match fst p with IPred ix _ _ _ => ix | ITerm ix _ => ix end) l_ok = [1; 4; 5; 9].
Proof. exact (conj k_ok_tree (conj (proj1 k_ok_answer) k_ok_count)). Qed.

(** C32 refuted for queries: the answer for two literals that have no common instance. *)
Theorem C32_query_refuted :
  exists ar name_id f q k n s u v, fit ar name_id f /\ fit ar name_id q /\ make_tree name_id [f] = Some k /\
  unify_real name_id n n k q = Ok [(f, s)] /\ query_term name_id f = Some u /\ query_term name_id q = Some v /\
  ~ same_term (ssubst s u) (ssubst s v) /\ forall w, ~ same_term (tsub w u) (tsub w v).
Proof.
  exact (ex_intro _ war (ex_intro _ nid (ex_intro _ f_lost (ex_intro _ p_lost (ex_intro _ k_lost (ex_intro _ 30%nat (ex_intro _ sigma_lost
    (ex_intro _ u_lost (ex_intro _ v_lost (conj (proj1 k_lost_fit) (conj (proj2 k_lost_fit) (conj k_lost_tree (conj k_lost_answer
    (conj (proj1 k_lost_terms) (conj (proj2 k_lost_terms) (conj k_lost_wrong k_lost_none)))))))))))))))).
Qed.
Print Assumptions C32_query_refuted.
(** C32 (partial): when no binding is dropped, every answer is an inserted formula with a substitution in solved form, on the
    metavariables of the formulas, that makes the formula and the query equal.  Missing: the runs that drop one (refuted above), the queries that are a
    metavariable (they crash, below), formulas whose arguments are bound variables. *)
Theorem C32_query_partial :
  forall ar name_id n fe fs k q t l, Forall (fit ar name_id) fs -> make_tree name_id fs = Some k ->
  query_term name_id q = Some t -> well ar t -> is_fun t = true ->
  unify_strict name_id n fe k q <> Out -> unify_real name_id n fe k q = Ok l ->
  forall f s, In (f, s) l -> In f fs /\ okS ar s /\ solved s /\ exists u, query_term name_id f = Some u /\ same_term (ssubst s u) (ssubst s t).
Proof. exact tree_sound. Qed.
Print Assumptions C32_query_partial.
Theorem C32_query_strict_partial :
  forall name_id n fe k q, unify_strict name_id n fe k q <> Out -> unify_real name_id n fe k q = unify_strict name_id n fe k q.
Proof. exact unify_strict_real. Qed.
Print Assumptions C32_query_strict_partial.
Example C32_query_case :
  Forall (fit war nid) fs_ok /\ make_tree nid fs_ok = Some k_ok /\ query_term nid q_tree = Some qt_tree /\ well war qt_tree /\
  is_fun qt_tree = true /\ unify_strict nid 30 30 k_ok q_tree <> Out /\ unify_real nid 30 30 k_ok q_tree = Ok l_ok.
Proof.
  exact (conj k_ok_fit (conj k_ok_tree (conj (proj1 q_tree_term) (conj (proj1 (proj2 q_tree_term)) (conj (proj2 (proj2 q_tree_term))
    (conj (proj2 k_ok_answer) (proj1 k_ok_answer))))))).
Qed.

(** C38 refuted for indexes of terms: looking a metavariable up crashes. *)
Theorem C38_meta_query_refuted :
  exists ar name_id f q k n, fit ar name_id f /\ fit ar name_id q /\ make_tree name_id [f] = Some k /\ unify_real name_id n n k q = Crash.
Proof.
  exact (ex_intro _ war (ex_intro _ nid (ex_intro _ f_term (ex_intro _ q_meta (ex_intro _ k_term (ex_intro _ 30%nat
    (conj (proj1 term_fit) (conj (proj2 term_fit) term_crash)))))))).
Qed.
Print Assumptions C38_meta_query_refuted.
(** C38 refuted for literals: a predicate symbol with two arities. *)
Theorem C38_pred_arity_refuted :
  exists name_id f q k n, make_tree name_id [f] = Some k /\ unify_real name_id n n k q = Crash.
Proof. exact (ex_intro _ nid (ex_intro _ f_one (ex_intro _ q_none (ex_intro _ k_one (ex_intro _ 30%nat arity_crash))))). Qed.
Print Assumptions C38_pred_arity_refuted.
(** C38 (partial): with one arity per symbol and a query that is not a metavariable, no query crashes.  Missing: the two
    cases above; termination (see the fuel in DESIGN.md). *)
Theorem C38_query_partial :
  forall ar name_id n fe fs k q t, Forall (fit ar name_id) fs -> make_tree name_id fs = Some k ->
  query_term name_id q = Some t -> well ar t -> is_fun t = true -> unify_real name_id n fe k q <> Crash.
Proof. exact tree_no_crash. Qed.
Print Assumptions C38_query_partial.
(** C38: whatever the order in which the goroutines answer, the same answers. *)
Theorem C38_any_order :
  forall name_id add comp n m l1 l2, found name_id add comp n m l1 -> found name_id add comp n m l2 -> Permutation l1 l2.
Proof. exact any_order. Qed.
Print Assumptions C38_any_order.
Theorem C38_some_order :
  forall name_id add comp n m l, search name_id add comp n m = Ok l -> found name_id add comp n m l.
Proof. exact search_found. Qed.
Print Assumptions C38_some_order.
(** observation: an atom with function symbols is stored once per insertion, because its instructions End are never found
    equivalent *)
Theorem C37_stored_twice :
  exists name_id f k n, make_tree name_id [f; f] = Some k /\ unify_real name_id n n k f = Ok [(f, []); (f, [])].
Proof. exact (ex_intro _ nid (ex_intro _ f_twice (ex_intro _ k_twice (ex_intro _ 30%nat twice_answer)))). Qed.
Print Assumptions C37_stored_twice.
