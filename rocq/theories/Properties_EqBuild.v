(** The equality problems of a branch (C109, C110), and what the answers of an index add (C33). *)
From Coq Require Import ZArith List Bool String.
From Verif Require Import Ast_Model Sem_Spec Unif_Model Unif_Spec UnifLoss_Model UnifTree_Model UnifTree_Spec UnifTree_Final UnifItem_Proofs Closure_Model Bse_Model Bse_Spec Bse_Proofs
  Bse_Witness EqBuild_Model EqBuild_Spec EqBuild_Proofs EqBuild_Final EqBuild_Witness.
Import ListNotations.
Open Scope list_scope.
Open Scope Z_scope.

(** C109 fails: the metavariable for the type of the equality has a number of its own count, which may be the number of a
    metavariable of the branch.  g(X) = a is then read as g($i) = a. *)
Theorem C109_refuted :
  exists id_eq name_id ty_arity n fe fs k ct cm E a b, make_tree name_id (atoms true fs) = Some k /\
  retrieve_eqs id_eq ty_arity (unify_real name_id n fe) fe k ct cm = Ok E /\ In (a, b) E /\
  ~ exists l r, equality_of (id_index id_eq) true fs l r /\ same_term a l /\ same_term b r.
Proof.
  exact (ex_intro _ ideq (ex_intro _ nid (ex_intro _ no_tys (ex_intro _ 30%nat (ex_intro _ 30%nat (ex_intro _ f_num (ex_intro _ _ (ex_intro _ 100 (ex_intro _ 1 (ex_intro _ _
    (ex_intro _ _ (ex_intro _ _ (conj num_tree (conj num_read (conj (or_introl eq_refl) num_wrong))))))))))))))).
Qed.
Print Assumptions C109_refuted.
(** C109 fails: for the same reason X = b stops the prover. *)
Theorem C109_stop_refuted :
  exists id_eq name_id ty_arity n fe fs k ct cm, make_tree name_id (atoms true fs) = Some k /\
  retrieve_eqs id_eq ty_arity (unify_real name_id n fe) fe k ct cm = Crash.
Proof.
  exact (ex_intro _ ideq (ex_intro _ nid (ex_intro _ no_tys (ex_intro _ 30%nat (ex_intro _ 30%nat (ex_intro _ f_stop (ex_intro _ _ (ex_intro _ 100 (ex_intro _ 1
    (conj stop_tree stop_read)))))))))).
Qed.
Print Assumptions C109_stop_refuted.
(** When the numbers of the types are not those of metavariables of the branch, what is read are equalities and disequalities of the
    branch, whatever they unify with.  [counters] asks for numbers that are not in use, [lit_ok] for first-order literals where only the
    equality has a type, which is not a part of its terms. *)
Theorem C109_partial :
  forall id_eq ar name_id ty_arity n fe fs, (forall p, symbol ar p -> ty_arity (id_name p) = 0%nat) -> symbol ar id_eq /\ ar (id_index id_eq) = 3%nat ->
  Forall (lit_ok (id_index id_eq) ar name_id) fs -> forall ct cm, counters ar ct cm ->
  (forall k E, make_tree name_id (atoms true fs) = Some k -> retrieve_eqs id_eq ty_arity (unify_real name_id n fe) fe k ct cm = Ok E ->
     forall a b, In (a, b) E -> exists l r, equality_of (id_index id_eq) true fs l r /\ same_term a l /\ same_term b r) /\
  (forall k E, make_tree name_id (atoms false fs) = Some k -> retrieve_neqs id_eq ty_arity (unify_real name_id n fe) fe k (ct + 2) (cm + 1) = Ok E ->
     forall a b, In (a, b) E -> exists l r, equality_of (id_index id_eq) false fs l r /\ same_term a l /\ same_term b r).
Proof. exact read_branch. Qed.
Print Assumptions C109_partial.
Example C109_case :
  Forall (lit_ok 3 ear nid) f_good /\ counters ear 100 90 /\
  (forall p, symbol ear p -> no_tys (id_name p) = 0%nat) /\ symbol ear ideq /\ ear (id_index ideq) = 3%nat /\
  make_tree nid (atoms true f_good) = Some (tree true f_good) /\ make_tree nid (atoms false f_good) = Some (tree false f_good) /\
  retrieve_eqs ideq no_tys Q 30 (tree true f_good) 100 90 = Ok [(g (Meta (mX 1)), ca)] /\
  retrieve_neqs ideq no_tys Q 30 (tree false f_good) 102 91 = Ok [(ca, cc)].
Proof. exact (conj good_lits (conj ear_counters (conj (proj1 good_counters_ok) (conj (proj1 (proj2 good_counters_ok)) (conj (proj2 (proj2 good_counters_ok)) (conj (proj1 good_trees) (conj (proj2 good_trees) good_read))))))). Qed.

(** C110 fails: with the numbers of C109 the branch g(X) = a, g(Y) <> a is closed with nothing to bind. *)
Theorem C110_numbers_refuted :
  exists id_eq name_id ty_arity arg_tys n fe fs fl kp kn ct cm sg, incl fl fs /\
  make_tree name_id (atoms true fs) = Some kp /\ make_tree name_id (atoms false fs) = Some kn /\
  reasoning id_eq name_id ty_arity arg_tys (unify_real name_id n fe) (add_unif n fe) fe (fun _ => true) fl kp kn ct cm true [sg] /\
  ~ closes (id_index id_eq) fs sg.
Proof.
  exact (ex_intro _ ideq (ex_intro _ nid (ex_intro _ no_tys (ex_intro _ all_i (ex_intro _ 30%nat (ex_intro _ 30%nat (ex_intro _ f_coll (ex_intro _ [] (ex_intro _ _ (ex_intro _ _
    (ex_intro _ 100 (ex_intro _ 1 (ex_intro _ [] (conj (incl_nil_l _) (conj (proj1 coll_trees) (conj (proj2 coll_trees) (conj (reasoning_real _ _ _ _ _ _ _ _ _ _ _ _ _ coll_run_strict) coll_wrong))))))))))))))))).
Qed.
Print Assumptions C110_numbers_refuted.
(** C110 fails: the goals for p[A](X) and the negation of p[nat](c) leave the types out, so X := c is answered and A is not bound. *)
Theorem C110_types_refuted :
  exists id_eq name_id ty_arity arg_tys n fe fs fl kp kn ct cm sg, incl fl fs /\
  make_tree name_id (atoms true fs) = Some kp /\ make_tree name_id (atoms false fs) = Some kn /\
  reasoning id_eq name_id ty_arity arg_tys (unify_real name_id n fe) (add_unif n fe) fe (fun _ => true) fl kp kn ct cm true [sg] /\
  ~ closes (id_index id_eq) fs sg.
Proof.
  exact (ex_intro _ ideq (ex_intro _ nid (ex_intro _ no_tys (ex_intro _ all_i (ex_intro _ 30%nat (ex_intro _ 30%nat (ex_intro _ f_ty (ex_intro _ f_ty (ex_intro _ _ (ex_intro _ _
    (ex_intro _ 100 (ex_intro _ 90 (ex_intro _ s_ty (conj (incl_refl _) (conj (proj1 ty_trees) (conj (proj2 ty_trees) (conj (reasoning_real _ _ _ _ _ _ _ _ _ _ _ _ _ ty_run_strict) ty_wrong))))))))))))))))).
Qed.
Print Assumptions C110_types_refuted.
(** Otherwise, where C42 holds, each substitution that is answered closes the branch; and when a problem is solved with no substitution at
    all, the branch is closed as it is. *)
Theorem C110_partial :
  forall id_eq ar name_id ty_arity arg_tys n fe, (forall p, symbol ar p -> ty_arity (id_name p) = 0%nat) -> symbol ar id_eq /\ ar (id_index id_eq) = 3%nat ->
  forall fs fl kp kn, Forall (lit_ok (id_index id_eq) ar name_id) fs -> incl fl fs ->
  make_tree name_id (atoms true fs) = Some kp -> make_tree name_id (atoms false fs) = Some kn ->
  forall ct cm, counters ar ct cm -> distinct_names ar -> forall b res,
  reasoning id_eq name_id ty_arity arg_tys (unify_real name_id n fe) (add_unif_s true n fe) fe kept fl kp kn ct cm b res ->
  (forall sg, In sg res -> closes (id_index id_eq) fs sg) /\ (b = true -> res = [] -> closes (id_index id_eq) fs []).
Proof. exact reasoning_ok. Qed.
Print Assumptions C110_partial.
(** These runs are runs of the prover. *)
Theorem C110_runs_partial :
  forall id_eq name_id ty_arity arg_tys n fe fl kp kn ct cm b res,
  reasoning id_eq name_id ty_arity arg_tys (unify_real name_id n fe) (add_unif_s true n fe) fe kept fl kp kn ct cm b res ->
  reasoning id_eq name_id ty_arity arg_tys (unify_real name_id n fe) (add_unif n fe) fe (fun _ => true) fl kp kn ct cm b res.
Proof. exact reasoning_real. Qed.
Print Assumptions C110_runs_partial.
(** g(X) = a, p(g(c), b), the negations of p(a, Y) and of a = c: X := c and Y := b *)
Example C110_case :
  Forall (lit_ok 3 ear nid) f_good /\ counters ear 100 90 /\ distinct_names ear /\ incl f_good f_good /\
  reasoning ideq nid no_tys all_i Q strict 30 kept f_good (tree true f_good) (tree false f_good) 100 90 true [[(mX 1, cc); (mY 2, cb)]].
Proof. exact (conj good_lits (conj ear_counters (conj ear_names (conj (incl_refl _) good_run)))). Qed.

(** g(a) = b, p(a, b) and three negated atoms: one goal for each of them *)
Example C110_goals_case : exists gs, build ideq no_tys all_i Q 30 f_two (tree true f_two) (tree false f_two) 100 90 = Ok (Some ([(g ca, cb)], gs)) /\
  forall h, In h [[(ca, ca); (cb, cb)]; [(ca, cb); (cb, g cc)]; [(ca, cc); (cb, cc)]] <-> In h gs.
Proof. exact two_build. Qed.

(** The answers of an index, also when the unification loses equations: each belongs to an item of the index, and binds nothing that the
    unifiers of the query and the item do not bind. *)
Theorem C33_index_partial :
  forall ar name_id n fe fs k q t l, Forall (fit ar name_id) fs -> make_tree name_id fs = Some k ->
  query_term name_id q = Some t -> well ar t -> is_fun t = true -> unify_real name_id n fe k q = Ok l ->
  forall f s, In (f, s) l -> In f fs /\ okS ar s /\ solved s /\ exists u, query_term name_id f = Some u /\ well ar u /\
    forall A w, injective A -> tev A w u = tev A w t -> solves A w s.
Proof. exact answer_general. Qed.
Print Assumptions C33_index_partial.
Example C33_index_case :
  Forall (fit ear nid) (atoms false f_good) /\ make_tree nid (atoms false f_good) = Some (tree false f_good) /\
  exists t s, query_term nid (IPred 0 (mkId 50 "p") [] [Meta (mX 1); cb]) = Some t /\ well ear t /\ is_fun t = true /\
    unify_real nid 30 30 (tree false f_good) (IPred 0 (mkId 50 "p") [] [Meta (mX 1); cb]) = Ok [s] /\
    map (fun b => (m_index (fst b), snd b)) (snd s) = [(1, ca); (2, cb)].
Proof. exact general_case. Qed.
