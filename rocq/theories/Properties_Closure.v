(** C30, C31, C55: the search for contradictions. *)
From Coq Require Import ZArith List Bool String.
From Verif Require Import LibSet_Model Ast_Model Problem_Model Rules_Model Sem_Spec Occ_Spec Rules_Spec Skolem_Spec Tableau_Spec Expand_Model Expand_Spec Expand_Witness
  Skolem_Witness Tableau_Witness Unif_Model Unif_Spec UnifLoss_Model Unif_Witness UnifTree_Model UnifTree_Witness Closure_Model Closure_Spec Closure_Proofs Closure_Final Closure_Witness.
Import ListNotations.
Open Scope Z_scope.

(** C30: a match returned by the search need not make the two literals complementary: AddUnification loses bindings. *)
Theorem C30_refuted :
  exists ar lp ln tpos tneg f l, Forall (first_order ar) (f :: lp ++ ln) /\ monomorphic ar mono0 /\ ar 0 = 2%nat /\
  make_tree nid (atoms true lp) = Some tpos /\ make_tree nid (atoms false ln) = Some tneg /\
  closure_real 0 nid mono0 30 30 tpos tneg [] f = Ok (true, [mixed_terms l]) /\ ~ closes 0 l (branch_with (f :: lp ++ ln)).
Proof. exact bad_closure. Qed.
Print Assumptions C30_refuted.
(** When no binding is lost (the variant which stops at the first lost binding does not stop), every answer closes the
    branch.  Missing: type arguments, and the runs which lose a binding. *)
Theorem C30_partial :
  forall eqi name_id ty_arity n fe ar lp ln tpos tneg forb f l,
  Forall (first_order ar) (lp ++ ln) -> make_tree name_id (atoms true lp) = Some tpos -> make_tree name_id (atoms false ln) = Some tneg ->
  arity ar eqi = 2%nat -> first_order ar f -> monomorphic ar ty_arity ->
  closure_strict eqi name_id ty_arity n fe tpos tneg forb f <> Out -> closure_real eqi name_id ty_arity n fe tpos tneg forb f = Ok (true, l) ->
  (obvious_closure f = true /\ l = []) \/
  (l <> [] /\ forall sg, In sg l -> exists s, sg = mixed_terms s /\ okS ar s /\ solved s /\ closes eqi s (branch_with (f :: lp ++ ln))).
Proof. exact (fun eqi ni ta n fe ar lp ln tp tn forb f l Fo Tp Tn => closure_sound eqi ni ta n fe ar lp ln tp tn Fo Tp Tn forb f l). Qed.
Print Assumptions C30_partial.
Example C30_case : Forall (first_order car) (ok_f :: [] ++ ok_n) /\ monomorphic car mono0 /\ arity car 0 = 2%nat /\
  make_tree nid (atoms true []) = Some (tree_of true []) /\ make_tree nid (atoms false ok_n) = Some (tree_of false ok_n) /\
  closure_strict 0 nid mono0 30 30 (tree_of true []) (tree_of false ok_n) [] ok_f = Ok (true, ok_l) /\
  closure_real 0 nid mono0 30 30 (tree_of true []) (tree_of false ok_n) [] ok_f = Ok (true, ok_l).
Proof. exact ok_closure. Qed.
Example C30_case_inequality : first_order car neq_f /\
  closure_strict 0 nid mono0 30 30 (tree_of true []) (tree_of false ok_n) [] neq_f = Ok (true, [[MTerm mX30 (gg cc)]]) /\
  closure_real 0 nid mono0 30 30 (tree_of true []) (tree_of false ok_n) [] neq_f = Ok (true, [[MTerm mX30 (gg cc)]]).
Proof. exact neq_closure. Qed.
(** the same for the search on a state of the prover *)
Theorem C30_state_partial :
  forall eqi name_id ty_arity n fe same ar st forb f l, arity ar eqi = 2%nat -> monomorphic ar ty_arity ->
  (forall x, In x (q_lf (st_q st) ++ q_atomic (st_q st)) -> first_order ar (ft_form x)) ->
  state_strict eqi name_id ty_arity n fe same st forb <> Out -> state_real eqi name_id ty_arity n fe same st forb = Ok (Some (f, l)) ->
  (l = [] /\ forall s, closes eqi s (branch_of st)) \/
  (l <> [] /\ forall sg, In sg l -> exists s, sg = mixed_terms s /\ okS ar s /\ solved s /\ closes eqi s (branch_of st)).
Proof. exact (fun eqi ni ta n fe same ar st forb f l A M Fo => state_sound eqi ni ta n fe same ar st A M Fo forb f l). Qed.
Print Assumptions C30_state_partial.
(** the search does not crash on first-order literals of fixed arities *)
Theorem C30_no_crash :
  forall eqi name_id ty_arity n fe ar lp ln tpos tneg forb f,
  Forall (first_order ar) (lp ++ ln) -> make_tree name_id (atoms true lp) = Some tpos -> make_tree name_id (atoms false ln) = Some tneg ->
  arity ar eqi = 2%nat -> first_order ar f -> monomorphic ar ty_arity ->
  match closure_real eqi name_id ty_arity n fe tpos tneg forb f with Ok _ | Out => True | _ => False end.
Proof. exact (fun eqi ni ta n fe ar lp ln tp tn forb f Fo Tp Tn => closure_no_crash eqi ni ta n fe ar lp ln tp tn Fo Tp Tn forb f). Qed.
Print Assumptions C30_no_crash.

(** C31: a forbidden substitution is returned after an allowed one. *)
Theorem C31_refuted :
  exists lp ln tpos tneg forb f l sg,
  Forall (first_order car) (f :: lp ++ ln) /\ make_tree nid (atoms true lp) = Some tpos /\ make_tree nid (atoms false ln) = Some tneg /\
  search_inequalities 0 (add_unif 30 30) f = Ok None /\
  closure_real 0 nid mono0 30 30 tpos tneg forb f = Ok (true, l) /\ In sg l /\ sg <> [] /\ In sg forb.
Proof. exact retried_match. Qed.
Print Assumptions C31_refuted.
(** the answer of a disequality is not compared with the forbidden ones *)
Theorem C31_inequality_refuted :
  exists forb f sg, first_order car f /\
  closure_real 0 nid mono0 30 30 (tree_of true []) (tree_of false []) forb f = Ok (true, [sg]) /\ sg <> [] /\ In sg forb.
Proof. exact retried_inequality. Qed.
Print Assumptions C31_inequality_refuted.
(** and a substitution which is not forbidden may be refused: names are compared, and copies share the name *)
Theorem C31_names_refuted :
  exists lp ln tpos tneg forb f s,
  Forall (first_order car) (f :: lp ++ ln) /\ make_tree nid (atoms true lp) = Some tpos /\ make_tree nid (atoms false ln) = Some tneg /\
  closure_real 0 nid mono0 30 30 tpos tneg [] f = Ok (true, [mixed_terms s]) /\
  closure_real 0 nid mono0 30 30 tpos tneg forb f = Ok (false, []) /\ ~ retried (map term_part forb) s.
Proof. exact refused_copy. Qed.
Print Assumptions C31_names_refuted.
(** nothing is returned without a closure *)
Theorem C31_none_partial :
  forall eqi name_id ty_arity n fe tpos tneg forb f l,
  closure_real eqi name_id ty_arity n fe tpos tneg forb f = Ok (false, l) -> l = [].
Proof. exact closure_none. Qed.
Print Assumptions C31_none_partial.
(** the first answer is not forbidden, except for disequalities.  Missing: the next answers. *)
Theorem C31_first_partial :
  forall eqi name_id ty_arity n fe tpos tneg forb f b sg l,
  search_inequalities eqi (add_unif n fe) f = Ok None -> closure_real eqi name_id ty_arity n fe tpos tneg forb f = Ok (b, sg :: l) ->
  names_ok (map term_part forb) (term_part sg) -> sg = [] \/ ~ retried (map term_part forb) (term_part sg).
Proof. exact closure_first. Qed.
Print Assumptions C31_first_partial.
Example C31_first_case : search_inequalities 0 (add_unif 30 30) ok_f = Ok None /\
  closure_real 0 nid mono0 30 30 (tree_of true []) (tree_of false ok_n) forb3 ok_f = Ok (true, [[MTerm mX30 bb; MTerm mY31 (gg cc)]]) /\
  names_ok (map term_part forb3) (term_part [MTerm mX30 bb; MTerm mY31 (gg cc)]).
Proof. exact forb_first. Qed.
(** a formula whose matches are all forbidden is not a contradiction *)
Theorem C31_all_forbidden_partial :
  forall eqi name_id ty_arity n fe tpos tneg forb f ms sgs, obvious_closure f = false -> search_inequalities eqi (add_unif n fe) f = Ok None ->
  search_closure name_id (add_unif n fe) (compute fe (add_unif n fe)) tpos tneg f = Ok ms ->
  all_some (map (fun m => to_mixed ty_arity (snd m)) ms) = Some sgs ->
  (forall sg, In sg sgs -> sg <> [] /\ names_ok (map term_part forb) (term_part sg) /\ retried (map term_part forb) (term_part sg)) ->
  closure_real eqi name_id ty_arity n fe tpos tneg forb f = Ok (false, []).
Proof. exact closure_all_forbidden. Qed.
Print Assumptions C31_all_forbidden_partial.
Example C31_all_case : obvious_closure ok_f = false /\ search_inequalities 0 (add_unif 30 30) ok_f = Ok None /\
  (exists ms, search_closure nid (add_unif 30 30) (compute 30 (add_unif 30 30)) (tree_of true []) (tree_of false ok_n) ok_f = Ok ms /\
    all_some (map (fun m => to_mixed mono0 (snd m)) ms) = Some ok_l) /\
  (forall sg, In sg ok_l -> sg <> [] /\ names_ok (map term_part forb4) (term_part sg) /\ retried (map term_part forb4) (term_part sg)).
Proof. exact forb_all. Qed.

(** C55: a satisfiable formula all of whose branches are closed by the search, with one substitution. *)
Theorem C55_refuted :
  forall k, exists F s, wf_start gS lF /\ grows same0 (plant 5 gS k lF) F /\ fo_leaves F <> [] /\
  monomorphic car mono0 /\ arity car 0 = 2%nat /\
  (forall st, In st (fo_leaves F) -> finds 0 nid mono0 30 30 same0 [] s st /\
     forall x, In x (q_lf (st_q st) ++ q_atomic (st_q st)) -> first_order car (ft_form x)) /\
  exists I (v : val I), eq_refl_in 0 I /\ holds lF v.
Proof. exact lF_unsound. Qed.
Print Assumptions C55_refuted.
(** when no binding is lost, such a formula has no model.  Missing: types, equality reasoning, the runs which lose a binding. *)
Theorem C55_partial :
  forall eqi name_id ty_arity n fe same ar m g k f F s forb, wf_start g f -> grows same (plant m g k f) F ->
  arity ar eqi = 2%nat -> monomorphic ar ty_arity ->
  (forall st, In st (fo_leaves F) -> finds eqi name_id ty_arity n fe same (forb st) s st /\
     state_strict eqi name_id ty_arity n fe same st (forb st) <> Out /\
     forall x, In x (q_lf (st_q st) ++ q_atomic (st_q st)) -> first_order ar (ft_form x)) ->
  forall I (v : val I), eq_refl_in eqi I -> ~ holds f v.
Proof. exact found_unsat. Qed.
Print Assumptions C55_partial.
Example C55_case : forall k, wf_start gS uF /\ grows same0 (plant 5 gS k uF) (uF_end k) /\ fo_leaves (uF_end k) = uF_leaves /\
  List.length uF_leaves = 2%nat /\
  forall st, In st (fo_leaves (uF_end k)) -> finds 0 nid mono0 30 30 same0 [] uS st /\ state_strict 0 nid mono0 30 30 same0 st [] <> Out /\
    forall x, In x (q_lf (st_q st) ++ q_atomic (st_q st)) -> first_order car (ft_form x).
Proof.
  exact (fun k => conj uF_start (conj (run_grows 3 (plant 5 gS k uF)) (conj (uF_leaves_ok k) (conj eq_refl (uF_finds k))))).
Qed.
