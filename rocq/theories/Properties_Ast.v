(** Property theorems for src/AST and the substitution functions of src/Core. *)
From Coq Require Import ZArith List Bool String.
From Verif Require Import LibSet_Model Ast_Model Sem_Spec Occ_Spec Rename_Spec Subst_Model FormHeap_Model
  Ast_Proofs Subst_Proofs FormHeap_Proofs FormHeap_Copy Rename_Final.
Import ListNotations.
Open Scope Z_scope.

(** C11: GetMetas of a term never panics and contains exactly the metavariables occurring in it. *)
Theorem C11_term_metas_exact :
  forall t, exists s, get_metas t = Some s /\
  forall m, find meta_eqb meta_ltb s m = true <-> occ_meta (m_index m) t.
Proof. exact get_metas_exact. Qed.
Print Assumptions C11_term_metas_exact.

(** C11: same for formulas. *)
Theorem C11_form_metas_exact :
  forall f, exists s, form_metas f = Some s /\
  forall m, find meta_eqb meta_ltb s m = true <-> focc_meta (m_index m) f.
Proof. exact form_metas_exact. Qed.
Print Assumptions C11_form_metas_exact.
Example C11_concrete : focc_meta (m_index mX) pXX /\ exists s, form_metas pXX = Some s /\ elements s = [mX].
Proof.
  split; [econstructor; [left; reflexivity|]; econstructor; [left; reflexivity|]; constructor; reflexivity|].
  eexists; split; reflexivity.
Qed.

(** C12: term equality is the identity of shape and indices, and an equivalence relation. *)
Theorem C12_term_equality :
  (forall a, term_eqb a a = true) /\
  (forall a b, term_eqb a b = true -> term_eqb b a = true) /\
  (forall a b c, term_eqb a b = true -> term_eqb b c = true -> term_eqb a c = true) /\
  (forall a b, term_eqb a b = true <-> same_term a b).
Proof. exact term_eqb_equivalence. Qed.
Print Assumptions C12_term_equality.
Example C12_concrete : term_eqb fXX fXX = true /\ term_eqb fXX cA = false.
Proof. split; reflexivity. Qed.

(** C13: SimplifyNegations returns an equivalent formula without leading double negation. *)
Theorem C13_simplify_negations :
  forall ix f, equiv (simplify_negations ix f) f /\
  (forall i j g, simplify_negations ix f <> Not i (Not j g)).
Proof. exact simplify_negations_ok. Qed.
Print Assumptions C13_simplify_negations.
(** C13: RemoveNeg returns the formula or its negation up to equivalence, without leading negation. *)
Theorem C13_remove_neg :
  forall f, (equiv (remove_neg f) f \/ (forall i, equiv (Not i (remove_neg f)) f)) /\
  (forall i g, remove_neg f <> Not i g).
Proof. exact remove_neg_ok. Qed.
Print Assumptions C13_remove_neg.
Example C13_concrete : simplify_negations 9 (Not 0 (Not 1 (Not 2 pXX))) = Not 9 pXX.
Proof. reflexivity. Qed.

(** C14 (partial): the returned formula is the full replacement when every argument of every atom
    contains the metavariable at most once.  Missing: repeated occurrences, where it is false. *)
Theorem C14_replace_meta_partial :
  forall m u f, (forall m', u = Meta m' -> m_index m' <> m_index m) ->
  all_atom_args (fun t => mcount (m_index m) t <= 1)%nat f ->
  replace_meta m u f = fmsubst (m_index m) u f.
Proof. exact replace_meta_linear. Qed.
Print Assumptions C14_replace_meta_partial.
Example C14_hypotheses_met : all_atom_args (fun t => mcount (m_index mX) t <= 1)%nat
  (Pred 0 (mkId 4 "p") [] [Fun (mkId 3 "f") [] [Meta mX; cA]; Meta mX]).
Proof. exact (proj1 linear_witness). Qed.

(** C14 refuted: in p(f(X,X)) an occurrence of X survives the replacement of X by a. *)
Theorem C14_replace_meta_refuted :
  exists m u f, ~ occ_meta (m_index m) u /\ focc_meta (m_index m) (replace_meta m u f).
Proof. exact (ex_intro _ mX (ex_intro _ cA (ex_intro _ pXX
         (conj (proj2 (proj2 replace_meta_misses)) (proj1 (proj2 replace_meta_misses)))))). Qed.
Print Assumptions C14_replace_meta_refuted.

(** C14 (partial): the original is unchanged when the formula has no conjunction or disjunction. *)
Theorem C14_original_unchanged_partial :
  forall n h m t f g, no_lists f = true -> habs n h f = Some g ->
  exists r, hreplace n h m t f = Some (h, r) /\ habs n h r = Some (replace_meta m t g).
Proof. exact hreplace_nolists. Qed.
Print Assumptions C14_original_unchanged_partial.

(** C14 refuted: replacing X by a in p(X) & $true changes the original formula too. *)
Theorem C14_original_unchanged_refuted :
  exists h f m t h' r g, habs 3 h f = Some g /\ hreplace 3 h m t f = Some (h', r) /\
  habs 3 h' f <> Some g.
Proof.
  destruct original_changes as (h' & r & A & B & _ & E).
  exists hw, fw, mX, cA, h', r, (And 0 [Pred 1 (mkId 4 "p") [] [Meta mX]; Top 2]).
  split; [exact A|split; [exact B|rewrite E; discriminate]].
Qed.
Print Assumptions C14_original_unchanged_refuted.

(** C14 (partial): a copy shares no cell with the values that existed before.  When the replacement is made in a copy, these
    keep their meaning, and the answer is the one on immutable formulas.  Missing: callers that do not copy. *)
Theorem C14_in_a_copy_partial :
  forall m t n h f g, habs n h f = Some g ->
  exists h1 f1 h2 r, hcopy n h f = Some (h1, f1) /\ habs n h1 f1 = Some g /\
    hreplace n h1 m t f1 = Some (h2, r) /\ habs n h2 r = Some (replace_meta m t g) /\
    forall k f0 g0, habs k h f0 = Some g0 -> habs k h1 f0 = Some g0 /\ habs k h2 f0 = Some g0.
Proof. exact copy_then_replace. Qed.
Print Assumptions C14_in_a_copy_partial.
Example C14_in_a_copy_case : habs 3 hw fw = Some (And 0 [Pred 1 (mkId 4 "p") [] [Meta mX]; Top 2]).
Proof. destruct original_changes as (? & ? & H & _). exact H. Qed.

(** C15: ApplySubstitutionOnTerm replaces every occurrence and nothing else. *)
Theorem C15_apply_subst_on_term :
  forall m u t,
  apply_subst_on_term m u t = msubst (m_index m) u t /\
  (forall I (v : val I), ev v (apply_subst_on_term m u t) = ev (set_mv v (m_index m) (ev v u)) t) /\
  (~ occ_meta (m_index m) u -> ~ occ_meta (m_index m) (apply_subst_on_term m u t)) /\
  (~ occ_meta (m_index m) t -> apply_subst_on_term m u t = t).
Proof. exact apply_subst_on_term_ok. Qed.
Print Assumptions C15_apply_subst_on_term.
(** C15: applying the bindings of an idempotent substitution in turn is the simultaneous one. *)
Theorem C15_all_bindings_simultaneous :
  forall s t, (forall m u m' u', In (m, u) s -> In (m', u') s -> ~ occ_meta (m_index m') u) ->
  fold_left (fun t b => apply_subst_on_term (fst b) (snd b) t) s t = ssubst s t.
Proof. exact apply_all_simultaneous. Qed.
Print Assumptions C15_all_bindings_simultaneous.
Example C15_concrete : apply_subst_on_term mX cA fXX = Fun (mkId 3 "f") [] [cA; cA].
Proof. reflexivity. Qed.
(** C15 refuted for the variant working on a list of mixed bindings (ApplySubstitutionsOnTerm). *)
Theorem C15_apply_substitutions_refuted :
  exists m u t, apply_substs_on_term [MTerm m u] t <> ssubst [(m, u)] t.
Proof. exact (ex_intro _ mX (ex_intro _ cA (ex_intro _ fXX (proj1 apply_substs_misses)))). Qed.
Print Assumptions C15_apply_substitutions_refuted.

(** C16 (partial): RenameVariables succeeds, preserves meaning in every model, and its bound
    variables are pairwise distinct, with indices never drawn before and names never used before,
    provided no generated name collides with an existing one.  Missing: colliding names. *)
Theorem C16_rename_partial :
  forall f g, drawn_from g f -> sorted_use f -> f_noid f ->
  no_name_clash g (map tv_name (f_binders f)) ->
  exists f' g', rename_variables f g = Some (f', g') /\ equiv f f' /\
    NoDup (map tv_index (f_binders f')) /\ NoDup (map tv_name (f_binders f')) /\
    (forall x, In x (f_binders f') -> cpt_term g <= tv_index x /\ ~ known_var g (tv_name x)).
Proof. exact rename_final. Qed.
Print Assumptions C16_rename_partial.
(** C16 (partial): the collision hypothesis holds in a run whose variable names do not end in a
    digit, and such runs stay such. *)
Theorem C16_rename_no_digits_partial :
  forall f g, drawn_from g f -> sorted_use f -> f_noid f -> clean g ->
  (forall x, In x (f_binders f) -> ends_digit (tv_name x) = false) ->
  exists f' g', rename_variables f g = Some (f', g') /\ equiv f f' /\
    NoDup (map tv_index (f_binders f')) /\ NoDup (map tv_name (f_binders f')) /\
    (forall x, In x (f_binders f') -> cpt_term g <= tv_index x /\ ~ known_var g (tv_name x)) /\ clean g'.
Proof. exact rename_clean. Qed.
Print Assumptions C16_rename_no_digits_partial.
Example C16_hypotheses_met : drawn_from gGood fGood /\ sorted_use fGood /\ f_noid fGood /\ clean gGood /\
  (forall x, In x (f_binders fGood) -> ends_digit (tv_name x) = false).
Proof. exact fGood_ok. Qed.
(** C16 refuted: renaming ! [X4] : ! [X] : p(X,X4) in the state reached after reading it captures a
    variable: the result is true in a model where the original is false. *)
Theorem C16_rename_refuted :
  exists f g, drawn_from g f /\ sorted_use f /\ f_noid f /\
  exists f' g', rename_variables f g = Some (f', g') /\ 
  exists I (v : val I), holds f' v /\ ~ holds f v.
Proof.
  destruct fBad_wrong as (f' & g' & A & B & C).
  exists fBad, gBad. destruct fBad_ok as (O1 & O2 & O3).
  split; [exact O1|split; [exact O2|split; [exact O3|]]].
  exists f', g'. split; [exact A|]. exists eqI, eqV. exact (conj B C).
Qed.
Print Assumptions C16_rename_refuted.
