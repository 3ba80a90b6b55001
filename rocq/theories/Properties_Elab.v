(** Properties C58, C59 and C60: elaboration of parsed formulas. *)
From Coq Require Import ZArith List Bool String.
From Verif Require Import Ast_Model Sem_Spec Typing_Model Typing_Spec Elab_Model Elab_Spec Elab_Proofs Elab_Final Elab_Context Elab_Witness.
Import ListNotations.
Open Scope list_scope.
Open Scope Z_scope.

(** C58 refuted: a closed well-kinded formula elaborated into a formula of another meaning, because the variables of an inner
    quantifier are still in the context after it. *)
Theorem C58_scope_refuted :
  exists f con' f' b g' (I : interp) (N : ninterp (D I) (T I)),
  elab_form false initial_context f gen0 = EOk (con', f', b, g') /\ tab_ok gen0 /\
  scoped_form (fun _ => None) (sig_tysym initial_context) [] f /\
  matches I N g' /\ defined_untyped N /\
  (forall env, psat N (sig_tysym initial_context) f env) /\ (forall v : val I, ~ holds f' v).
Proof.
  destruct leak_wrong as (con' & f' & b & g' & H).
  exact (ex_intro _ leak (ex_intro _ con' (ex_intro _ f' (ex_intro _ b (ex_intro _ g' (ex_intro _ i_numbers (ex_intro _ i_names H))))))).
Qed.
Print Assumptions C58_scope_refuted.
(** C58 refuted: for the same reason an equality of two terms of type a is taken at the type b, and the formula is not well typed,
    while it is with the equality taken at a. *)
Theorem C58_equality_type_refuted :
  exists f con con' f' b g', elab_form false con f gen0 = EOk (con', f', b, g') /\
  ~ well_typed E_leak f' /\ f' = leak_form "b" /\ well_typed E_leak (leak_form "a").
Proof.
  destruct leak_eq_out as (con' & b & g' & H).
  exact (ex_intro _ leak_eq (ex_intro _ _ (ex_intro _ con' (ex_intro _ (leak_form "b") (ex_intro _ b (ex_intro _ g'
    (conj H (conj leak_ill_typed (conj eq_refl leak_intended))))))))).
Qed.
Print Assumptions C58_equality_type_refuted.
(** C58 (partial): a well-kinded formula, each name being bound at one kind, elaborates into a formula of the same meaning, in the
    tables of the moment and in all the later ones.  Missing: names bound at two kinds (refuted above); the meaning of the defined
    symbols must not depend on their type arguments. *)
Theorem C58_meaning_partial :
  forall fl kappa tysym scope con f g con' f' b g',
  elab_form fl con f g = EOk (con', f', b, g') -> tab_ok g ->
  con_ok kappa tysym scope con -> wk_form kappa tysym scope f ->
  tab_ok g' /\ tab_ext g g' /\ con_ok kappa tysym scope con' /\
  forall G (I : interp) (N : ninterp (D I) (T I)) (v : val I) env,
    tab_ok G -> tab_ext g' G -> matches I N G -> defined_untyped N -> val_ok kappa scope G env v ->
    (holds f' v <-> psat N tysym f env).
Proof. exact elab_meaning. Qed.
Print Assumptions C58_meaning_partial.
(** the same for a whole file: declarations, then formulas *)
Theorem C58_file_partial :
  forall fl kappa decls l g l' b g',
  to_internal_syntax fl (map (fun d => PSType RType (fst d) (snd d)) decls ++ l) g = EOk (l', b, g') ->
  tab_ok g -> Forall is_form l ->
  (forall s t, In (s, t) (initial_context ++ decls) -> kappa s = None) ->
  (forall s t, In (s, t) decls -> top_type t) ->
  (forall r f, In (PSForm r f) l -> wk_form kappa (sig_tysym (initial_context ++ decls)) [] f) ->
  tab_ok g' /\
  exists ds fs, l' = ds ++ fs /\ List.length ds = List.length decls /\
    Forall2 (stmt_agrees (sig_tysym (initial_context ++ decls)) g') l fs.
Proof. exact elab_file. Qed.
Print Assumptions C58_file_partial.
Example C58_case :
  (exists l' b g', to_internal_syntax true (map (fun d => PSType RType (fst d) (snd d)) w_decls ++ w_file) gen0 = EOk (l', b, g')) /\
  tab_ok gen0 /\ (forall s t, In (s, t) (initial_context ++ w_decls) -> w_kappa s = None) /\
  (forall s t, In (s, t) w_decls -> top_type t) /\
  (forall r f, In (PSForm r f) w_file -> wk_form w_kappa (sig_tysym (initial_context ++ w_decls)) [] f).
Proof. exact (conj w_runs (conj gen0_ok (conj w_kinds (conj w_tops w_wk)))). Qed.
(** every interpretation of the names is one of the numbers, and conversely *)
Theorem C58_interpretations :
  (forall (DD TT : Type) (N : ninterp DD TT) g, tab_ok g ->
     exists (fnI : Z -> list TT -> list DD -> DD) (prI : Z -> list TT -> list DD -> Prop),
     forall ts tp tf tpi, matches (mkInterp DD TT fnI prI (ntc N) ts tp tf tpi) N g) /\
  (forall (I : interp) g, exists N : ninterp (D I) (T I), matches I N g).
Proof. exact (conj (@interp_of_names) names_of_interp). Qed.
Print Assumptions C58_interpretations.
(** the connectives <=, <~>, ~| and ~& *)
Theorem C58_connectives :
  forall (DD TT : Type) (N : ninterp DD TT) tysym env l r,
  (psat N tysym (mk_previmp l r) env <-> (psat N tysym r env -> psat N tysym l env)) /\
  (psat N tysym (mk_pxor l r) env <->
     (psat N tysym l env /\ ~ psat N tysym r env) \/ (~ psat N tysym l env /\ psat N tysym r env)) /\
  (psat N tysym (mk_pnotor l r) env <-> ~ psat N tysym l env /\ ~ psat N tysym r env) /\
  (psat N tysym (mk_pnotand l r) env <-> ~ (psat N tysym l env /\ psat N tysym r env)).
Proof. exact (@derived_connectives). Qed.
Print Assumptions C58_connectives.

(** C59 refuted: the flag is false although a symbol has a type argument. *)
Theorem C59_flag_refuted :
  exists f con' f' g', elab_form true initial_context f gen0 = EOk (con', f', false, g') /\ typed_form f' = true.
Proof. exact (ex_intro _ flag_f flag_lost). Qed.
Print Assumptions C59_flag_refuted.
(** C59 (partial): the flag is true only if some symbol has a type argument; it is true if an undefined predicate has one.
    Missing: the type arguments of functions. *)
Theorem C59_flag_partial :
  forall fl con f g con' f' b g', elab_form fl con f g = EOk (con', f', b, g') ->
  (b = true -> typed_form f' = true) /\ (typed_pred f' = true -> b = true).
Proof. exact elab_flag. Qed.
Print Assumptions C59_flag_partial.
Theorem C59_file_partial :
  forall fl l con g l' b g', elab_stmts fl con l g = EOk (l', b, g') ->
  (b = true -> existsb stmt_typed l' = true) /\ (existsb stmt_typed_pred l' = true -> b = true).
Proof. exact file_flag. Qed.
Print Assumptions C59_file_partial.
Example C59_case : exists con' f' g',
  elab_form true initial_context (PPred "p" [PFun "$i" [] None; PFun "c" [] None]) gen0 = EOk (con', f', true, g') /\ typed_pred f' = true.
Proof. exact flag_set. Qed.

(** C60 refuted: the statements of a file are elaborated without the declarations of the files it includes, and differently. *)
Theorem C60_include_refuted :
  exists decls l l1 b1 g1 l2 b2 g2, to_internal_syntax true l gen0 = EOk (l1, b1, g1) /\
  elab_stmts true (initial_context ++ decls) l gen0 = EOk (l2, b2, g2) /\ l1 <> l2 /\ b1 = false /\ b2 = true.
Proof.
  destruct inc_alone as (g1 & H1). destruct inc_inlined as (g2 & H2).
  refine (ex_intro _ inc_decls (ex_intro _ inc_main (ex_intro _ _ (ex_intro _ _ (ex_intro _ g1 (ex_intro _ _ (ex_intro _ _ (ex_intro _ g2
    (conj H1 (conj H2 (conj _ (conj eq_refl eq_refl)))))))))))). discriminate.
Qed.
Print Assumptions C60_include_refuted.
(** C60 (partial): declarations whose names are not used in a file do not matter to its elaboration. *)
Theorem C60_include_partial :
  forall fl decls l g, (forall s t, In (s, t) decls -> ~ In s (flat_map pstmt_names l)) ->
  elab_stmts fl (initial_context ++ decls) l g = to_internal_syntax fl l g.
Proof. exact elab_unrelated. Qed.
Print Assumptions C60_include_partial.
Example C60_case : forall s t, In (s, t) inc_decls -> ~ In s (flat_map pstmt_names [PSForm RAxiom w_ax]).
Proof. exact inc_unrelated. Qed.
