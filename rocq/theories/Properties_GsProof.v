(** C73-C75: the translation of a tableau proof to GS3. *)
From Coq Require Import ZArith String List Bool.
From Verif Require Import Ast_Model Sem_Spec Occ_Spec Unif_Model GsTerm_Model GsTerm_Spec GsProof_Model GsProof_Spec GsProof_Fresh GsProof_Sound GsProof_Witness.
Import ListNotations.
Open Scope list_scope.
Open Scope Z_scope.

(** C73 is false: a delta rule on a variable that does not occur panics as soon as the branch has a term *)
Theorem C73_total_refuted :
  exists first rest, tab any_delta (start None first) (first :: rest) /\ skolemized (ps_form first) (first :: rest) /\
    make_gs3 eq0 false 20 None (first :: rest) = Crash.
Proof. exact vac_fails. Qed.
Print Assumptions C73_total_refuted.
(** it is false too when the variables occur: a Skolem term inside a Skolem term is not seen as a dependency *)
Theorem C73_nested_refuted :
  exists first rest, tab any_delta (start None first) (first :: rest) /\ skolemized (ps_form first) (first :: rest) /\
    (forall s f, sko_of (first :: rest) s f -> exists v i vs g, f = Ex i (v :: vs) g /\ In (tv_index v) (f_vars g)) /\
    make_gs3 eq0 false 20 None (first :: rest) = Crash.
Proof. exact nest_fails. Qed.
Print Assumptions C73_nested_refuted.
(** when each delta rule introduces a term that is new to its branch, every closed tableau is translated *)
Theorem C73_total_partial empty_eq preinner axioms first rest n :
  tab fresh_delta (start axioms first) (first :: rest) -> (pdepth (first :: rest) < n)%nat ->
  exists s, make_gs3 empty_eq preinner n axioms (first :: rest) = Ok s.
Proof. exact (fresh_total empty_eq preinner axioms first rest n). Qed.
Print Assumptions C73_total_partial.
Example C73_total_case : tab fresh_delta (start None (PS e0 0 1 "ALPHA_AND" [[e1; e2]] [])) new_first /\ pdepth new_first = 2%nat.
Proof. exact (conj new_first_tab eq_refl). Qed.

(** C74 is false: the result of a delta rule is counted twice in the branch, and weakened twice *)
Theorem C74_replay_refuted :
  exists first rest s, tab any_delta (start None first) (first :: rest) /\ skolemized (ps_form first) (first :: rest) /\
    make_gs3 eq0 false 20 None (first :: rest) = Ok s /\ ~ gs3 (start None first) s.
Proof. exact two_fails. Qed.
Print Assumptions C74_replay_refuted.
Theorem C74_replay_partial empty_eq preinner axioms first rest n s :
  tab fresh_delta (start axioms first) (first :: rest) -> make_gs3 empty_eq preinner n axioms (first :: rest) = Ok s ->
  gs3 (start axioms first) s.
Proof. exact (fresh_replay empty_eq preinner axioms first rest n s). Qed.
Print Assumptions C74_replay_partial.
Example C74_replay_case : exists s, make_gs3 eq0 false 3 None new_first = Ok s /\ rules_along 3 s = [AND; EX; ALL] /\ gs3 [e0] s.
Proof. exact new_first_replay. Qed.

(** the names the search writes are those the translation reads: every rule but the three it never writes comes back *)
Theorem C74_names_partial r : r <> NOT -> r <> R -> r <> REWRITE -> rule_of_name (name_of_rule r) = r.
Proof. intros H1 H2 H3. destruct r; try reflexivity; contradiction. Qed.
Print Assumptions C74_names_partial.
Example C74_names_case : map rule_of_name
  ["ALPHA_NOT_NOT"; "ALPHA_NOT_OR"; "ALPHA_NOT_IMPLY"; "ALPHA_AND"; "BETA_NOT_AND"; "BETA_NOT_EQUIV"; "BETA_OR"; "BETA_IMPLY"; "BETA_EQUIV";
   "GAMMA_NOT_EXISTS"; "GAMMA_FORALL"; "DELTA_NOT_FORALL"; "DELTA_EXISTS"; "CLOSURE"]%string =
  [NNOT; NOR; NIMP; AND; NAND; NEQU; OR; IMP; EQU; NEX; ALL; NALL; EX; AX].
Proof. reflexivity. Qed.

(** C75: every run, reordered or not *)
Theorem C75_sequents preinner i q tys a ok axioms first rest n s :
  tab ok (start axioms first) (first :: rest) ->
  (preinner = true -> forall t t' r r', introduces (first :: rest) t r -> introduces (first :: rest) t' r' -> term_eqb t t' = true -> same r r') ->
  make_gs3 (Pred i q tys a) preinner n axioms (first :: rest) = Ok s ->
  sound (Pred i q tys a) tableau_rule (start axioms first) s.
Proof. exact (tableau_sound preinner i q tys a ok axioms first rest n s). Qed.
Print Assumptions C75_sequents.
(** the same for any steps, such as those of the rewriting plugin *)
Theorem C75_steps empty_eq preinner inst (witness : term -> form -> Prop) axioms first rest n s :
  (preinner = true -> forall t t' r r', witness t r -> witness t' r' -> term_eqb t t' = true -> same r r') ->
  Forall (good empty_eq inst witness) (first :: rest) -> make_gs3 empty_eq preinner n axioms (first :: rest) = Ok s ->
  sound empty_eq inst (start axioms first) s.
Proof. exact (fun F => translated_sound empty_eq preinner inst witness F axioms first rest n s). Qed.
Print Assumptions C75_steps.
(** the drinker: the delta rule comes first in the result, and the gamma and alpha rules are applied again below it *)
Example C75_drinker_case : tab any_delta [d0] drinker /\
  (forall t t' r r', introduces drinker t r -> introduces drinker t' r' -> term_eqb t t' = true -> same r r') /\
  exists s, make_gs3 eq0 false 20 None drinker = Ok s /\ rules_along 20 s = [NEX; NIMP; W; W; NALL; NEX; NIMP; AX].
Proof. exact (conj drinker_tab (conj drinker_once drinker_reordered)). Qed.
