(** Property theorems for src/main.go: the formula given to the search. *)
From Coq Require Import ZArith List Bool String.
From Verif Require Import Ast_Model Problem_Model Sem_Spec Occ_Spec Rename_Spec Problem_Spec Rename_Proofs Rename_Final
  Problem_Proofs.
Import ListNotations.
Open Scope Z_scope.

(** C17 (partial): the assembled formula holds exactly where the axioms hold and the conjecture
    fails, and the run reports a conjecture exactly when there is one.  Missing: variable names
    ending with a digit (false, see below), two conjectures in different files. *)
Theorem C17_assembled_partial :
  forall g l, clean g -> good_file g l ->
  exists fo, statement_list_to_formula l g = Some (fo, false, existsb has_conj l) /\
  (fo = None <-> existsb has_form l = false) /\
  (forall f, fo = Some f -> forall I (v : val I), holds f v <-> countermodel v l).
Proof. exact assembled_ok. Qed.
Print Assumptions C17_assembled_partial.

Example C17_hypotheses_met : clean gGood /\ good_file gGood [SAxiom (Some fGood); SConjecture (Some fGood)].
Proof.
  destruct fGood_ok as (A & B & C & D & E). split; auto. split; [|simpl; auto].
  assert (G : good_form gGood fGood) by (split; auto). simpl. auto.
Qed.

(** C17: a second conjecture in the same file is rejected. *)
Theorem C17_second_conjecture :
  forall l1 s l2 g, is_conjecture s = true -> existsb is_conjecture l2 = true ->
  statement_list_to_formula (l1 ++ s :: l2) g = None.
Proof. exact second_conjecture. Qed.
Print Assumptions C17_second_conjecture.

(** C17 refuted: the axiom ! [Z] : p(Z,Z) does not entail ! [X7,X] : p(X,X7), but the assembled
    formula has no model. *)
Theorem C17_assembled_refuted :
  exists g l f, statement_list_to_formula l g = Some (Some f, false, true) /\
  (exists I (v : val I), countermodel v l) /\ (forall I (v : val I), ~ holds f v).
Proof.
  destruct assembled_wrong as (f & A & B & C).
  exact (ex_intro _ gProb (ex_intro _ [SAxiom (Some axProb); SConjecture (Some cjProb)]
    (ex_intro _ f (conj A (conj B C))))).
Qed.
Print Assumptions C17_assembled_refuted.

(** C17 refuted: a conjecture in an included file and another one in the main file are accepted. *)
Theorem C17_two_conjectures_refuted :
  exists l f, has_conj (nth 0 l SUnknown) = true /\ has_conj (nth 1 l SUnknown) = true /\
  statement_list_to_formula l gen0 = Some (Some f, false, true).
Proof.
  destruct two_conjectures_accepted as (f & A).
  exact (ex_intro _ two_conj (ex_intro _ f (conj eq_refl (conj eq_refl A)))).
Qed.
Print Assumptions C17_two_conjectures_refuted.

(** C52 refuted: the flag telling that the problem is typed is false although an included file is. *)
Theorem C52_typed_include_refuted :
  exists l f, existsb (fun s => match s with SInclude (Some (true, _)) => true | _ => false end) l = true /\
  statement_list_to_formula l gen0 = Some (Some f, false, false).
Proof.
  destruct typed_lost as (f & A).
  exact (ex_intro _ [SInclude (Some (true, [SAxiom (Some (Top 0))]))] (ex_intro _ f (conj eq_refl A))).
Qed.
Print Assumptions C52_typed_include_refuted.
