(** Properties C76 and C77: the substitutions of the children. *)
Require Import Coq.Lists.List Coq.Arith.PeanoNat Coq.Bool.Bool.
From Verif Require Import Proto_Model Proto_Spec Proto_Agree Proto_AgreeWitness.
Import ListNotations.

(** C76 refuted: three children, the second one closed by another substitution than the two others, and the
    search ends with a closed answer of the root. *)
Theorem C76_agreed_refuted : forall complete dmt, exists g w s,
  reach complete dmt g /\ c_crash g = false /\ all_in g 0 w s /\ ~ agreed g w s
  /\ exists l g', run complete dmt g l = Some g' /\ c_crash g' = false /\ c_main g' = MDone
       /\ In (Event 0 (Answer true false []) [1; 2; 3]) (c_log g').
Proof.
  intros complete dmt.
  destruct (three_disagree complete dmt)
    as (g & w & s & H1 & H2 & H3 & H4 & H5 & H6 & H7 & g' & H8).
  exists g, w, s. split; [exact H1 | split; [exact H2 | split; [exact H3 | split]]].
  - intro Ha. destruct (Ha [7] 7 H4 (or_introl eq_refl) 2 H5) as (l & Hl & Hacc).
    rewrite (answered_inj g 2 l [8] Hl H7), H6 in Hacc.
    destruct Hacc as [Hx | [(c & Hx & _) | [Hx | []]]]; discriminate.
  - exists three_end, g'. exact H8.
Qed.
Print Assumptions C76_agreed_refuted.
(** What holds: they agree when at most two of them ask for something else than what they were given. *)
Theorem C76_agreed_partial : forall complete dmt g p w s k1 k2,
  reach complete dmt g -> all_in g p w s ->
  (forall k l, In k (w_alive w) -> answered g k l ->
     content (w_cur w) l \/ k = k1 \/ k = k2) ->
  agreed g w s.
Proof. exact two_children_agree. Qed.
Print Assumptions C76_agreed_partial.
Example C76_agreed_case : forall complete dmt, exists g w s,
  reach complete dmt g /\ all_in g 0 w s
  /\ (forall k l, In k (w_alive w) -> answered g k l -> content (w_cur w) l \/ k = 1 \/ k = 3)
  /\ decide w s = DParent [8] /\ w_alive w = [1; 2; 3].
Proof.
  intros complete dmt. destruct (common_ok complete dmt) as (g & w & s & H1 & _ & H3 & H4 & H5 & _ & H7).
  exists g, w, s. auto.
Qed.

(** C77: a node is closed without a substitution exactly when all its children are. *)
Theorem C77_closes : forall complete dmt g p w s, reach complete dmt g -> all_in g p w s ->
  (decide w s = DClose <-> forall k, In k (w_alive w) -> answered g k []).
Proof. exact closes_iff. Qed.
Print Assumptions C77_closes.
Example C77_closes_case : forall complete dmt, exists g w s,
  reach complete dmt g /\ all_in g 0 w s /\ w_alive w = [1; 2] /\ decide w s = DClose.
Proof.
  intros complete dmt. destruct (none_ok complete dmt) as (g & w & s & H1 & _ & H3 & H4 & H5).
  exists g, w, s. auto.
Qed.
(** What is passed to the father or offered to the children was found by a child. *)
Theorem C77_found : forall complete dmt g p w s r v, reach complete dmt g -> all_in g p w s ->
  decide w s = DParent r \/ decide w s = DChildren r -> In v r ->
  exists k l, In k (w_alive w) /\ answered g k l /\ In v l.
Proof. exact passed_heard. Qed.
Print Assumptions C77_found.
Example C77_found_case : forall complete dmt, exists g w s,
  reach complete dmt g /\ all_in g 0 w s /\ w_cur w = Some 7
  /\ decide w s = DParent [9; 10] /\ answered g 2 [9; 7; 10].
Proof.
  intros complete dmt. destruct (later_ok complete dmt) as (g & w & s & H1 & _ & H3 & H4 & H5 & H6).
  exists g, w, s. auto.
Qed.
(** What is offered to the children is not what they were given, and is offered once. *)
Theorem C77_offered : forall complete dmt g p w s r, reach complete dmt g -> all_in g p w s ->
  decide w s = DChildren r -> NoDup r /\ forall c, w_cur w = Some c -> ~ In c r.
Proof. exact offered_new. Qed.
Print Assumptions C77_offered.
(** If no child repeats itself, something is passed to the father, and there is a choice to offer to the
    children: the index 0 of chooseSubstitutionDestructive (destructive.go 174) is in range. *)
Theorem C77_choice : forall complete dmt g p w s, reach complete dmt g -> all_in g p w s ->
  no_repeat g w ->
  (forall r, decide w s = DParent r -> r <> [])
  /\ (forall r, decide w s = DChildren r -> 2 <= length r).
Proof. exact passed_nonempty. Qed.
Print Assumptions C77_choice.
Example C77_choice_case : forall complete dmt, exists g w s,
  reach complete dmt g /\ all_in g 0 w s /\ no_repeat g w /\ decide w s = DChildren [7; 8; 9].
Proof.
  intros complete dmt. destruct (apart_ok complete dmt) as (g & w & s & H1 & _ & H3 & H4 & H5).
  exists g, w, s. auto.
Qed.
