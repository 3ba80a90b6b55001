(** Concrete equality problems. *)
From Coq Require Import ZArith List Bool String Lia.
From Verif Require Import Ast_Model Unif_Model Unif_Spec UnifLoss_Model UnifTree_Model UnifTree_Final Lpo_Model Bse_Model Bse_Spec Bse_Proofs.
Import ListNotations.
Open Scope list_scope.
Open Scope Z_scope.

Definition con (i : Z) (n : string) : term := Fun (mkId i n) [] [].
Definition ca := con 10 "a". Definition cb := con 11 "b". Definition cc := con 12 "c".
Definition g (t : term) : term := Fun (mkId 20 "g") [] [t].
Definition mX (i : Z) : meta := mkMeta i 0 "X" 0 (TyConstr "$i" []).
Definition mY (i : Z) : meta := mkMeta i 0 "Y" 0 (TyConstr "$i" []).
Definition nid (s : string) : ident := mkId 0 s.
Definition Q := unify_real nid 30 30.
Definition real := add_unif 30 30.
Definition strict := add_unif_s true 30 30.
Definition every : rule -> bool := fun _ => true.
Definition no_rule : rule := mkRule false ca ca ca ca ca false 0.
Definition nth_rule (n : nat) (o : out (list rule)) : rule := match o with Ok l => nth n l no_rule | _ => no_rule end.

(** ** From a = b, the goal c = g(b): the second side is rewritten and takes the place of both. *)
Definition ep_goal : problem := mkEP [(ca, cb)] cc (g cb) empty_c.
Lemma goal_answer : answer nid Q real every ep_goal None true [[]].
Proof.
  change true with (nonempty (@nil substs) || true). change [[]] with (@nil substs ++ [[]]).
  apply ans_rules; [vm_compute; reflexivity|vm_compute; reflexivity|]. eapply rules_right; [vm_compute; reflexivity|].
  change [[]] with (dedup [[]]). eapply man_found; [left; reflexivity|reflexivity|]. eapply child_next; [vm_compute; reflexivity|].
  change true with (nonempty (@nil substs) || true). change [[]] with (@nil substs ++ [[]]).
  apply ans_rules; [vm_compute; reflexivity|vm_compute; reflexivity|]. eapply rules_right; [vm_compute; reflexivity|].
  change [[]] with (dedup [[]]). eapply man_found; [left; reflexivity|reflexivity|]. eapply child_next; [vm_compute; reflexivity|].
  apply ans_stop; vm_compute; reflexivity.
Qed.
(** a and b are true, the rest is the identity or false *)
Definition alg_goal : alg := mkAlg bool (fun i _ l => if i =? 20 then hd false l else (i =? 10) || (i =? 11)) (fun _ => false) (fun _ => false).
Lemma goal_wrong : ~ solution (p_E ep_goal) (p_s ep_goal) (p_t ep_goal) [].
Proof.
  intros H. specialize (H alg_goal (fun _ => false)). cbn in H. discriminate H; [intros ? ? []|].
  intros x y [E|[]]. injection E as <- <-. reflexivity.
Qed.

(** ** Two metavariables with the same name: from g(X1) = a and g(X2) = b, the goal g(c) = b *)
Definition ep_names : problem := mkEP [(g (Meta (mX 1)), ca); (g (Meta (mX 2)), cb)] (g cc) cb empty_c.
Definition s_names : substs := [(mX 1, cc)].
Lemma names_answer : answer nid Q strict kept ep_names None true [s_names].
Proof.
  change true with (nonempty (@nil substs) || true). change [s_names] with (@nil substs ++ [s_names]).
  apply ans_rules; [vm_compute; reflexivity|vm_compute; reflexivity|]. eapply rules_right; [vm_compute; reflexivity|].
  change [s_names] with (dedup [s_names]). eapply man_found; [right; left; reflexivity|reflexivity|]. eapply child_next; [vm_compute; reflexivity|].
  apply ans_stop; vm_compute; reflexivity.
Qed.
(** g is the identity, b and X2 are true *)
Definition alg_names : alg := mkAlg bool (fun i _ l => if i =? 20 then hd false l else i =? 11) (fun _ => false) (fun _ => false).
Lemma names_wrong : ~ solution (p_E ep_names) (p_s ep_names) (p_t ep_names) s_names.
Proof.
  intros H. specialize (H alg_names (fun i => i =? 2)). cbn in H. discriminate H.
  - intros k t [E|[]]. injection E as <- <-. reflexivity.
  - intros x y [E|[E|[]]]; injection E as <- <-; reflexivity.
Qed.

(** ** Nothing to rewrite, and a lost equation of the unification: h(X, Y, b) = h(Y, a, X) *)
Definition h3 (a b c : term) : term := Fun (mkId 40 "h") [] [a; b; c].
Definition ep_loss : problem := mkEP [(cc, con 13 "d")] (h3 (Meta (mX 1)) (Meta (mY 2)) cb) (h3 (Meta (mY 2)) ca (Meta (mX 1))) empty_c.
Definition s_loss : substs := [(mX 1, cb); (mY 2, cb)].
Lemma no_managed al ep : forall a : term -> term -> substs -> out substs, managed nid Q a al ep [] false [].
Proof. intros a. apply (man_none _ _ _ _ ep [] (fun _ => [])). intros u []. Qed.
Lemma loss_answer : answer nid Q real kept ep_loss None true [s_loss].
Proof.
  change true with (nonempty [s_loss] || false). change [s_loss] with ([s_loss] ++ []).
  apply ans_rules; [vm_compute; reflexivity|vm_compute; reflexivity|].
  eapply rules_left; [vm_compute; reflexivity|apply no_managed|vm_compute; reflexivity|apply no_managed].
Qed.
(** the terms h(x, y, z) are the triples *)
Definition alg_loss : alg := mkAlg (list Z) (fun i _ l => if i =? 40 then List.concat l else if i =? 10 then [10] else if i =? 11 then [11] else []) (fun _ => []) (fun _ => []).
Lemma loss_wrong : ~ solution (p_E ep_loss) (p_s ep_loss) (p_t ep_loss) s_loss.
Proof.
  intros H. specialize (H alg_loss (fun _ => [11])). cbn in H. discriminate H.
  - intros k t [E|[E|[]]]; injection E as <- <-; reflexivity.
  - intros x y [E|[]]; injection E as <- <-; reflexivity.
Qed.

(** ** Problems that meet the hypotheses *)
Definition sar : signature :=
  mkSig (fun i => if i =? 20 then 1%nat else if i =? 40 then 3%nat else 0%nat)
    (fun m => m = mX 1 \/ m = mY 2)
    (fun p => In p [mkId 10 "a"; mkId 11 "b"; mkId 12 "c"; mkId 13 "d"; mkId 20 "g"; mkId 40 "h"]).
Lemma sar_names : distinct_names sar.
Proof.
  repeat split.
  - intros m m' [-> | ->] [-> | ->] E; cbn in *; congruence.
  - intros p q Hp Hq E. cbn in Hp, Hq. repeat (destruct Hp as [<-|Hp]; [repeat (destruct Hq as [<-|Hq]; [cbn in *; congruence|]); destruct Hq|]). destruct Hp.
  - intros m p [-> | ->] Hp; cbn in Hp; repeat (destruct Hp as [<-|Hp]; [let E := fresh in intros E; vm_compute in E; discriminate E|]); destruct Hp.
  - destruct H as [-> | ->]; let E := fresh in intros E; vm_compute in E; discriminate E.
  - destruct H as [-> | ->]; cbn; repeat split; discriminate.
  - cbn in H. repeat (destruct H as [<-|H]; [let E := fresh in intros E; vm_compute in E; discriminate E|]). destruct H.
  - cbn in H. repeat (destruct H as [<-|H]; [cbn; repeat split; discriminate|]). destruct H.
Qed.
Ltac wellt := cbn; unfold pmeta; cbn; repeat match goal with |- _ /\ _ => split | |- True => exact Logic.I | |- _ = _ => reflexivity | |- _ <= _ => discriminate | |- _ \/ _ => tauto end.
(** from g(X) = a: g(c) = a, and b = Y *)
Definition E_good : list (term * term) := [(g (Meta (mX 1)), ca)].
Definition gs_good : list (term * term) := [(g cc, ca); (cb, Meta (mY 2))].
Definition s_good : substs := [(mX 1, cc)].
Definition s_both : substs := [(mX 1, cc); (mY 2, cb)].
Lemma good_well : wellE sar E_good /\ wellE sar gs_good.
Proof. split; intros x y H; cbn in H; [destruct H as [E|[]]|destruct H as [E|[E|[]]]]; injection E as <- <-; split; wellt. Qed.
Lemma good_answer : answer nid Q strict kept (mkEP E_good (g cc) ca empty_c) None true [s_good].
Proof.
  change true with (nonempty (@nil substs) || true). change [s_good] with (@nil substs ++ [s_good]).
  apply ans_rules; [vm_compute; reflexivity|vm_compute; reflexivity|]. eapply rules_right; [vm_compute; reflexivity|].
  change [s_good] with (dedup [s_good]). eapply man_found; [left; reflexivity|reflexivity|]. eapply child_next; [vm_compute; reflexivity|].
  apply ans_stop; vm_compute; reflexivity.
Qed.
Lemma good_goals : goals nid Q strict 30 kept (problems E_good gs_good) [] [s_both].
Proof.
  eapply goals_first; [exact good_answer|discriminate|]. apply (goals_next nid Q strict 30 kept _ [] s_good [] [s_both]); [|discriminate|apply goals_nil].
  apply (each_cons nid Q strict 30 kept _ s_good [] true [[(mY 2, cb)]] [s_both] []); [| |apply each_nil].
  - change (answer nid Q strict kept (mkEP [(g cc, ca)] cb (Meta (mY 2)) empty_c) None (nonempty [[(mY 2, cb)]] || false) ([[(mY 2, cb)]] ++ [])).
    apply ans_rules; [vm_compute; reflexivity|vm_compute; reflexivity|].
    eapply rules_left; [vm_compute; reflexivity|apply no_managed|vm_compute; reflexivity|apply no_managed].
  - constructor; [|constructor]. split; [vm_compute; reflexivity|]. split; [reflexivity|]. intros _ k t [E|[]]. injection E as <- <-. reflexivity.
Qed.
Lemma loss_well : wellE sar (p_E ep_loss) /\ well sar (p_s ep_loss) /\ well sar (p_t ep_loss).
Proof. split; [intros x y [E|[]]; injection E as <- <-; split; wellt|split; wellt]. Qed.
Lemma step_case : exists rs u ep', right_rules nid Q (mkEP E_good (g cc) ca empty_c) = Ok rs /\ In u rs /\
  apply_rule strict u (mkEP E_good (g cc) ca empty_c) = Ok (Some (ep', None)) /\ p_s ep' = ca /\ c_sub (p_c ep') = s_good.
Proof.
  eexists. eexists. eexists. split; [vm_compute; reflexivity|]. split; [left; reflexivity|]. split; [vm_compute; reflexivity|]. split; reflexivity.
Qed.
