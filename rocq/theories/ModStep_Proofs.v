(** Proofs of C132, C134, C135. *)
From Coq Require Import ZArith List Bool Lia.
From Verif Require Import Ast_Model Sem_Spec Rules_Model Rules_Spec Rules_Proofs Expand_Model Unif_Model Dmt_Model ModStep_Model ModStep_Spec.
Import ListNotations.
Open Scope list_scope.

Definition litb (x : fat) : bool := match kind_of_rule (ft_form x) with KAtomic => true | _ => false end.
Lemma litb_literal x : litb x = true <-> literal (ft_form x).
Proof. unfold litb. destruct (ft_form x) as [| | | | | |i g| | |]; cbn; try (split; [discriminate|intros []]); try tauto. destruct g; cbn; try (split; [discriminate|intros []]); tauto. Qed.

Section Mod.
Variable same : list term -> list term -> bool.
Hypothesis same_refl : forall l, same l l = true.
Variable rw : form -> out (list candidate).

Lemma fat_refl x : fat_eqb same x x = true.
Proof. unfold fat_eqb. rewrite form_eqb_refl, same_refl. reflexivity. Qed.
Lemma contains_in l x : In x l -> fl_contains same l x = true.
Proof. intros H. apply existsb_exists. exists x. split; [exact H|apply fat_refl]. Qed.
Lemma contains_present l x : fl_contains same l x = true <-> present same x l.
Proof. unfold fl_contains, present. rewrite existsb_exists. reflexivity. Qed.
Lemma append_known l x : fl_contains same l x = true -> fl_append same l x = l.
Proof. intros H. unfold fl_append. rewrite H. reflexivity. Qed.
Lemma append_mono l x y : fl_contains same l y = true -> fl_contains same (fl_append same l x) y = true.
Proof. intros H. unfold fl_append. destruct (fl_contains same l x); [exact H|]. unfold fl_contains in *. rewrite existsb_app, H. reflexivity. Qed.
Lemma append_has l x : fl_contains same (fl_append same l x) x = true.
Proof. unfold fl_append. destruct (fl_contains same l x) eqn:E; [exact E|]. unfold fl_contains. rewrite existsb_app. cbn. rewrite fat_refl. apply orb_true_r. Qed.
Lemma append_in l x y : In y (fl_append same l x) -> In y l \/ y = x.
Proof. unfold fl_append. destruct (fl_contains same l x); [auto|]. rewrite in_app_iff. intros [H|[<-|[]]]; auto. Qed.
Lemma in_append l x y : In y l -> In y (fl_append same l x).
Proof. unfold fl_append. destruct (fl_contains same l x); [auto|]. rewrite in_app_iff. auto. Qed.

(** the queue a formula is dispatched to *)
Definition queue (k : kind) (q : queues) : list fat :=
  match k with KAtomic => q_atomic q | KAlpha => q_alpha q | KBeta => q_beta q | KDelta => q_delta q | KGamma => q_gamma q end.
Definition stored (x : fat) (q : queues) : bool := fl_contains same (queue (kind_of_rule (ft_form x)) q) x.
Lemma dispatch_lf x q : q_lf (dispatch same x q) = q_lf q.
Proof. unfold dispatch. destruct (kind_of_rule (ft_form x)); reflexivity. Qed.
Lemma dispatch_known x q : stored x q = true -> dispatch same x q = q.
Proof. unfold stored, dispatch. destruct q. destruct (kind_of_rule (ft_form x)); cbn; intros H; rewrite (append_known _ _ H); reflexivity. Qed.
Lemma dispatch_mono x y q : stored y q = true -> stored y (dispatch same x q) = true.
Proof. unfold stored, dispatch. intros H. destruct (kind_of_rule (ft_form x)), (kind_of_rule (ft_form y)); cbn in *; first [exact H|apply append_mono, H]. Qed.
Lemma dispatch_has x q : stored x (dispatch same x q) = true.
Proof. unfold stored, dispatch. destruct (kind_of_rule (ft_form x)); cbn; apply append_has. Qed.
Lemma dispatch_atomic x q : litb x = false -> q_atomic (dispatch same x q) = q_atomic q.
Proof. unfold litb, dispatch. destruct (kind_of_rule (ft_form x)); [discriminate|reflexivity..]. Qed.
Lemma stored_old x q : stored x q = true -> present same x (old q).
Proof.
  unfold stored, old. rewrite contains_present. intros (y & H & E). exists y. split; [|exact E]. rewrite !in_app_iff. destruct (kind_of_rule (ft_form x)); cbn in H; tauto.
Qed.
Lemma queue_in k q x : In x (queue k q) -> In x (old q).
Proof. unfold old. rewrite !in_app_iff. destruct k; cbn; tauto. Qed.
Lemma old_queue q x : In x (old q) -> exists k, In x (queue k q).
Proof.
  unfold old. rewrite !in_app_iff. intros [H|[H|[H|[H|H]]]]; [exists KAtomic|exists KAlpha|exists KBeta|exists KDelta|exists KGamma]; exact H.
Qed.
Lemma dispatch_old x q y : In y (old q) -> In y (old (dispatch same x q)).
Proof.
  intros H. destruct (old_queue _ _ H) as (k & Hk). apply (queue_in k). unfold dispatch. destruct (kind_of_rule (ft_form x)), k; cbn in *; first [exact Hk|apply in_append, Hk].
Qed.
Lemma old_dispatch x q y : In y (old (dispatch same x q)) -> In y (old q) \/ y = x.
Proof.
  intros H. destruct (old_queue _ _ H) as (k & Hk). unfold dispatch in Hk.
  destruct (kind_of_rule (ft_form x)), k; cbn in Hk; try (apply append_in in Hk; destruct Hk as [Hk| ->]; [|right; reflexivity]); left.
  all: match goal with
  | H : In _ (q_atomic _) |- _ => apply (queue_in KAtomic), H
  | H : In _ (q_alpha _) |- _ => apply (queue_in KAlpha), H
  | H : In _ (q_beta _) |- _ => apply (queue_in KBeta), H
  | H : In _ (q_delta _) |- _ => apply (queue_in KDelta), H
  | H : In _ (q_gamma _) |- _ => apply (queue_in KGamma), H
  end.
Qed.

(** *** the sorting of the new formulas *)
Lemma loop_cons x l q a : receive_loop same (x :: l) q a =
  if litb x then if obvious_closure (ft_form x) then None else receive_loop same l q (a ++ [x]) else receive_loop same l (dispatch same x q) a.
Proof. cbn [receive_loop]. unfold litb. destruct (kind_of_rule (ft_form x)); reflexivity. Qed.
Lemma loop_inv l : forall q a q' atoms, receive_loop same l q a = Some (q', atoms) ->
  atoms = a ++ filter litb l /\ q_lf q' = q_lf q /\ q_atomic q' = q_atomic q /\ (forall x, stored x q = true -> stored x q' = true) /\
  (forall x, In x l -> litb x = false -> stored x q' = true) /\ (forall x, In x (old q) -> In x (old q')) /\
  (forall x, In x (old q') -> In x (old q) \/ In x l) /\ (forall x, In x l -> litb x = true -> obvious_closure (ft_form x) = false).
Proof.
  induction l as [|x l IH]; intros q a q' atoms E.
  - cbn in E. injection E as <- <-. cbn. rewrite app_nil_r. intuition.
  - rewrite loop_cons in E. cbn [filter]. destruct (litb x) eqn:Lx.
    + destruct (obvious_closure (ft_form x)) eqn:Ox; [discriminate|]. destruct (IH _ _ _ _ E) as (-> & H1 & H2 & H3 & H4 & H5 & H6 & H7).
      rewrite <- app_assoc. split; [reflexivity|]. repeat (split; [assumption|]). split; [|split; [assumption|split]].
      * intros y [<-|H] Ly; [congruence|auto].
      * intros y H. destruct (H6 y H); [left|right; right]; assumption.
      * intros y [<-|H] Ly; [exact Ox|auto].
    + destruct (IH _ _ _ _ E) as (-> & H1 & H2 & H3 & H4 & H5 & H6 & H7). split; [reflexivity|]. rewrite H1, H2, dispatch_lf, (dispatch_atomic _ _ Lx).
      split; [reflexivity|]. split; [reflexivity|]. split; [|split; [|split; [|split]]].
      * intros y H. apply H3, dispatch_mono, H.
      * intros y [<-|H] Ly; [apply H3, dispatch_has|auto].
      * intros y H. apply H5, dispatch_old, H.
      * intros y H. destruct (H6 y H) as [K|K]; [|right; right; exact K]. apply old_dispatch in K. destruct K as [K| ->]; [left; exact K|right; left; reflexivity].
      * intros y [<-|H] Ly; [congruence|auto].
Qed.
Lemma loop_again l : forall q a, (forall x, In x l -> litb x = false -> stored x q = true) ->
  (forall x, In x l -> litb x = true -> obvious_closure (ft_form x) = false) -> receive_loop same l q a = Some (q, a ++ filter litb l).
Proof.
  induction l as [|x l IH]; intros q a Hs Ho; [cbn; rewrite app_nil_r; reflexivity|]. rewrite loop_cons. cbn [filter]. destruct (litb x) eqn:Lx.
  - rewrite (Ho x (or_introl eq_refl) Lx). rewrite IH; [rewrite <- app_assoc; reflexivity|intros; apply Hs; [right|]; assumption|intros; apply Ho; [right|]; assumption].
  - rewrite (dispatch_known _ _ (Hs x (or_introl eq_refl) Lx)). apply IH; [intros; apply Hs; [right|]; assumption|intros; apply Ho; [right|]; assumption].
Qed.

(** *** one pass over the literals *)
Lemma with_lf_twice q l l' : with_lf (with_lf q l) l' = with_lf q l'.
Proof. reflexivity. Qed.
Lemma manage_empty atoms : forall q q', (forall x, In x atoms -> fl_contains same (q_lf q) x = true) -> manage same rw atoms q = Ok (EmptyStep q') ->
  q' = q /\ forall x, In x atoms -> fl_contains same (q_atomic q) x = true \/ not_rewritable rw (ft_form x).
Proof.
  induction atoms as [|f r IH]; intros q q' Hin E; cbn [manage] in E.
  - injection E as <-. split; [reflexivity|intros x []].
  - destruct (fl_contains same (q_atomic q) f) eqn:Ef.
    + destruct (IH q q') as [-> H]; [intros; apply Hin; right; assumption|exact E|]. split; [reflexivity|]. intros x [<-|K]; auto.
    + destruct (rw (ft_form f)) as [cs| | |] eqn:Er; try discriminate. cbn [bind] in E. unfold try_rewrite in E.
      destruct cs as [|[ix [s c]] cs]; cbn [map with_terms fst snd] in E; [discriminate|]. destruct (is_failure s) eqn:Es; cbn [bind] in E; [|discriminate].
      rewrite (append_known _ _ (Hin f (or_introl eq_refl))) in E. assert (Eq : with_lf q (q_lf q) = q) by (destruct q; reflexivity). rewrite Eq in E.
      destruct (IH q q') as [-> H]; [intros; apply Hin; right; assumption|exact E|]. split; [reflexivity|].
      intros x [<-|K]; [right; exists ix, s, c, cs; auto|auto].
Qed.
Lemma manage_rewriting atoms : forall q l w, manage same rw atoms q = Ok (Rewriting l w) ->
  exists before f after ix s c alts,
    atoms = before ++ f :: after /\ rw (ft_form f) = Ok ((ix, (s, c)) :: alts) /\ is_failure s = false /\ fl_contains same (q_atomic q) f = false /\
    (forall x, In x before -> fl_contains same (q_atomic q) x = true \/ not_rewritable rw (ft_form x)) /\
    let c' := mkFat c (ft_terms f) in let q' := with_lf q (after ++ [c']) in
    l = mkLaunch q' false (first_message s c') /\ w = mkWait q' true (map (with_terms f) alts) (mkRs f c' ix).
Proof.
  induction atoms as [|f r IH]; intros q l w E; cbn [manage] in E; [discriminate|].
  destruct (fl_contains same (q_atomic q) f) eqn:Ef.
  - destruct (IH _ _ _ E) as (before & f0 & after & ix & s & c & alts & -> & H1 & H2 & H3 & H4 & H5).
    exists (f :: before), f0, after, ix, s, c, alts. repeat (split; [first [reflexivity|assumption]|]). split; [|exact H5]. intros x [<-|K]; auto.
  - destruct (rw (ft_form f)) as [cs| | |] eqn:Er; try discriminate. cbn [bind] in E. unfold try_rewrite in E.
    destruct cs as [|[ix [s c]] cs]; cbn [map with_terms fst snd] in E; [discriminate|]. destruct (is_failure s) eqn:Es; cbn [bind] in E.
    + destruct (IH _ _ _ E) as (before & f0 & after & ix' & s' & c' & alts & -> & H1 & H2 & H3 & H4 & H5).
      exists (f :: before), f0, after, ix', s', c', alts. repeat (split; [first [reflexivity|assumption]|]). split; [|exact H5].
      intros x [<-|K]; [right; exists ix, s, c, cs; auto|auto].
    + injection E as <- <-. exists [], f, r, ix, s, c, cs. repeat (split; [first [reflexivity|assumption]|]). split; [intros x []|]. split; reflexivity.
Qed.

(** *** the candidates, one after the other *)
Lemma removelast_last (l : list fat) x : removelast (l ++ [x]) = l.
Proof. induction l as [|y l IH]; [reflexivity|]. cbn. rewrite IH. destruct l; reflexivity. Qed.
Lemma tries_S n w : tries (S n) w = do r <- backtrack w; match r with None => Ok [] | Some (l, w') => do ls <- tries n w'; Ok ((l, w') :: ls) end.
Proof. reflexivity. Qed.
Lemma tries_all f q after (alts : list candidate) : forall c0 id0,
  exists ls, tries (S (List.length alts)) (mkWait (with_lf q (after ++ [c0])) true (map (with_terms f) alts) (mkRs f c0 id0)) = Ok ls /\
    Forall2 (fun c lw => launched q after f c (fst lw) /\ la_msg (fst lw) = (fst (snd c), [snd (snd c)]) /\ la_bt (fst lw) = true /\
      wa_step (snd lw) = mkRs f (mkFat (snd (snd c)) (ft_terms f)) (fst c) /\ la_q (fst lw) = wa_q (snd lw)) alts ls.
Proof.
  induction alts as [|[ix [s c]] alts IH]; intros c0 id0.
  - exists []. split; [reflexivity|constructor].
  - destruct (IH (mkFat c (ft_terms f)) ix) as (ls & E & F).
    assert (R : backtrack (mkWait (with_lf q (after ++ [c0])) true (map (with_terms f) (@cons candidate (ix, (s, c)) alts)) (mkRs f c0 id0)) =
      Ok (Some (mkLaunch (with_lf q (after ++ [mkFat c (ft_terms f)])) true (s, [c]), mkWait (with_lf q (after ++ [mkFat c (ft_terms f)])) true (map (with_terms f) alts) (mkRs f (mkFat c (ft_terms f)) ix)))).
    { unfold backtrack. cbn [wa_left map with_terms fst snd wa_bt wa_q with_lf q_lf wa_step rs_formula]. rewrite removelast_last.
      destruct (after ++ [c0]) eqn:K; [destruct after; discriminate|reflexivity]. }
    change (List.length (@cons candidate (ix, (s, c)) alts)) with (S (List.length alts)). rewrite tries_S, R. cbn [bind]. rewrite E. cbn [bind].
    eexists. split; [reflexivity|]. constructor; [|exact F]. unfold launched, same_old. cbn. repeat split; reflexivity.
Qed.
End Mod.
