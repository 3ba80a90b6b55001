(** The names of the printed steps (C98). *)
From Coq Require Import ZArith List Bool String Lia.
From Verif Require Import Ast_Model Unif_Model GsProof_Model GsProof_Spec GsProof_Sound Tptp_Model Tptp_Spec Tptp_Rep.
Import ListNotations.
Open Scope list_scope.
Open Scope Z_scope.

Definition lnames (ls : list line) : list sid := map fst (seqs ls).
Lemma lnames_app a b : lnames (a ++ b) = lnames a ++ lnames b.
Proof. unfold lnames, seqs. rewrite flat_map_app, map_app. reflexivity. Qed.
Lemma named_in n l : named n l = true <-> In n l.
Proof. unfold named. destruct (in_dec sid_eq_dec n l); split; intros; try discriminate; tauto. Qed.
Lemma named_ext n l m : (forall x, In x l <-> In x m) -> named n l = named n m.
Proof. intros H. apply eq_true_iff_eq. rewrite !named_in. apply H. Qed.
Lemma forallb_same {A} (f g : A -> bool) l : (forall x, In x l -> f x = g x) -> forallb f l = forallb g l.
Proof. induction l as [|x l IH]; intros H; [reflexivity|]. cbn. rewrite (H x) by (left; reflexivity). rewrite IH; [reflexivity|]. intros y Hy. apply H. right. exact Hy. Qed.
Lemma ordered_ext ls : forall l m, (forall x, In x l <-> In x m) -> ordered l ls = ordered m ls.
Proof.
  induction ls as [|x ls IH]; intros l m H; [reflexivity|]. assert (K : forall y, forall x, In x (y :: l) <-> In x (y :: m)) by (intros y z; cbn; rewrite H; tauto).
  destruct x; cbn [ordered]; rewrite ?(named_ext _ _ _ H), ?(IH _ _ H), ?(IH _ _ (K _)); try reflexivity.
  rewrite (forallb_same (fun p => named p l) (fun p => named p m)); [reflexivity|]. intros y _. apply named_ext, H.
Qed.
Lemma ordered_app a : forall b seen, ordered seen (a ++ b) = ordered seen a && ordered (lnames a ++ seen) b.
Proof.
  induction a as [|x a IH]; intros b seen; [reflexivity|].
  assert (K : forall y, ordered (lnames a ++ y :: seen) b = ordered (y :: lnames a ++ seen) b).
  { intros y. apply ordered_ext. intros z. cbn. rewrite !in_app_iff. cbn. tauto. }
  destruct x; cbn [app ordered]; rewrite IH; unfold lnames, seqs in *; cbn [flat_map map app fst]; rewrite <- ?K, ?andb_assoc; reflexivity.
Qed.
Lemma ordered_nodup ls : forall seen, ordered seen ls = true -> NoDup (lnames ls) /\ forall x, In x (lnames ls) -> ~ In x seen.
Proof.
  induction ls as [|x ls IH]; intros seen H; [split; [constructor|contradiction]|].
  assert (N : forall n, negb (named n seen) = true -> ordered (n :: seen) ls = true -> NoDup (n :: lnames ls) /\ forall x, In x (n :: lnames ls) -> ~ In x seen).
  { intros n E K. destruct (IH _ K) as [A B]. apply negb_true_iff in E. split.
    - constructor; [|exact A]. intros Hn. apply (B _ Hn). left. reflexivity.
    - intros y [<-|Hy] Hs; [apply named_in in Hs; congruence|]. apply (B _ Hy). right. exact Hs. }
  destruct x; cbn [ordered] in H; try (apply IH in H; exact H).
  - apply andb_prop in H. destruct H. apply N; assumption.
  - apply andb_prop in H. destruct H as [H H3]. apply andb_prop in H. destruct H. apply N; assumption.
Qed.

(** ** Steps *)
Section Order.
Variables (id_eq : Z) (prefix : string) (dummy : term).
Notation make_step := (make_step id_eq prefix dummy).
Notation follow := (follow id_eq prefix dummy).

Definition the_id (s : sequent) (cur : Z) : Z := if cur =? -1 then s_id s else cur.
Definition with_cur (s : sequent) (cur : Z) : sequent := if cur =? -1 then s else with_id cur s.
Lemma with_cur_id s cur : s_id (with_cur s cur) = the_id s cur.
Proof. unfold with_cur, the_id. destruct (cur =? -1); destruct s; reflexivity. Qed.
Lemma with_id_kids i s : s_kids (with_id i s) = s_kids s. Proof. destruct s; reflexivity. Qed.
Lemma with_id_rule i s : s_rule (with_id i s) = s_rule s. Proof. destruct s; reflexivity. Qed.
Lemma with_id_term i s : s_term (with_id i s) = s_term s. Proof. destruct s; reflexivity. Qed.
Lemma with_id_hyps i s : s_hyps (with_id i s) = s_hyps s. Proof. destruct s; reflexivity. Qed.
Lemma with_id_forms i s : s_forms (with_id i s) = s_forms s. Proof. destruct s; reflexivity. Qed.
Lemma with_id_on i s : s_on (with_id i s) = s_on s. Proof. destruct s; reflexivity. Qed.
Lemma with_id_id i s : s_id (with_id i s) = i. Proof. destruct s; reflexivity. Qed.
Lemma with_kids_kids ks s : s_kids (with_kids ks s) = ks. Proof. destruct s; reflexivity. Qed.
Lemma with_kids_id ks s : s_id (with_kids ks s) = s_id s. Proof. destruct s; reflexivity. Qed.
Lemma with_kids_term ks s : s_term (with_kids ks s) = s_term s. Proof. destruct s; reflexivity. Qed.
Lemma plain_with_id i s : plain s -> plain (with_id i s).
Proof.
  intros H. inversion H as [? (A & B) C]; subst. constructor; [|rewrite with_id_kids; exact C]. unfold plain_node. rewrite with_id_hyps, with_id_rule, with_id_kids, with_id_term. auto.
Qed.

(** the numbers given to the children *)
Definition numbers (n : Z) (len : nat) : list Z := map (fun k => n + 1 + Z.of_nat k) (seq 0 len).
Lemma numbers_S n len : numbers n (S len) = (n + 1) :: numbers (n + 1) len.
Proof. unfold numbers. cbn [seq map]. f_equal; [lia|]. rewrite <- seq_shift, map_map. apply map_ext. intros; lia. Qed.
Lemma number_fst ks : forall n, fst (number n ks) = numbers n (List.length ks).
Proof. induction ks as [|k ks IH]; intros n; [reflexivity|]. cbn [number List.length]. specialize (IH (n + 1)). rewrite numbers_S. destruct (number (n + 1) ks). cbn [fst snd] in *. rewrite IH. reflexivity. Qed.
Lemma number_snd ks : forall n, snd (number n ks) = map (fun x => with_id (fst x) (snd x)) (combine (numbers n (List.length ks)) ks).
Proof. induction ks as [|k ks IH]; intros n; [reflexivity|]. cbn [number List.length]. specialize (IH (n + 1)). rewrite numbers_S. destruct (number (n + 1) ks). cbn [fst snd map combine] in *. rewrite IH. reflexivity. Qed.
Lemma number_ids ks : forall n, map s_id (snd (number n ks)) = numbers n (List.length ks).
Proof. induction ks as [|k ks IH]; intros n; [reflexivity|]. cbn [number List.length]. specialize (IH (n + 1)). rewrite numbers_S. destruct (number (n + 1) ks). cbn [fst snd map] in *. rewrite IH, with_id_id. reflexivity. Qed.
Lemma number_forall (P : sequent -> Prop) : (forall i s, P s -> P (with_id i s)) -> forall ks n, Forall P ks -> Forall P (snd (number n ks)).
Proof. intros H. induction ks as [|k ks IH]; intros n K; [constructor|]. inversion K; subst. cbn [number]. specialize (IH (n + 1)). destruct (number (n + 1) ks). cbn in *. constructor; auto. Qed.
Lemma number_len ks : forall n, List.length (snd (number n ks)) = List.length ks.
Proof. induction ks as [|k ks IH]; intros n; [reflexivity|]. cbn [number]. specialize (IH (n + 1)). destruct (number (n + 1) ks). cbn in *. lia. Qed.
Lemma numbers_in n len x : In x (numbers n len) <-> n < x <= n + Z.of_nat len.
Proof.
  unfold numbers. rewrite in_map_iff. split.
  - intros (k & <- & H). apply in_seq in H. lia.
  - intros H. exists (Z.to_nat (x - n - 1)). split; [lia|]. apply in_seq. lia.
Qed.
Lemma numbers_nodup n len : NoDup (numbers n len).
Proof. unfold numbers. apply FinFun.Injective_map_NoDup; [intros a b; lia|apply seq_NoDup]. Qed.
Lemma numbered_is s st : numbered s st = (numbers (cnt st) (List.length (s_kids s)), with_kids (snd (number (cnt st) (s_kids s))) s,
   mkTst (cnt st + Z.of_nat (List.length (s_kids s))) (orig st) (made st) (ids st)).
Proof. unfold numbered. rewrite <- number_fst. destruct (number (cnt st) (s_kids s)). reflexivity. Qed.

(** the replacement keeps names and shapes *)
Definition ids_of (s : sequent) : list Z := map s_id (s_kids s).
Definition upd_kids (old : option term) (new : term) : list sequent -> out (list sequent) :=
  fix go (l : list sequent) : out (list sequent) := match l with [] => Ok [] | k :: r => do k <- update old new k; do r <- go r; Ok (k :: r) end.
Lemma upd_kids_cons old new k r : upd_kids old new (k :: r) = (do k <- update old new k; do r <- upd_kids old new r; Ok (k :: r)).
Proof. reflexivity. Qed.
Lemma update_eq old new h r o w t fs ks p i : update old new (Seq h r o w t fs ks p i) =
  match nth_error h o with
  | None => Crash
  | Some f =>
    do f <- replace_opt old new f;
    do fs <- (if (List.length fs <? List.length ks)%nat then Crash else omap (omap (replace_opt old new)) (firstn (List.length ks) fs));
    do ks <- upd_kids old new ks;
    Ok (Seq (Tptp_Model.upd o f h) r o w (option_map (replace_sub_opt old new) t) fs ks p i)
  end.
Proof. reflexivity. Qed.
Lemma upd_kids_all old new (Q : sequent -> sequent -> Prop) ks : Forall (fun k => forall k', update old new k = Ok k' -> Q k k') ks -> forall ks', upd_kids old new ks = Ok ks' -> Forall2 Q ks ks'.
Proof.
  induction 1 as [|k ks Hk H IH]; intros ks' E; [injection E as <-; constructor|]. rewrite upd_kids_cons in E.
  destruct (update old new k) as [k'| | |] eqn:Ek; try discriminate. cbn [bind] in E. destruct (upd_kids old new ks) as [r| | |] eqn:Er; try discriminate. injection E as <-. constructor; auto.
Qed.
Lemma update_plain old new s : forall s', update old new s = Ok s' -> plain s -> s_id s' = s_id s /\ ids_of s' = ids_of s /\ plain s'.
Proof.
  induction s as [s IH] using seq_ind'. intros s' E P. destruct s as [h r o w t fs ks p i]. rewrite update_eq in E. destruct (nth_error h o) as [f|] eqn:Ef; [|discriminate].
  destruct (replace_opt old new f) as [f'| | |]; try discriminate. cbn [bind] in E.
  destruct (if (List.length fs <? List.length ks)%nat then Crash else omap (omap (replace_opt old new)) (firstn (List.length ks) fs)) as [fs'| | |]; try discriminate. cbn [bind] in E.
  destruct (upd_kids old new ks) as [ks'| | |] eqn:Ek; try discriminate. injection E as <-. cbn [s_id s_kids] in *.
  inversion P as [? [P1 P2] P3]; subst. cbn [s_hyps s_rule s_kids s_term] in *.
  assert (F : Forall2 (fun k k' => s_id k' = s_id k /\ plain k') ks ks').
  { refine (upd_kids_all old new _ ks _ ks' Ek). rewrite Forall_forall in *. intros k Hk k' Hu. destruct (IH k Hk k' Hu (P3 k Hk)) as (A & _ & B). auto. }
  split; [reflexivity|]. split.
  - unfold ids_of. cbn. clear - F. induction F as [|k k' l m [A _] F IHF]; cbn; [reflexivity|]. rewrite A, IHF. reflexivity.
  - constructor; [|cbn; clear - F; induction F as [|k k' l m [_ A] F IHF]; constructor; auto].
    split; cbn [s_hyps s_rule s_kids s_term]; [apply upd_nil, P1|]. pose proof (Forall2_len _ _ _ F) as L.
    destruct r; auto. + subst. inversion F. reflexivity. + destruct P2 as [-> P2]. split; [reflexivity|congruence].
Qed.

(** ** What a step prints *)
Lemma not_named n l : ~ In n l -> named n l = false.
Proof. intros H. apply not_true_iff_false. rewrite named_in. exact H. Qed.
Definition own_ok (own : list line) (id : Z) (l : list Z) : Prop :=
  (forall seen, (forall e, ~ In (SF id e) seen) -> (forall c, In c l -> In (SF c []) seen) -> ordered seen own = true) /\
  (forall x, In x (lnames own) -> exists e, x = SF id e) /\ In (SF id []) (lnames own).
Lemma one_ok id l left right r p t prem : incl prem (fnames l) -> own_ok [LStep (mkStep (SF id []) left right r p t prem)] id l.
Proof.
  intros H. split; [|split; [intros x [<-|[]]; exists []; reflexivity|left; reflexivity]]. intros seen A B. cbn [ordered t_name t_prem].
  rewrite not_named by auto. cbn [negb andb]. rewrite andb_true_r.
  apply forallb_forall. intros x Hx. apply named_in. apply H in Hx. apply in_map_iff in Hx. destruct Hx as (c & <- & Hc). auto.
Qed.
Ltac names := repeat match goal with
  | |- context [named ?n ?l] => first [
      rewrite (not_named n l) by (let K := fresh in intros K; repeat (destruct K as [K|K]; [discriminate K|]); match goal with A : forall e, ~ In (SF _ e) _ |- _ => exact (A _ K) end) |
      rewrite (proj2 (named_in n l)) by (cbn; auto 10)]; cbn [negb andb] end.

Lemma bind_ok {A B} (x : out A) (f : A -> out B) b : bind x f = Ok b -> exists a, x = Ok a /\ f a = Ok b.
Proof. destruct x; cbn; try discriminate; eauto. Qed.
Ltac binds := repeat match goal with
  | H : bind ?x _ = Ok _ |- _ => let a := fresh "a" in let E := fresh "E" in apply bind_ok in H; destruct H as (a & E & H)
  | H : (let '(_, _) := ?x in _) = Ok _ |- _ => destruct x eqn:?
  | H : Crash = Ok _ |- _ => discriminate H
  end.
Definition fan (s s' : sequent) (st st' : tst) : Prop :=
  let l := numbers (cnt st) (List.length (s_kids s)) in
  ids_of s' = l /\ cnt st' = cnt st + Z.of_nat (List.length (s_kids s)) /\ Forall plain (s_kids s').
Lemma fan_plain s st : plain s -> let '(l, s', st') := numbered s st in
  l = numbers (cnt st) (List.length (s_kids s)) /\ fan s s' st st' /\ s_id s' = s_id s /\ plain s'.
Proof.
  intros P. rewrite numbered_is. split; [reflexivity|]. inversion P as [? [P1 P2] P3]; subst.
  assert (F : Forall plain (snd (number (cnt st) (s_kids s)))) by (apply number_forall; [exact plain_with_id|exact P3]).
  split; [|split; [apply with_kids_id|]].
  - unfold fan, ids_of. rewrite with_kids_kids. cbn [cnt]. split; [apply number_ids|]. split; [reflexivity|exact F].
  - constructor; [|rewrite with_kids_kids; exact F]. unfold plain_node. rewrite with_kids_kids. pose proof (number_len (s_kids s) (cnt st)) as L.
    destruct s as [h r o w t fs ks p i]. cbn [with_kids s_hyps s_rule s_term s_kids] in *. split; [exact P1|].
    destruct r; auto. + subst. reflexivity. + rewrite L. exact P2.
Qed.
Lemma at_in {A} (l : list A) i x : at_ l i = Ok x -> In x l.
Proof. unfold at_. destruct (nth_error l i) eqn:E; [|discriminate]. intros H. injection H as <-. eapply nth_error_In; eauto. Qed.

Lemma equ_own s hyps target st own hs s' cur st' : plain s -> equ_step s hyps target st = Ok (own, hs, s', cur, st') ->
  own_ok own (s_id s) (numbers (cnt st) (List.length (s_kids s))) /\ fan s s' st st' /\ cur = -1.
Proof.
  intros P E. unfold equ_step in E. pose proof (fan_plain s st P) as F. destruct (numbered s st) as [[l s1] st1]. destruct F as (-> & F & Ei & _).
  set (l := numbers (cnt st) (List.length (s_kids s))) in *. clearbody l.
  apply bind_ok in E. destruct E as (hs0 & _ & E). destruct (nth_error hyps target) as [[]|]; try discriminate.
  cbv zeta in E. binds. injection E as <- _ <- <- <-. split; [|split; [exact F|reflexivity]].
  assert (Ha : exists x y, In x l /\ In y l /\ a1 = x /\ a6 = y) by (eexists; eexists; repeat split; eapply at_in; eassumption).
  destruct Ha as (x & y & Hx & Hy & -> & ->). rewrite Ei. split; [|split].
  - intros seen A B. pose proof (B x Hx) as B1. pose proof (B y Hy) as B2. cbn [map ordered t_name t_prem forallb]. names. reflexivity.
  - cbn. intros z Hz. repeat (destruct Hz as [<-|Hz]; [eauto|]). contradiction.
  - cbn. auto 10.
Qed.
Lemma nequ_own s hyps target st own hs s' cur st' : plain s -> nequ_step s hyps target st = Ok (own, hs, s', cur, st') ->
  own_ok own (s_id s) (numbers (cnt st) (List.length (s_kids s))) /\ fan s s' st st' /\ cur = -1.
Proof.
  intros P E. unfold nequ_step in E. pose proof (fan_plain s st P) as F. destruct (numbered s st) as [[l s1] st1]. destruct F as (-> & F & Ei & _).
  set (l := numbers (cnt st) (List.length (s_kids s))) in *. clearbody l.
  apply bind_ok in E. destruct E as (hs0 & _ & E). destruct (nth_error hyps target) as [[| | | | | |? [| | | |? ? ?| | | | |]| | |]|]; try discriminate.
  cbv zeta in E. binds. injection E as <- _ <- <- <-. split; [|split; [exact F|reflexivity]].
  match goal with H1 : at_ l 1 = Ok ?x, H0 : at_ l 0 = Ok ?y |- _ => apply at_in in H1; apply at_in in H0; set (x1 := x) in *; set (y1 := y) in * end.
  rewrite Ei. split; [|split].
  - intros seen A B. match goal with H1 : In x1 l, H0 : In y1 l |- _ => pose proof (B _ H1) as B1; pose proof (B _ H0) as B2 end. cbn [map ordered t_name t_prem forallb]. names. reflexivity.
  - cbn. intros z Hz. repeat (destruct Hz as [<-|Hz]; [eauto|]). contradiction.
  - cbn. auto 10.
Qed.
(** either the children have the next numbers, or the only child of a weakening has the next one *)
Lemma plain_cur s cur : plain s -> plain (with_cur s cur).
Proof. unfold with_cur. destruct (cur =? -1); [auto|apply plain_with_id]. Qed.
Lemma cur_kids s cur : s_kids (with_cur s cur) = s_kids s.
Proof. unfold with_cur. destruct (cur =? -1); [reflexivity|apply with_id_kids]. Qed.
Definition shape (s' : sequent) (st st' : tst) (cur' : Z) (l : list Z) : Prop :=
  (cur' = -1 /\ ids_of s' = l \/ cur' = cnt st + 1 /\ List.length (s_kids s') = 1%nat /\ l = [cnt st + 1]) /\
  l = numbers (cnt st) (List.length (s_kids s')) /\ cnt st' = cnt st + Z.of_nat (List.length (s_kids s')) /\ Forall plain (s_kids s').
Lemma fan_shape s s' st st' : fan s s' st st' -> shape s' st st' (-1) (numbers (cnt st) (List.length (s_kids s))).
Proof.
  intros (A & B & C). assert (L : List.length (s_kids s') = List.length (s_kids s)).
  { rewrite <- (map_length s_id). fold (ids_of s'). rewrite A. unfold numbers. rewrite map_length, seq_length. reflexivity. }
  unfold shape. rewrite L. auto.
Qed.
Lemma make_own s hyps cur st own hs s' cur' st' : plain s -> make_step s hyps cur st = Ok (own, hs, s', cur', st') ->
  exists l, own_ok own (the_id s cur) l /\ shape s' st st' cur' l.
Proof.
  intros P E. unfold Tptp_Model.make_step in E. fold (with_cur s cur) in E. apply bind_ok in E. destruct E as (f & Ef & E). apply bind_ok in E. destruct E as (target & Et & E).
  pose proof (plain_cur s cur P) as P'. rewrite <- (with_cur_id s cur). revert E P'. generalize (with_cur s cur). clear s cur P Ef. intros s E P.
  inversion P as [? [_ P2] P3]; subst. pose proof (fan_plain s st P) as F.
  assert (ONE : forall r p t own hs s' cur' st', Ok ([LStep (mkStep (SF (s_id s) []) hyps [] r p t [])], [hyps], s, -1, st) = Ok (own, hs, s', cur', st') ->
     s_kids s = [] -> exists l, own_ok own (s_id s) l /\ shape s' st st' cur' l).
  { intros r p t own0 hs0 s0 cur0 st0 E0 K. injection E0 as <- _ <- <- <-. exists []. split; [apply one_ok; intros x []|]. unfold shape, ids_of. rewrite K. cbn. repeat split; auto. lia. }
  assert (AL : forall r, alpha_step s hyps target r st = Ok (own, hs, s', cur', st') -> exists l, own_ok own (s_id s) l /\ shape s' st st' cur' l).
  { intros r Ea. unfold alpha_step in Ea. destruct (numbered s st) as [[l s1] st1]. destruct F as (-> & F & Ei & _). apply bind_ok in Ea. destruct Ea as (fs & _ & Ea). injection Ea as <- _ <- <- <-.
    rewrite Ei. eexists. split; [apply one_ok, incl_refl|apply fan_shape, F]. }
  assert (BE : forall r, beta_step s hyps target r st = Ok (own, hs, s', cur', st') -> exists l, own_ok own (s_id s) l /\ shape s' st st' cur' l).
  { intros r Ea. unfold beta_step in Ea. destruct (numbered s st) as [[l s1] st1]. destruct F as (-> & F & Ei & _). apply bind_ok in Ea. destruct Ea as (fs & _ & Ea). injection Ea as <- _ <- <- <-.
    rewrite Ei. eexists. split; [apply one_ok, incl_refl|apply fan_shape, F]. }
  assert (GA : forall r, gamma_step dummy s hyps target r st = Ok (own, hs, s', cur', st') -> exists l, own_ok own (s_id s) l /\ shape s' st st' cur' l).
  { intros r Ea. unfold gamma_step in Ea. destruct (numbered s st) as [[l s1] st1]. destruct F as (-> & F & Ei & _). apply bind_ok in Ea. destruct Ea as (u & _ & Ea). apply bind_ok in Ea. destruct Ea as (fs & _ & Ea). injection Ea as <- _ <- <- <-.
    rewrite Ei. eexists. split; [apply one_ok, incl_refl|apply fan_shape, F]. }
  assert (DE : forall r, delta_step prefix s hyps target r st = Ok (own, hs, s', cur', st') -> exists l, own_ok own (s_id s) l /\ shape s' st st' cur' l).
  { intros r Ea. unfold delta_step in Ea. destruct (numbered s st) as [[l s1] st1]. destruct F as (-> & F & Ei & Q). unfold new_constant in Ea. apply bind_ok in Ea. destruct Ea as (s2 & Eu & Ea). apply bind_ok in Ea. destruct Ea as (fs & _ & Ea). injection Ea as <- _ <- <- <-.
    destruct (update_plain _ _ _ _ Eu Q) as (U1 & U2 & U3). rewrite U1, Ei. eexists. split; [apply one_ok, incl_refl|]. destruct F as (F1 & F2 & F3). apply fan_shape. split; [|split].
    - rewrite U2. exact F1. - exact F2. - inversion U3; assumption. }
  assert (EQ : equ_step s hyps target st = Ok (own, hs, s', cur', st') -> exists l, own_ok own (s_id s) l /\ shape s' st st' cur' l).
  { intros Ea. destruct (equ_own _ _ _ _ _ _ _ _ _ P Ea) as (A & B & ->). eexists. split; [exact A|apply fan_shape, B]. }
  assert (NQ : nequ_step s hyps target st = Ok (own, hs, s', cur', st') -> exists l, own_ok own (s_id s) l /\ shape s' st st' cur' l).
  { intros Ea. destruct (nequ_own _ _ _ _ _ _ _ _ _ P Ea) as (A & B & ->). eexists. split; [exact A|apply fan_shape, B]. }
  destruct (s_rule s) eqn:Er; try contradiction; eauto.
  - destruct (is_equal id_eq f); [eauto|]. apply bind_ok in E. destruct E as (i & _ & E). eauto.
  - destruct P2 as [T L]. rewrite T in E. unfold weaken_step in E. injection E as <- _ <- <- <-. exists [cnt st + 1]. split; [apply one_ok, incl_refl|].
    unfold shape. rewrite L. cbn [cnt]. repeat split; auto. + rewrite numbers_S. reflexivity.
Qed.

Definition avoid (seen : list sid) (l : list Z) (c : Z) : Prop := forall m e, In (SF m e) seen -> ~ In m l /\ m <= c.
Definition done (seen : list sid) (l : list Z) (st : tst) (ls : list line) (st' : tst) : Prop :=
  ordered seen ls = true /\ cnt st <= cnt st' /\ (forall x, In x (lnames ls) -> exists m e, x = SF m e /\ (In m l \/ cnt st < m <= cnt st')) /\ forall i, In i l -> In (SF i []) (lnames ls).
Lemma each_done rec hs ks (l : list Z) : Forall2 (fun k i => forall seen h st ls st', i <= cnt st -> avoid seen [i] (cnt st) -> rec k h st = Ok (ls, st') -> done seen [i] st ls st') ks l ->
  forall i seen st ls st', each rec hs i ks st = Ok (ls, st') -> NoDup l -> (forall x, In x l -> x <= cnt st) -> avoid seen l (cnt st) -> done seen l st ls st'.
Proof.
  induction 1 as [|k j ks l Hk H IH]; intros i seen st ls st' E N B A.
  - injection E as <- <-. split; [reflexivity|]. split; [lia|]. split; [intros x []|intros x []].
  - cbn [each] in E. apply bind_ok in E. destruct E as (h & _ & E). apply bind_ok in E. destruct E as ([l1 st1] & E1 & E). apply bind_ok in E. destruct E as ([l2 st2] & E2 & E). injection E as <- <-.
    inversion N as [|? ? N1 N2]; subst. destruct (Hk seen h st l1 st1) as (D1 & D2 & D3 & D4); [apply B; left; reflexivity| |exact E1|].
    { intros m e Hm. destruct (A m e Hm) as [K1 K2]. split; [|exact K2]. intros [<-|[]]. apply K1. left. reflexivity. }
    destruct (IH (S i) (lnames l1 ++ seen) st1 l2 st2 E2 N2) as (F1 & F2 & F3 & F4).
    { intros x Hx. pose proof (B x (or_intror Hx)). lia. }
    { intros m e Hm. apply in_app_iff in Hm. destruct Hm as [Hm|Hm].
      - apply D3 in Hm. destruct Hm as (m' & e' & K & K'). injection K as <- <-. destruct K' as [[<-|[]]|K'].
        + split; [exact N1|]. pose proof (B j (or_introl eq_refl)). lia.
        + split; [|lia]. intros Hm. pose proof (B m (or_intror Hm)). lia.
      - destruct (A m e Hm) as [K1 K2]. split; [|lia]. intros K. apply K1. right. exact K. }
    split; [|split; [lia|split]].
    + rewrite ordered_app, D1. exact F1.
    + intros x Hx. rewrite lnames_app in Hx. apply in_app_iff in Hx. destruct Hx as [Hx|Hx].
      * destruct (D3 x Hx) as (m & e & -> & K). exists m, e. split; [reflexivity|]. destruct K as [[<-|[]]|K]; [left; left; reflexivity|right; lia].
      * destruct (F3 x Hx) as (m & e & -> & [K|K]); exists m, e; (split; [reflexivity|]); [left; right; exact K|right; lia].
    + intros x [<-|Hx]; rewrite lnames_app; apply in_app_iff; [left; apply D4; left; reflexivity|right; auto].
Qed.
Lemma follow_done n : forall s seen hyps cur st ls st', plain s -> 0 <= cnt st -> the_id s cur <= cnt st -> avoid seen [the_id s cur] (cnt st) ->
  follow n s hyps cur st = Ok (ls, st') -> done seen [the_id s cur] st ls st'.
Proof.
  induction n as [|n IH]; intros s seen hyps cur st ls st' P Z0 B A E; [discriminate|]. cbn [Tptp_Model.follow] in E.
  replace (is_empty s) with false in E by (inversion P as [? [P1 _] _]; subst; unfold is_empty; destruct (s_hyps s); [contradiction|reflexivity]).
  apply bind_ok in E. destruct E as ([[[[own hs] s'] cur'] st1] & Em & E). apply bind_ok in E. destruct E as ([l2 st2] & Ee & E). injection E as <- <-.
  destruct (make_own _ _ _ _ _ _ _ _ _ P Em) as (l & (O1 & O2 & O3) & (S1 & S2 & S3 & S4)).
  assert (LN : forall x, In x l <-> cnt st < x <= cnt st1) by (intros x; rewrite S2, numbers_in, S3; reflexivity).
  assert (K : done seen l st1 l2 st2).
  { refine (each_done _ _ _ l _ _ _ _ _ _ Ee _ _ _).
    - assert (KID : forall k i, plain k -> the_id k cur' = i -> 0 <= i -> forall seen h st ls st', i <= cnt st -> avoid seen [i] (cnt st) -> follow n k h cur' st = Ok (ls, st') -> done seen [i] st ls st').
      { intros k i Pk <- Hi seen0 h0 st0 ls0 st0' Hb Ha Ef. eapply IH; eauto. lia. }
      destruct S1 as [[-> S1]|(-> & S1 & ->)].
      + rewrite <- S1. unfold ids_of. assert (NN : Forall (fun k => 0 <= s_id k) (s_kids s')).
        { apply Forall_forall. intros k Hk. assert (In (s_id k) l) as Hl by (rewrite <- S1; apply in_map, Hk). apply LN in Hl. lia. }
        clear - S4 KID NN. induction S4 as [|k ks Pk S4 IHk]; [constructor|]. inversion NN; subst. constructor; [|auto]. apply KID; auto.
      + destruct (s_kids s') as [|k [|]]; try discriminate. inversion S4; subst. constructor; [|constructor]. apply KID; [assumption| |lia]. unfold the_id. destruct (Z.eqb_spec (cnt st + 1) (-1)); [lia|reflexivity].
    - rewrite S2. apply numbers_nodup.
    - intros x Hx. apply LN in Hx. lia.
    - intros m e Hm. destruct (A m e Hm) as [_ K]. split; [rewrite LN|]; lia. }
  destruct K as (K1 & K2 & K3 & K4). assert (KS : cnt st <= cnt st1) by lia.
  split; [|split; [lia|split]].
  - rewrite ordered_app, K1. cbn [andb]. apply O1.
    + intros e He. apply in_app_iff in He. destruct He as [He|He].
      * destruct (K3 _ He) as (m & e' & Q & Q'). injection Q as <- <-. rewrite LN in Q'. lia.
      * apply (proj1 (A _ _ He)). left. reflexivity.
    + intros c Hc. apply in_or_app. left. auto.
  - intros x Hx. rewrite lnames_app in Hx. apply in_app_iff in Hx. destruct Hx as [Hx|Hx].
    + destruct (K3 _ Hx) as (m & e & -> & Q). rewrite LN in Q. exists m, e. split; [reflexivity|]. right. lia.
    + destruct (O2 _ Hx) as (e & ->). exists (the_id s cur), e. split; [reflexivity|]. left. left. reflexivity.
  - intros i [<-|[]]. rewrite lnames_app. apply in_or_app. right. exact O3.
Qed.

(** ** The constants of the delta steps *)
Definition marked (lo : Z) (l : line) : Prop := forall s, l = LStep s -> is_delta_rule (t_rule s) = true ->
  exists i k, lo <= i /\ 0 <= k /\ t_term s = Some (Fun (mkId i (prefix ++ dec k)%string) [] []).
Lemma marked_le a b l : a <= b -> marked b l -> marked a l.
Proof. intros H M s E D. destruct (M s E D) as (i & k & A & B & C). exists i, k. split; [lia|auto]. Qed.
Lemma unmarked lo nm l r t ps pr : is_delta_rule r = false -> marked lo (LStep (mkStep nm l [] r t ps pr)).
Proof. intros H s E D. injection E as <-. cbn in D. congruence. Qed.
Lemma numbered_ids s st l s1 st1 : numbered s st = (l, s1, st1) -> ids st1 = ids st.
Proof. unfold numbered. destruct (number (cnt st) (s_kids s)). intros E. injection E as _ _ <-. reflexivity. Qed.
Lemma make_marked s hyps cur st own hs s' cur' st' : make_step s hyps cur st = Ok (own, hs, s', cur', st') -> ids st <= ids st' /\ Forall (marked (ids st)) own.
Proof.
  intros E. unfold Tptp_Model.make_step in E. fold (with_cur s cur) in E. apply bind_ok in E. destruct E as (f & _ & E). apply bind_ok in E. destruct E as (target & _ & E).
  revert E. generalize (with_cur s cur). clear s cur. intros s E.
  assert (AL : forall r, is_delta_rule r = false -> alpha_step s hyps target r st = Ok (own, hs, s', cur', st') -> ids st <= ids st' /\ Forall (marked (ids st)) own).
  { intros r R Ea. unfold alpha_step in Ea. destruct (numbered s st) as [[l s1] st1] eqn:En. apply numbered_ids in En. apply bind_ok in Ea. destruct Ea as (fs & _ & Ea). injection Ea as <- _ _ _ <-. split; [lia|]. constructor; [apply unmarked, R|constructor]. }
  assert (BE : forall r, is_delta_rule r = false -> beta_step s hyps target r st = Ok (own, hs, s', cur', st') -> ids st <= ids st' /\ Forall (marked (ids st)) own).
  { intros r R Ea. unfold beta_step in Ea. destruct (numbered s st) as [[l s1] st1] eqn:En. apply numbered_ids in En. apply bind_ok in Ea. destruct Ea as (fs & _ & Ea). injection Ea as <- _ _ _ <-. split; [lia|]. constructor; [apply unmarked, R|constructor]. }
  assert (GA : forall r, is_delta_rule r = false -> gamma_step dummy s hyps target r st = Ok (own, hs, s', cur', st') -> ids st <= ids st' /\ Forall (marked (ids st)) own).
  { intros r R Ea. unfold gamma_step in Ea. destruct (numbered s st) as [[l s1] st1] eqn:En. apply numbered_ids in En. apply bind_ok in Ea. destruct Ea as (u & _ & Ea). apply bind_ok in Ea. destruct Ea as (fs & _ & Ea). injection Ea as <- _ _ _ <-. split; [lia|]. constructor; [apply unmarked, R|constructor]. }
  assert (DE : forall r, delta_step prefix s hyps target r st = Ok (own, hs, s', cur', st') -> ids st <= ids st' /\ Forall (marked (ids st)) own).
  { intros r Ea. unfold delta_step in Ea. destruct (numbered s st) as [[l s1] st1] eqn:En. apply numbered_ids in En. unfold new_constant in Ea. apply bind_ok in Ea. destruct Ea as (s2 & Eu & Ea). apply bind_ok in Ea. destruct Ea as (fs & _ & Ea). injection Ea as <- _ _ _ <-. cbn [ids]. split; [lia|].
    constructor; [|constructor]. intros x Ex _. injection Ex as <-. cbn [t_term]. do 2 eexists. split; [|split; [|reflexivity]]; lia. }
  assert (ON : forall r p t, is_delta_rule r = false -> Ok ([LStep (mkStep (SF (s_id s) []) hyps [] r p t [])], [hyps], s, -1, st) = Ok (own, hs, s', cur', st') -> ids st <= ids st' /\ Forall (marked (ids st)) own).
  { intros r p t R Eo. injection Eo as <- _ _ _ <-. split; [lia|]. constructor; [apply unmarked, R|constructor]. }
  assert (OT : forall l h, match l with LStep _ => False | _ => True end -> Ok ([l], h, s, -1, st) = Ok (own, hs, s', cur', st') -> ids st <= ids st' /\ Forall (marked (ids st)) own).
  { intros l h L Eo. injection Eo as <- _ _ _ <-. split; [lia|]. constructor; [|constructor]. intros x Ex. destruct l; try discriminate. contradiction. }
  destruct (s_rule s); try (eapply AL; [|exact E]; reflexivity); try (eapply BE; [|exact E]; reflexivity); try (eapply GA; [|exact E]; reflexivity); try exact (DE _ E); try (eapply OT; [|exact E]; exact I).
  - destruct (is_equal id_eq f); [eapply ON; [|exact E]; reflexivity|]. apply bind_ok in E. destruct E as (i & _ & E). eapply ON; [|exact E]; reflexivity.
  - destruct (s_term s) as [t|].
    + apply bind_ok in E. destruct E as (u & _ & E). eapply OT; [|exact E]; exact I.
    + unfold weaken_step in E. injection E as <- _ _ _ <-. cbn [ids]. split; [lia|]. constructor; [apply unmarked; reflexivity|constructor].
  - unfold equ_step in E. destruct (numbered s st) as [[l s1] st1] eqn:En. apply numbered_ids in En. apply bind_ok in E. destruct E as (hs1 & _ & E). destruct (nth_error hyps target) as [[]|]; try discriminate.
    repeat (apply bind_ok in E; destruct E as (? & _ & E)). injection E as <- _ _ _ <-. split; [lia|]. repeat (constructor; [apply unmarked; reflexivity|]). constructor.
  - unfold nequ_step in E. destruct (numbered s st) as [[l s1] st1] eqn:En. apply numbered_ids in En. apply bind_ok in E. destruct E as (hs1 & _ & E). destruct (nth_error hyps target) as [[]|]; try discriminate. destruct f0; try discriminate.
    repeat (apply bind_ok in E; destruct E as (? & _ & E)). injection E as <- _ _ _ <-. split; [lia|]. repeat (constructor; [apply unmarked; reflexivity|]). constructor.
  - destruct s. repeat (apply bind_ok in E; destruct E as (? & _ & E)). eapply OT; [|exact E]; exact I.
Qed.
Lemma each_marked rec hs ks : (forall k h st ls st', In k ks -> rec k h st = Ok (ls, st') -> ids st <= ids st' /\ Forall (marked (ids st)) ls) ->
  forall i st ls st', each rec hs i ks st = Ok (ls, st') -> ids st <= ids st' /\ Forall (marked (ids st)) ls.
Proof.
  induction ks as [|k ks IH]; intros H i st ls st' E.
  - injection E as <- <-. split; [lia|constructor].
  - cbn [each] in E. apply bind_ok in E. destruct E as (h & _ & E). apply bind_ok in E. destruct E as ([l1 st1] & E1 & E). apply bind_ok in E. destruct E as ([l2 st2] & E2 & E). injection E as <- <-.
    destruct (H k h st l1 st1 (or_introl eq_refl) E1) as [A B]. destruct (IH (fun k h st ls st' Hk => H k h st ls st' (or_intror Hk)) _ _ _ _ E2) as [C D]. split; [lia|]. apply Forall_app. split; [exact B|].
    eapply Forall_impl; [|exact D]. intros x. apply marked_le, A.
Qed.
Lemma follow_marked n : forall s hyps cur st ls st', follow n s hyps cur st = Ok (ls, st') -> ids st <= ids st' /\ Forall (marked (ids st)) ls.
Proof.
  induction n as [|n IH]; intros s hyps cur st ls st' E; [discriminate|]. cbn [Tptp_Model.follow] in E. destruct (is_empty s).
  - eapply each_marked; [|exact E]. intros k h st0 ls0 st0' _ Ek. eapply IH, Ek.
  - apply bind_ok in E. destruct E as ([[[[own hs] s'] cur'] st1] & Em & E). apply bind_ok in E. destruct E as ([l2 st2] & Ee & E). injection E as <- <-.
    destruct (make_marked _ _ _ _ _ _ _ _ _ Em) as [A B]. assert (C : ids st1 <= ids st2 /\ Forall (marked (ids st1)) l2) by (eapply each_marked; [|exact Ee]; intros k h st0 ls0 st0' _ Ek; eapply IH, Ek).
    destruct C as [C D]. split; [lia|]. apply Forall_app. split; [|exact B]. eapply Forall_impl; [|exact D]. intros x. apply marked_le, A.
Qed.

(** ** The whole text *)
Lemma axioms_ordered l : NoDup (map form_index l) -> forall seen, (forall n, ~ In (SAx n) seen) -> ordered seen (map (fun f => LAxiom (form_index f) f) l) = true.
Proof.
  intros H. assert (G : forall seen, (forall f, In f l -> ~ In (SAx (form_index f)) seen) -> ordered seen (map (fun f => LAxiom (form_index f) f) l) = true).
  { induction l as [|f l IH]; intros seen K; [reflexivity|]. cbn [map ordered]. inversion H; subst. rewrite not_named by (apply K; left; reflexivity). cbn [negb andb]. apply IH; [assumption|].
    intros g Hg [E|E]; [|exact (K g (or_intror Hg) E)]. injection E as E. match goal with X : ~ In _ _ |- _ => apply X end. rewrite E. apply in_map, Hg. }
  intros seen K. apply G. auto.
Qed.
Lemma lnames_axioms l : lnames (map (fun f => LAxiom (form_index f) f) l) = map (fun f => SAx (form_index f)) l.
Proof. induction l as [|f l IH]; [reflexivity|]. unfold lnames, seqs in *. cbn. rewrite IH. reflexivity. Qed.
Lemma cuts_done axs c rest : forall i seen, In (SF 0 []) seen -> (forall f, In f rest -> In (SAx (form_index f)) seen) -> (forall j, ~ In (SCut j) seen) ->
  ordered seen (cut_axioms axs c i rest) = true /\ (forall x, In x (lnames (cut_axioms axs c i rest)) -> exists j, x = SCut j /\ (i <= j)%nat) /\
  (rest <> [] -> In (SCut i) (lnames (cut_axioms axs c i rest))).
Proof.
  induction rest as [|f r IH]; intros i seen H0 H1 H2; [split; [reflexivity|split; [intros x []|congruence]]|].
  cbn [cut_axioms]. destruct (IH (S i) seen H0) as (A & B & C); [intros g Hg; apply H1; right; exact Hg|exact H2|]. rewrite lnames_app. split; [|split].
  - rewrite ordered_app, A. cbn [andb ordered t_name t_prem forallb].
    assert (N1 : ~ In (SCut i) (lnames (cut_axioms axs c (S i) r) ++ seen)).
    { rewrite in_app_iff. intros [K|K]; [|exact (H2 _ K)]. destruct (B _ K) as (j & E & L). injection E as <-. lia. }
    assert (N2 : In (SAx (form_index f)) (lnames (cut_axioms axs c (S i) r) ++ seen)) by (apply in_or_app; right; apply H1; left; reflexivity).
    assert (N3 : In (match r with [] => SF 0 [] | _ :: _ => SCut (S i) end) (lnames (cut_axioms axs c (S i) r) ++ seen)).
    { destruct r; apply in_or_app; [right; exact H0|left; apply C; discriminate]. }
    rewrite (not_named _ _ N1), (proj2 (named_in _ _) N2), (proj2 (named_in _ _) N3). reflexivity.
  - intros x Hx. apply in_app_iff in Hx. destruct Hx as [Hx|[<-|[]]].
    + destruct (B x Hx) as (j & -> & L). exists j. split; [reflexivity|lia].
    + exists i. split; [reflexivity|lia].
  - intros _. apply in_or_app. right. left. reflexivity.
Qed.
Lemma main_and j l axs c : main_formula (And j l) = Ok (axs, c) -> incl axs l /\ (NoDup (map form_index l) -> NoDup (map form_index axs)).
Proof.
  cbn. destruct (rev l) as [|x r] eqn:E; [discriminate|]. intros K. assert (El : l = rev r ++ [x]) by (rewrite <- (rev_involutive l), E; reflexivity).
  assert (rev r = axs) as <- by (destruct x; injection K; congruence). subst l. split.
  - intros y Hy. apply in_or_app. left. exact Hy.
  - intros N. rewrite map_app in N. cbn [map] in N. apply NoDup_remove_1 in N. rewrite app_nil_r in N. exact N.
Qed.
(** the indices of the axioms are different *)
Theorem tptp_ordered2 n s st ls st' : tptp id_eq prefix dummy n s st = Ok (ls, st') -> 0 <= cnt st -> plain s ->
  (forall f axs c, target s f -> main_formula f = Ok (axs, c) -> NoDup (map form_index axs)) -> ordered [] ls = true.
Proof.
  intros E Z0 P D. unfold tptp in E. apply bind_ok in E. destruct E as (f & Ef & E). apply bind_ok in E. destruct E as ([axs c] & Em & E). cbn [first_steps] in E.
  apply bind_ok in E. destruct E as (k & Ek & E). apply bind_ok in E. destruct E as ([l st1] & El & E). injection E as <- <-.
  assert (N : NoDup (map form_index axs)).
  { unfold target_form in Ef. destruct (nth_error (s_hyps s) (s_on s)) as [g|] eqn:Eg; [|discriminate]. injection Ef as ->. exact (D _ _ _ Eg Em). }
  assert (Pk : plain k).
  { destruct axs; [injection Ek as <-; exact P|]. apply at_in in Ek. inversion P as [? _ P3]; subst. rewrite Forall_forall in P3. exact (P3 k Ek). }
  unfold theorem. rewrite <- app_assoc, ordered_app, (axioms_ordered axs N []) by auto. cbn [andb app ordered]. rewrite app_nil_r, ordered_app, lnames_axioms.
  set (axn := map (fun f => SAx (form_index f)) axs). set (s3 := mkTst (cnt st + 3) (orig st) (made st) (ids st)) in *.
  assert (EI : the_id k (cnt st + 3) = cnt st + 3) by (unfold the_id; destruct (Z.eqb_spec (cnt st + 3) (-1)); [lia|reflexivity]).
  assert (K : done axn [the_id k (cnt st + 3)] s3 l st1).
  { apply (follow_done n k axn (axs ++ [Not 0 c]) (cnt st + 3) s3 l st1 Pk); [cbn; lia|rewrite EI; cbn; lia| |exact El].
    intros m e Hm. unfold axn in Hm. apply in_map_iff in Hm. destruct Hm as (g & Hg & _). discriminate. }
  rewrite EI in K. destruct K as (K1 & K2 & K3 & K4). change (cnt s3) with (cnt st + 3) in *. rewrite K1. cbn [andb].
  assert (FR : forall m, 0 <= m < cnt st + 3 -> ~ In (SF m []) (lnames l ++ axn)).
  { intros m Hm Hi. apply in_app_iff in Hi. destruct Hi as [Hi|Hi].
    - destruct (K3 _ Hi) as (m' & e & Q & Q'). injection Q as <- _. cbn in Q'. lia.
    - unfold axn in Hi. apply in_map_iff in Hi. destruct Hi as (g & Hg & _). discriminate. }
  cbn [ordered t_name t_prem forallb lnames seqs flat_map map app fst t_left t_right].
  assert (NE : forall a b, a <> b -> SF a [] <> SF b []) by congruence.
  rewrite (not_named (SF (cnt st + 2) [])) by (apply FR; lia). cbn [negb andb].
  rewrite (not_named (SF (cnt st + 1) [])) by (intros [Q|Q]; [injection Q as Q; lia|apply FR in Q; lia]). cbn [negb andb].
  rewrite (proj2 (named_in (SF (cnt st + 2) []) _)) by (left; reflexivity). cbn [negb andb].
  rewrite (not_named (SF 0 [])) by (intros [Q|[Q|Q]]; [injection Q as Q; lia|injection Q as Q; lia|apply FR in Q; lia]). cbn [negb andb].
  rewrite (proj2 (named_in (SF (cnt st + 1) []) _)) by (left; reflexivity). cbn [negb andb].
  rewrite (proj2 (named_in (SF (cnt st + 3) []) _)) by (right; right; apply in_or_app; left; apply K4; left; reflexivity). cbn [negb andb].
  apply cuts_done.
  - cbn. auto.
  - intros g Hg. do 3 right. apply in_or_app. right. unfold axn. apply (in_map (fun f => SAx (form_index f))), Hg.
  - intros j Hj. repeat (destruct Hj as [Hj|Hj]; [discriminate|]). apply in_app_iff in Hj. destruct Hj as [Hj|Hj].
    + destruct (K3 _ Hj) as (m & e & Q & _). discriminate.
    + unfold axn in Hj. apply in_map_iff in Hj. destruct Hj as (g & Hg & _). discriminate.
Qed.
Theorem tptp_ordered n s st ls st' : tptp id_eq prefix dummy n s st = Ok (ls, st') -> 0 <= cnt st -> plain s ->
  (forall j l, target s (And j l) -> NoDup (map form_index l)) -> ordered [] ls = true.
Proof.
  intros E Z0 P D. apply (tptp_ordered2 n s st ls st' E Z0 P). intros f axs c T Em. destruct f; try (injection Em as <- _; constructor).
  destruct (main_and _ _ _ _ Em) as [_ K]. exact (K (D _ _ T)).
Qed.
End Order.
