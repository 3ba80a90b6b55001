(** C16: the final statements about RenameVariables, and the counterexample. *)
From Coq Require Import ZArith List Bool String Ascii Lia DecimalString DecimalZ Decimal DecimalFacts.
From Verif Require Import Ast_Model Sem_Spec Occ_Spec Rename_Spec Ast_Proofs Sem_Proofs Rename_Proofs.
Import ListNotations.
Open Scope Z_scope.

Lemma reg_known g s : reg g s <-> known_var g s.
Proof.
  unfold reg, known_var. destruct (lookup s (idVar g)) as [i|]; split; intros H; eauto; try discriminate.
  - contradiction.
  - destruct H; discriminate.
Qed.

Lemma rename_main f g : drawn_from g f -> sorted_use f -> f_noid f ->
  no_name_clash g (map tv_name (f_binders f)) ->
  exists f' g', rename_variables f g = Some (f', g') /\ 
    out g (map tv_name (f_binders f)) (f_funs f) f g f' g'.
Proof.
  intros (D1 & D2 & D3) SU NI [N1 N2].
  apply rename_ok.
  - intros s k A B. rewrite reg_known. auto.
  - auto.
  - intros s Hs. rewrite reg_known. apply in_map_iff in Hs as (x & <- & Hx). apply D3; auto.
  - split; auto. split; [intros; apply reg_known; auto|]. split.
    + intros x Hx. destruct (D3 x Hx) as (? & ? & ?). split; auto. split; auto. apply in_map; auto.
    + split; [apply incl_refl|]. auto.
  - split; [lia|]. split; auto.
Qed.

Lemma rename_final f g : drawn_from g f -> sorted_use f -> f_noid f ->
  no_name_clash g (map tv_name (f_binders f)) ->
  exists f' g', rename_variables f g = Some (f', g') /\ equiv f f' /\
    NoDup (map tv_index (f_binders f')) /\ NoDup (map tv_name (f_binders f')) /\
    (forall x, In x (f_binders f') -> cpt_term g <= tv_index x /\ ~ known_var g (tv_name x)).
Proof.
  intros A B C E. destruct (rename_main f g A B C E) as (f' & g' & R & O).
  exists f', g'. split; auto. destruct O as (O1 & O2 & O3 & O4 & O5 & O6 & O7 & O8 & O9 & O10).
  split; auto. split; auto. split; auto. intros x Hx. destruct (O8 x Hx) as (? & ? & ?). rewrite <- reg_known. split; auto; lia.
Qed.

(** *** names without trailing digit *)
Fixpoint all_digits (s : string) : bool :=
  match s with EmptyString => true | String c r => is_digit c && all_digits r end.
Lemma ends_digit_cons c s : s <> EmptyString -> ends_digit (String c s) = ends_digit s.
Proof. destruct s; simpl; auto. contradiction. Qed.
Lemma all_digits_app a b : all_digits (append a b) = all_digits a && all_digits b.
Proof. induction a; simpl; auto. rewrite IHa, andb_assoc; auto. Qed.
Lemma all_digits_ends s : all_digits s = true -> s <> EmptyString -> ends_digit s = true.
Proof.
  induction s as [|c s IH]; intros H N; [contradiction|]. simpl in H. apply andb_prop in H as [H1 H2].
  destruct s as [|c' s]; [exact H1|]. rewrite ends_digit_cons by discriminate. apply IH; auto. discriminate.
Qed.
Lemma split_unique s : forall s' d d', ends_digit s = false -> ends_digit s' = false ->
  all_digits d = true -> all_digits d' = true -> append s d = append s' d' -> d = d'.
Proof.
  induction s as [|c s IH]; intros s' d d' E E' A A' EQ.
  - destruct s' as [|c' s']; auto. simpl append in EQ at 1. rewrite EQ in A.
    rewrite all_digits_app in A. apply andb_prop in A as [A _]. 
    rewrite all_digits_ends in E'; auto; discriminate.
  - destruct s' as [|c' s'].
    + simpl append in EQ at 2. rewrite <- EQ in A'.
      rewrite all_digits_app in A'. apply andb_prop in A' as [A' _]. 
      rewrite all_digits_ends in E; auto; discriminate.
    + simpl in EQ. injection EQ as <- EQ. destruct s as [|c1 s]; destruct s' as [|c1' s'].
      * auto.
      * rewrite ends_digit_cons in E' by discriminate. apply (IH (String c1' s')); auto.
      * rewrite ends_digit_cons in E by discriminate. apply (IH EmptyString); auto.
      * rewrite ends_digit_cons in E, E' by discriminate. apply (IH (String c1' s')); auto.
Qed.
Lemma uint_digits d : all_digits (NilEmpty.string_of_uint d) = true.
Proof. induction d; simpl; auto. Qed.
Lemma to_int_pos k : 0 <= k -> exists d, Z.to_int k = Pos d /\ d <> Nil.
Proof.
  intros H. pose proof (to_of (Z.to_int k)) as E. rewrite of_to in E.
  destruct k as [|p|p]; [| |lia].
  - exists (D0 Nil); split; auto. discriminate.
  - simpl in *. exists (Pos.to_uint p). split; auto. injection E as E. rewrite E.
    unfold unorm. destruct (nzhead (Pos.to_uint p)); discriminate.
Qed.
Lemma dec_digits k : 0 <= k -> all_digits (dec k) = true.
Proof.
  intros H. destruct (to_int_pos k H) as (d & E & N). unfold dec. rewrite E. simpl.
  destruct d; try contradiction; apply uint_digits.
Qed.
Lemma dec_inj k k' : 0 <= k -> 0 <= k' -> dec k = dec k' -> k = k'.
Proof.
  intros H H' E. destruct (to_int_pos k H) as (d & Ed & N). destruct (to_int_pos k' H') as (d' & Ed' & N').
  apply to_int_inj. unfold dec in E.
  assert (X : NilZero.int_of_string (NilZero.string_of_int (Z.to_int k)) = Some (Z.to_int k)).
  { apply NilZero.isi; rewrite Ed; congruence. }
  assert (Y : NilZero.int_of_string (NilZero.string_of_int (Z.to_int k')) = Some (Z.to_int k')).
  { apply NilZero.isi; rewrite Ed'; congruence. }
  rewrite E in X. congruence.
Qed.
Lemma all_digits_app_ends s d : all_digits d = true -> d <> EmptyString -> ends_digit (append s d) = true.
Proof.
  intros A N. induction s as [|c s IH]; simpl append; [apply all_digits_ends; auto|].
  rewrite ends_digit_cons; auto. destruct s; simpl; auto. discriminate.
Qed.

Lemma clean_no_clash g names : clean g -> (forall s, In s names -> ends_digit s = false) -> no_name_clash g names.
Proof.
  intros [C0 C] HN. split.
  - intros s k Hs Hk K. apply C in K as [K|(s' & k' & E' & K' & E)].
    + rewrite all_digits_app_ends in K; [discriminate|apply dec_digits; lia|apply dec_nonempty].
    + apply split_unique in E; auto; try (apply dec_digits; lia). apply dec_inj in E; lia.
  - intros s s' k k' Hs Hs' Hk Hk' E. apply split_unique in E; auto; try (apply dec_digits; lia). apply dec_inj in E; lia.
Qed.

Lemma rename_clean f g : drawn_from g f -> sorted_use f -> f_noid f -> clean g ->
  (forall x, In x (f_binders f) -> ends_digit (tv_name x) = false) ->
  exists f' g', rename_variables f g = Some (f', g') /\ equiv f f' /\
    NoDup (map tv_index (f_binders f')) /\ NoDup (map tv_name (f_binders f')) /\
    (forall x, In x (f_binders f') -> cpt_term g <= tv_index x /\ ~ known_var g (tv_name x)) /\ clean g'.
Proof.
  intros A B C CL E.
  assert (NC : no_name_clash g (map tv_name (f_binders f))).
  { apply clean_no_clash; auto. intros s Hs. apply in_map_iff in Hs as (x & <- & Hx); auto. }
  destruct (rename_main f g A B C NC) as (f' & g' & R & O).
  exists f', g'. split; auto. destruct O as (O1 & O2 & O3 & O4 & O5 & O6 & O7 & O8 & O9 & O10).
  split; auto. split; auto. split; auto. split.
  - intros x Hx. destruct (O8 x Hx) as (? & ? & ?). rewrite <- reg_known. split; auto; lia.
  - destruct O1 as (I1 & I2 & I3). destruct CL as [C0 CL]. split; [lia|].
    intros s Hs. apply reg_known in Hs. apply I3 in Hs as [Hs|(s' & k & HN & HK & ->)].
    + apply reg_known in Hs. apply CL in Hs as [?|(s' & k & ? & ? & ?)]; auto. right; exists s', k; repeat split; auto; lia.
    + right. exists s', k. split; [|split; [lia|auto]]. apply in_map_iff in HN as (x & <- & Hx); auto.
Qed.

(** *** counterexample: the problem has variables X4 and X *)
Definition iTy := TyConstr "$i" [].
(** state after reading  ! [X4] : ! [X] : p(X,X4) *)
Definition gBad : gen :=
  snd (maker_var "X" (snd (maker_var "X4" (snd (maker_id "p" (snd (maker_id "=" gen0))))))).
Definition fBad : form :=
  All 1 [mkTV "X4" 2 iTy] (All 0 [mkTV "X" 3 iTy]
    (Pred 2 (mkId 1 "p") [] [Var 3 "X"; Var 2 "X4"])).

Lemma fBad_ok : drawn_from gBad fBad /\ sorted_use fBad /\ f_noid fBad.
Proof.
  split; [|split].
  - split; [|split].
    + simpl. intros i [<-|[<-|[]]]; reflexivity.
    + simpl. intros s [].
    + simpl. intros x [<-|[<-|[]]]; (split; [reflexivity|split; [|intros []]]); eexists; reflexivity.
  - simpl. repeat split; try (constructor; simpl; auto; try constructor; fail);
    intros x [<-|[]]; simpl; auto.
  - intros b. simpl. intros [<-|[<-|[]]]; reflexivity.
Qed.

(** equality on a two-element domain *)
Definition eqI : interp :=
  mkInterp bool unit (fun _ _ _ => true)
    (fun _ _ l => match l with [a; b] => a = b | _ => False end)
    (fun _ _ => tt) (fun _ => tt) (fun _ => tt) (fun _ _ => tt) (fun _ _ => tt).
Definition eqV : val eqI := @mkVal eqI (fun _ => true) (fun _ => true) (fun _ => tt) (fun _ _ => tt).

Lemma fBad_wrong : exists f' g', rename_variables fBad gBad = Some (f', g') /\ 
  @holds eqI f' eqV /\ ~ @holds eqI fBad eqV.
Proof.
  eexists; eexists. split; [reflexivity|]. split.
  - cbn. intros a b. reflexivity.
  - cbn. intros H. specialize (H true false). cbn in H. discriminate.
Qed.

(** the hypotheses of the positive theorem are met: ! [X,Y] : (p(X,Y) => ? [X] : p(X,X)) *)
Definition gGood : gen :=
  snd (maker_var "Y" (snd (maker_var "X" (snd (maker_id "p" (snd (maker_id "=" gen0))))))).
Definition fGood : form :=
  All 1 [mkTV "X" 2 iTy; mkTV "Y" 3 iTy]
    (Imp 5 (Pred 2 (mkId 1 "p") [] [Var 2 "X"; Var 3 "Y"])
           (Ex 3 [mkTV "X" 2 iTy] (Pred 4 (mkId 1 "p") [] [Var 2 "X"; Var 2 "X"]))).
Lemma fGood_ok : drawn_from gGood fGood /\ sorted_use fGood /\ f_noid fGood /\ clean gGood /\
  (forall x, In x (f_binders fGood) -> ends_digit (tv_name x) = false).
Proof.
  split; [|split; [|split; [|split]]].
  - split; [|split].
    + simpl. intros i [<-|[<-|[<-|[<-|[]]]]]; reflexivity.
    + simpl. intros s [].
    + simpl. intros x [<-|[<-|[<-|[]]]]; (split; [reflexivity|split; [|intros []]]); eexists; reflexivity.
  - cbn. repeat split; try (repeat constructor; simpl; intros; intuition discriminate; fail).
    + intros x [<-|[<-|[]]]; simpl; auto.
    + intros x [<-|[]]; simpl; auto.
  - intros b. simpl. intuition.
  - split; [discriminate|]. intros s [i H]. cbn in H. left.
    destruct (String.eqb s "Y") eqn:E; [apply String.eqb_eq in E; subst; reflexivity|].
    destruct (String.eqb s "X") eqn:E2; [apply String.eqb_eq in E2; subst; reflexivity|]. discriminate.
  - simpl. intros x [<-|[<-|[<-|[]]]]; reflexivity.
Qed.
