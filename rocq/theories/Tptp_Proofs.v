(** The printed text is a derivation, for the proofs of [ok] (C96, C97). *)
From Coq Require Import ZArith List Bool String Lia.
From Verif Require Import Ast_Model Ast_Proofs Sem_Spec Sem_Proofs Occ_Spec Rules_Proofs Rename_Final Unif_Model GsTerm_Spec GsTerm_Proofs GsProof_Model GsProof_Spec GsProof_Sound Tptp_Model Tptp_Spec Tptp_Rep Tptp_Order Tptp_Rules.
Import ListNotations.
Open Scope list_scope.
Open Scope Z_scope.

Lemma seqs_app a b : seqs (a ++ b) = seqs a ++ seqs b.
Proof. unfold seqs. apply flat_map_app. Qed.
Lemma every_with_id (P : sequent -> Prop) i s : (forall s, P s -> P (with_id i s)) -> every P s -> every P (with_id i s).
Proof. intros H E. inversion E; subst. constructor; [auto|]. rewrite with_id_kids. assumption. Qed.
Lemma target_with_id i s f : target (with_id i s) f <-> target s f.
Proof. unfold target. rewrite with_id_hyps, with_id_on. reflexivity. Qed.
Lemma ok_with_id sk I G i s : ok sk I G s -> ok sk I G (with_id i s).
Proof.
  intros H. assert (T : forall f, target s f -> target (with_id i s) f) by (intros f; apply target_with_id).
  inversion H; subst; [eapply K_close|eapply K_alpha|eapply K_gamma|eapply K_delta|eapply K_beta]; rewrite ?with_id_rule, ?with_id_kids, ?with_id_forms, ?with_id_term; eauto.
Qed.
Lemma terms_with_id u i s : terms_ok u s -> terms_ok u (with_id i s).
Proof. apply every_with_id. intros s0 H t. rewrite with_id_term. apply H. Qed.
Lemma wf_with_id sk good i s : wf_seq sk good s -> wf_seq sk good (with_id i s).
Proof.
  apply every_with_id. intros s0 (A & B & C & D). rewrite with_id_hyps, with_id_forms, with_id_term. split; [exact A|]. split; [|split; [exact C|exact D]].
  intros f Hf. apply B. apply target_with_id in Hf. exact Hf.
Qed.
Lemma depth_with_id i s : seq_depth (with_id i s) = seq_depth s.
Proof. destruct s; reflexivity. Qed.
Lemma depth_eq s : seq_depth s = S (list_max (map seq_depth (s_kids s))).
Proof. destruct s; reflexivity. Qed.
Lemma depth_kid s k : In k (s_kids s) -> (seq_depth k < seq_depth s)%nat.
Proof.
  intros H. rewrite (depth_eq s). assert (K : (list_max (map seq_depth (s_kids s)) <= list_max (map seq_depth (s_kids s)))%nat) by lia. apply list_max_le in K. rewrite Forall_forall in K. specialize (K (seq_depth k)). apply le_n_S. apply K. apply in_map, H.
Qed.
Lemma depth_rseq i c s : seq_depth (rseq i c s) = seq_depth s.
Proof.
  induction s as [s IH] using seq_ind'. rewrite !depth_eq, rseq_kids. do 2 f_equal. rewrite map_map. apply map_ext_in. intros a Ha. rewrite Forall_forall in IH. auto.
Qed.
Lemma wf_form_more sk (g h : ident -> Prop) f : (forall p, g p -> h p) -> wf_form sk g f -> wf_form sk h f.
Proof. intros H (A & B & C). split; [exact A|]. split; [exact B|]. auto. Qed.
Lemma wf_more sk (g h : ident -> Prop) s : (forall p, g p -> h p) -> wf_seq sk g s -> wf_seq sk h s.
Proof.
  intros H. apply every_more. intros s0 (A & B & C & D). split; [exact A|]. split; [intros f Hf; eapply wf_form_more; eauto|]. split.
  - eapply Forall_impl; [|exact C]. intros l. apply Forall_impl. intros f. apply wf_form_more, H.
  - intros t Ht. destruct (D t Ht) as (D1 & D2 & D3). split; [exact D1|]. split; [exact D2|]. auto.
Qed.
Lemma list_funs l m : Forall2 (fun a b => term_eqb a b = true) l m -> flat_map t_funs l = flat_map t_funs m.
Proof. induction 1 as [|a b l m E H IH]; cbn; [reflexivity|]. rewrite (funs_eqb a b E), IH. reflexivity. Qed.
Lemma funs_same f : forall g, same f g -> f_funs f = f_funs g.
Proof.
  assert (L : forall fs, Forall (fun f => forall g, same f g -> f_funs f = f_funs g) fs -> forall gs, Forall2 same fs gs -> flat_map f_funs fs = flat_map f_funs gs).
  { induction 1 as [|f0 fs Hf H IH]; intros gs F; inversion F; subst; [reflexivity|]. cbn. f_equal; auto. }
  induction f using form_ind'; intros g' E.
  - apply inv_all in E. destruct E as (j & ws & c & -> & E1 & E2). exact (IHf c E2).
  - apply inv_ex in E. destruct E as (j & ws & c & -> & E1 & E2). exact (IHf c E2).
  - apply inv_or in E. destruct E as (j & m & -> & E). apply L; assumption.
  - apply inv_and in E. destruct E as (j & m & -> & E). apply L; assumption.
  - apply inv_equ in E. destruct E as (j & a' & b' & -> & E1 & E2). unfold f_funs in *. cbn [f_collect]. f_equal; auto.
  - apply inv_imp in E. destruct E as (j & a' & b' & -> & E1 & E2). unfold f_funs in *. cbn [f_collect]. f_equal; auto.
  - apply inv_not in E. destruct E as (j & a' & -> & E). exact (IHf a' E).
  - destruct g'; try discriminate. unfold same in E. cbn in E. rewrite !andb_true_iff in E. destruct E as [_ E]. unfold f_funs. cbn. apply list_funs, eqb_forall2, E.
  - destruct g'; try discriminate. reflexivity.
  - destruct g'; try discriminate. reflexivity.
Qed.
Lemma frep_id i c f : ~ In i (f_funs f) -> frep i c f = f.
Proof.
  unfold f_funs. induction f using form_ind'; cbn [f_collect frep]; intros N; auto; try (f_equal; auto; fail).
  - f_equal. rewrite <- (map_id fs) at 2. apply map_ext_in. intros a Ha. rewrite Forall_forall in H. apply H; [exact Ha|]. intros K. apply N. apply in_flat_map. eauto.
  - f_equal. rewrite <- (map_id fs) at 2. apply map_ext_in. intros a Ha. rewrite Forall_forall in H. apply H; [exact Ha|]. intros K. apply N. apply in_flat_map. eauto.
  - rewrite in_app_iff in N. f_equal; tauto.
  - rewrite in_app_iff in N. f_equal; tauto.
  - f_equal. apply map_trep_id, N.
Qed.
Lemma avail_funs G f i : available G f -> ~ In i (flat_map f_funs G) -> ~ In i (f_funs f).
Proof. intros (h & Hh & S) N K. apply N. apply in_flat_map. exists h. split; [exact Hh|]. rewrite (funs_same h f S). exact K. Qed.
Lemma gamma_any r f v b u u' x : ~ In (tv_index v) (f_vars b) -> gamma_by r f v b u x -> gamma_by r f v b u' x.
Proof.
  intros N H. destruct H as [i vs g v b u x K|i j vs g v b u x K]; constructor; unfold gamma_instance in *; rewrite (fvinst_notin _ u' b N); rewrite (fvinst_notin _ u b N) in K; exact K.
Qed.
Lemma str_app_inv p a b : (p ++ a)%string = (p ++ b)%string -> a = b.
Proof. induction p as [|c p IH]; cbn; [auto|]. intros E. injection E as E. auto. Qed.

Section Good.
Variables (sk : Z -> Prop) (id_eq : Z) (prefix : string) (dm : ident).
Let dummy := Fun dm [] [].
Notation make_step := (make_step id_eq prefix dummy).
Notation follow := (follow id_eq prefix dummy).

(** ** The state *)
Definition good_at (st : tst) (p : ident) : Prop :=
  id_index p < ids st /\ forall k, 0 <= k -> id_name p = (prefix ++ dec k)%string -> k < Z.of_nat (List.length (made st)).
Definition inv (st : tst) : Prop :=
  0 <= cnt st /\ (forall o, In o (orig st) -> exists p tys l, o = Some (Fun p tys l) /\ sk (id_index p)) /\ forall i, sk i -> i < ids st.
Definition grows (st st' : tst) : Prop := cnt st <= cnt st' /\ ids st <= ids st' /\ (List.length (made st) <= List.length (made st'))%nat /\ inv st'.
Lemma grows_refl st : inv st -> grows st st. Proof. intros H. split; [lia|]. split; [lia|]. split; [lia|exact H]. Qed.
Lemma grows_trans a b c : grows a b -> grows b c -> grows a c.
Proof. intros (A & B & C & _) (A' & B' & C' & D). split; [lia|]. split; [lia|]. split; [lia|exact D]. Qed.
Lemma good_mono a b p : grows a b -> good_at a p -> good_at b p.
Proof. intros (A & B & C & _) [H1 H2]. split; [lia|]. intros k Hk E. specialize (H2 k Hk E). lia. Qed.
Lemma grows_inv a b : grows a b -> inv b. Proof. intros (_ & _ & _ & H). exact H. Qed.

Definition line_good (db : list (sid * sq)) (l : line) : Prop :=
  exists s ps, l = LStep s /\ Forall2 (fun n q => In (n, q) db) (t_prem s) ps /\ rule_ok s ps = true.
Lemma line_good_more a b l : incl a b -> line_good a l -> line_good b l.
Proof. intros H (s & ps & -> & F & R). exists s, ps. split; [reflexivity|]. split; [|exact R]. eapply F2_impl; [|exact F]. cbn. auto. Qed.
Definition printed (st : tst) (hyps : list form) (id : Z) (ls : list line) (st' : tst) : Prop :=
  grows st st' /\ In (SF id [], (hyps, [])) (seqs ls) /\ Forall (line_good (seqs ls)) ls.
(** a sequent to print, with the hypotheses printed so far *)
Definition ready (st : tst) (hyps : list form) (s : sequent) : Prop :=
  exists G, ok sk [] G s /\ cov hyps G /\ wf_seq sk (good_at st) s /\ Forall (wf_form sk (good_at st)) hyps.
Lemma ready_mono a b hyps s : grows a b -> ready a hyps s -> ready b hyps s.
Proof.
  intros H (G & A & B & C & D). exists G. split; [exact A|]. split; [exact B|]. split; [eapply wf_more; [|exact C]|eapply Forall_impl; [|exact D]; intros f; apply wf_form_more]; intros p; apply good_mono, H.
Qed.
Lemma each_good rec ks (hs : nat -> out (list form)) nm : forall i st, inv st ->
  (forall j k, nth_error ks j = Some k -> exists h, hs (i + j)%nat = Ok h /\
     forall st1, grows st st1 -> exists ls st2, rec k h st1 = Ok (ls, st2) /\ printed st1 h (nm k) ls st2) ->
  exists ls st', each rec hs i ks st = Ok (ls, st') /\ grows st st' /\ Forall (line_good (seqs ls)) ls /\
    forall j k h, nth_error ks j = Some k -> hs (i + j)%nat = Ok h -> In (SF (nm k) [], (h, [])) (seqs ls).
Proof.
  induction ks as [|k ks IH]; intros i st Hi H.
  - exists [], st. split; [reflexivity|]. split; [apply grows_refl, Hi|]. split; [constructor|]. intros [|j] k h E; discriminate.
  - destruct (H 0%nat k eq_refl) as (h & Eh & Hr). rewrite Nat.add_0_r in Eh. destruct (Hr st (grows_refl st Hi)) as (l1 & st1 & E1 & P1 & P2 & P3).
    destruct (IH (S i) st1 (grows_inv _ _ P1)) as (l2 & st2 & E2 & Q1 & Q2 & Q3).
    { intros j k' Ej. destruct (H (S j) k' Ej) as (h' & Eh' & Hr'). exists h'. split; [rewrite <- Eh'; f_equal; lia|]. intros s1 G1. apply Hr'. eapply grows_trans; eauto. }
    exists (l1 ++ l2), st2. cbn [each]. rewrite Eh. cbn [bind]. rewrite E1. cbn [bind]. rewrite E2. cbn [bind]. split; [reflexivity|]. split; [eapply grows_trans; eauto|]. rewrite seqs_app. split.
    + apply Forall_app. split; (eapply Forall_impl; [|eassumption]; intros l; apply line_good_more; intros x Hx; apply in_or_app; auto).
    + intros [|j] k' h' Ej Eh'; apply in_or_app; cbn in Ej.
      * left. injection Ej as <-. rewrite Nat.add_0_r in Eh'. rewrite Eh in Eh'. injection Eh' as <-. exact P2.
      * right. apply (Q3 j); [exact Ej|]. rewrite <- Eh'. f_equal. lia.
Qed.

(** ** What a step must give *)
Definition step_good (s : sequent) (hyps : list form) (id : Z) (st : tst) (own : list line) (hs : list (list form)) (s' : sequent) (st' : tst) : Prop :=
  grows st st' /\
  (forall j k, nth_error (s_kids s') j = Some k -> exists h, at_ hs j = Ok h /\ ready st' (list_add hyps h) k /\ (seq_depth k < seq_depth s)%nat) /\
  (forall db, (forall j k h, nth_error (s_kids s') j = Some k -> at_ hs j = Ok h -> In (SF (s_id k) [], (list_add hyps h, [])) db) -> incl (seqs own) db -> Forall (line_good db) own) /\
  In (SF id [], (hyps, [])) (seqs own).

Lemma follow_good n : (forall s hyps cur st, ready st hyps s -> inv st -> exists own hs s' st', make_step s hyps cur st = Ok (own, hs, s', -1, st') /\ step_good s hyps (the_id s cur) st own hs s' st') ->
  forall s hyps cur st, ready st hyps s -> inv st -> (seq_depth s < n)%nat -> exists ls st', follow n s hyps cur st = Ok (ls, st') /\ printed st hyps (the_id s cur) ls st'.
Proof.
  intros MK. induction n as [|n IH]; intros s hyps cur st R V D; [lia|]. cbn [Tptp_Model.follow].
  assert (Es : is_empty s = false).
  { destruct R as (G & _ & _ & W & _). inversion W as [? (W1 & _) _]; subst. unfold is_empty. destruct (s_hyps s); [contradiction|reflexivity]. }
  rewrite Es. destruct (MK s hyps cur st R V) as (own & hs & s' & st1 & Em & (S1 & S2 & S3 & S4)). rewrite Em. cbn [bind].
  destruct (each_good (fun k h st => follow n k h (-1) st) (s_kids s') (fun i => do h <- at_ hs i; Ok (list_add hyps h)) s_id 0 st1 (grows_inv _ _ S1)) as (l & st2 & E & Q1 & Q2 & Q3).
  { intros j k Ek. destruct (S2 j k Ek) as (h & Eh & Rk & Dk). exists (list_add hyps h). cbn [Nat.add]. rewrite Eh. split; [reflexivity|].
    intros st' Gr. destruct (IH k (list_add hyps h) (-1) st') as (ls & st'' & Ef & P); [eapply ready_mono; eauto|exact (grows_inv _ _ Gr)|lia|]. exists ls, st''. split; [exact Ef|exact P]. }
  rewrite E. cbn [bind]. eexists. eexists. split; [reflexivity|]. split; [eapply grows_trans; eauto|]. rewrite seqs_app. split; [apply in_or_app; right; exact S4|].
  apply Forall_app. split.
  - eapply Forall_impl; [|exact Q2]. intros x. apply line_good_more. intros y Hy. apply in_or_app. left. exact Hy.
  - apply S3; [|intros y Hy; apply in_or_app; right; exact Hy]. intros j k h Ek Eh. apply in_or_app. left. apply (Q3 j); [exact Ek|]. cbn [Nat.add]. rewrite Eh. reflexivity.
Qed.

(** ** The steps *)
Lemma with_kids_rule ks s : s_rule (with_kids ks s) = s_rule s. Proof. destruct s; reflexivity. Qed.
Lemma with_kids_forms ks s : s_forms (with_kids ks s) = s_forms s. Proof. destruct s; reflexivity. Qed.
Lemma with_kids_target ks s f : target (with_kids ks s) f <-> target s f. Proof. destruct s; reflexivity. Qed.
Lemma with_kids_hyps ks s : s_hyps (with_kids ks s) = s_hyps s. Proof. destruct s; reflexivity. Qed.
Lemma number_nth ks : forall n j k', nth_error (snd (number n ks)) j = Some k' -> exists k i, nth_error ks j = Some k /\ k' = with_id i k.
Proof.
  induction ks as [|k ks IH]; intros n j k' E; [destruct j; discriminate|]. cbn [number] in E. specialize (IH (n + 1)). destruct (number (n + 1) ks) as [l r]. cbn [snd] in *.
  destruct j as [|j]; cbn in *; [injection E as <-; eauto|]. apply IH, E.
Qed.
Lemma numbered_one s k st : s_kids s = [k] ->
  numbered s st = ([cnt st + 1], with_kids [with_id (cnt st + 1) k] s, mkTst (cnt st + 1) (orig st) (made st) (ids st)).
Proof. intros E. unfold numbered. rewrite E. reflexivity. Qed.
Lemma prem_in db hyps ks : forall hs, List.length hs = List.length ks ->
  (forall j k h, nth_error ks j = Some k -> at_ hs j = Ok h -> In (SF (s_id k) [], (list_add hyps h, [])) db) ->
  Forall2 (fun n q => In (n, q) db) (fnames (map s_id ks)) (map (fun h => (list_add hyps h, [] : list form)) hs).
Proof.
  induction ks as [|k ks IH]; intros [|h hs] L H; try discriminate; cbn; constructor.
  - exact (H 0%nat k h eq_refl eq_refl).
  - apply IH; [cbn in L; lia|]. intros j k' h' Ek Eh. exact (H (S j) k' h' Ek Eh).
Qed.
Lemma at_len {A} (l : list A) j : (j < List.length l)%nat -> exists x, at_ l j = Ok x.
Proof. intros H. unfold at_. apply nth_error_Some in H. destruct (nth_error l j); [eauto|congruence]. Qed.
Lemma step_one s hyps id st r target t l hs s' st' : grows st st' -> ids_of s' = l -> List.length hs = List.length (s_kids s') ->
  (forall j k h, nth_error (s_kids s') j = Some k -> at_ hs j = Ok h -> ready st' (list_add hyps h) k /\ (seq_depth k < seq_depth s)%nat) ->
  rule_ok (mkStep (SF id []) hyps [] r (Some target) t (fnames l)) (map (fun h => (list_add hyps h, [])) hs) = true ->
  step_good s hyps id st [LStep (mkStep (SF id []) hyps [] r (Some target) t (fnames l))] hs s' st'.
Proof.
  intros G El L H R. split; [exact G|]. split; [|split].
  - intros j k Ek. destruct (at_len hs j) as (h & Eh); [rewrite L; apply nth_error_Some; congruence|]. exists h. split; [exact Eh|]. exact (H j k h Ek Eh).
  - intros db Hk _. constructor; [|constructor]. eexists. eexists. split; [reflexivity|]. split; [|exact R]. cbn [t_prem]. rewrite <- El. apply prem_in; assumption.
  - left. reflexivity.
Qed.
Lemma kid_ready st hyps hyps' G fs k i : cov hyps G -> cov hyps' hyps -> cov hyps' fs -> ok sk [] (G ++ fs) k -> wf_seq sk (good_at st) k -> Forall (wf_form sk (good_at st)) hyps' ->
  ready st hyps' (with_id i k).
Proof.
  intros C1 C2 C3 K W F. exists (G ++ fs). split; [apply ok_with_id, K|]. split; [apply cov_app; [exact (cov_trans _ _ _ C2 C1)|exact C3]|]. split; [apply wf_with_id, W|exact F].
Qed.
Lemma la_wf P l xs : Forall P l -> Forall P xs -> Forall P (list_add l xs).
Proof. rewrite !Forall_forall. intros H K f Hf. apply la_in in Hf. destruct Hf; auto. Qed.
Definition moved (st : tst) (n : Z) : tst := mkTst (cnt st + n) (orig st) (made st) (ids st).
Lemma moved_grows st n : inv st -> 0 <= n -> grows st (moved st n).
Proof. intros (A & B & C) H. unfold moved, grows, inv. cbn. split; [lia|]. split; [lia|]. split; [lia|]. split; [lia|]. auto. Qed.
Lemma among_cov fs l m : among fs l -> cov m l -> cov m fs.
Proof. intros A C f Hf. destruct (A f Hf) as (c & Hc & S). apply (avail_same m c f S), C, Hc. Qed.
Lemma app_cov_r c h : cov (c ++ h) h. Proof. apply cov_incl. intros x Hx. apply in_or_app. auto. Qed.
Lemma app_cov_l c h : cov (c ++ h) c. Proof. apply cov_incl. intros x Hx. apply in_or_app. auto. Qed.

Lemma la_twice h l xs : cov (list_add h (list_add l xs)) xs.
Proof. exact (cov_trans _ _ _ (la_right (list_add l xs) h) (la_right xs l)). Qed.
Lemma alpha_good s hyps target st f g l fs k G r : inv st -> nth_error hyps target = Some g -> same f g ->
  alpha_of (s_rule s) f l -> s_forms s = [fs] -> among fs l -> s_kids s = [k] -> ok sk [] (G ++ fs) k -> cov hyps G ->
  wf_seq sk (good_at st) s -> Forall (wf_form sk (good_at st)) hyps -> r = alpha_name (s_rule s) ->
  exists own hs s' st', alpha_step s hyps target r st = Ok (own, hs, s', -1, st') /\ step_good s hyps (s_id s) st own hs s' st'.
Proof.
  intros V N S A Ef Am Ek K C W F ->. unfold alpha_step. rewrite (numbered_one s k st Ek). unfold forms_of. rewrite with_kids_forms, Ef. cbn [nth_error bind]. rewrite with_kids_id.
  do 4 eexists. split; [reflexivity|]. pose proof (moved_grows st 1 V ltac:(lia)) as Gr. unfold moved in Gr.
  inversion W as [? (W1 & W2 & W3 & W4) Wk]; subst. rewrite Ef in W3. rewrite Ek in Wk. inversion W3; subst. inversion Wk; subst.
  apply step_one; [exact Gr|unfold ids_of; rewrite with_kids_kids; cbn; rewrite with_id_id; reflexivity|rewrite with_kids_kids; reflexivity| |].
  - rewrite with_kids_kids. intros [|[|j]] k' h Ek' Eh; try discriminate. injection Ek' as <-. injection Eh as <-. rewrite depth_with_id. split; [|apply depth_kid; rewrite Ek; left; reflexivity].
    eapply ready_mono; [exact Gr|]. apply (kid_ready st hyps _ G fs); auto.
    + apply la_base. + apply la_twice. + auto using la_wf.
  - apply (rule_parts _ _ _ _ f g [l]); auto using alpha_parts. constructor; [|constructor]. cbn [fst snd]. split; [|reflexivity].
    apply la_cov; [apply app_cov_r|]. apply la_cov; [apply app_cov_r|]. apply (among_cov fs l); [exact Am|apply app_cov_l].
Qed.
Lemma child_hyps_ok s hyps ks : forall i, (i + List.length ks = List.length (s_forms s))%nat -> child_hyps s hyps i ks = Ok (map (list_add hyps) (skipn i (s_forms s))).
Proof.
  induction ks as [|k ks IH]; intros i E; cbn [child_hyps List.length] in *.
  - rewrite skipn_all2 by lia. reflexivity.
  - unfold forms_of. destruct (nth_error (s_forms s) i) as [fs|] eqn:En; [|apply nth_error_None in En; lia]. cbn [bind]. rewrite IH by lia. cbn [bind]. f_equal.
    clear - En. revert i En. induction (s_forms s) as [|x l IHl]; intros [|i] E; try discriminate; cbn in *; [injection E as ->; reflexivity|]. apply IHl, E.
Qed.
Lemma nth_map {A B} (g : A -> B) l j b : nth_error (map g l) j = Some b -> exists a, nth_error l j = Some a /\ b = g a.
Proof. revert j. induction l as [|x l IH]; intros [|j] E; try discriminate; cbn in *; [injection E as <-; eauto|auto]. Qed.
Lemma beta_good s hyps target st f g ls G r : inv st -> nth_error hyps target = Some g -> same f g ->
  beta_of (s_rule s) f ls -> s_rule s <> EQU -> s_rule s <> NEQU -> Forall2 among (s_forms s) ls -> Forall2 (fun fs k => ok sk [] (G ++ fs) k) (s_forms s) (s_kids s) -> cov hyps G ->
  wf_seq sk (good_at st) s -> Forall (wf_form sk (good_at st)) hyps -> r = alpha_name (s_rule s) ->
  exists own hs s' st', beta_step s hyps target r st = Ok (own, hs, s', -1, st') /\ step_good s hyps (s_id s) st own hs s' st'.
Proof.
  intros V N S A N1 N2 Am K C W F ->. unfold beta_step. rewrite numbered_is. rewrite child_hyps_ok by (rewrite with_kids_kids, with_kids_forms, number_len; cbn; symmetry; exact (Forall2_len _ _ _ K)).
  cbn [bind skipn]. rewrite with_kids_id, with_kids_forms. do 4 eexists. split; [reflexivity|]. pose proof (moved_grows st (Z.of_nat (List.length (s_kids s))) V ltac:(lia)) as Gr. unfold moved in Gr.
  inversion W as [? (W1 & W2 & W3 & W4) Wk]; subst.
  apply step_one; [exact Gr|unfold ids_of; rewrite with_kids_kids; apply number_ids|rewrite with_kids_kids, number_len, map_length; exact (Forall2_len _ _ _ K)| |].
  - rewrite with_kids_kids. intros j k' h Ek' Eh. destruct (number_nth _ _ _ _ Ek') as (k & i & Ek & ->). destruct (F2_nth _ _ _ K j k Ek) as (fs & Ef & Kk).
    unfold at_ in Eh. destruct (nth_error (map (list_add hyps) (s_forms s)) j) as [h'|] eqn:Eh'; [|discriminate]. injection Eh as ->. destruct (nth_map _ _ _ _ Eh') as (fs' & Ef' & ->). rewrite Ef in Ef'. injection Ef' as <-.
    rewrite depth_with_id. split; [|apply depth_kid; eapply nth_error_In; eauto]. eapply ready_mono; [exact Gr|]. rewrite Forall_forall in W3, Wk. apply (kid_ready st hyps _ G fs); auto.
    + apply la_base. + apply la_twice. + apply Wk. eapply nth_error_In; eauto. + apply la_wf; [exact F|]. apply la_wf; [exact F|]. apply W3. eapply nth_error_In; eauto.
  - apply (rule_parts _ _ _ _ f g ls); auto using beta_parts. clear - Am. rewrite map_map. induction Am as [|fs c l m H Am IH]; cbn; constructor; auto. cbn [fst snd]. split; [|reflexivity].
    apply la_cov; [apply app_cov_r|]. apply la_cov; [apply app_cov_r|]. apply (among_cov fs c); [exact H|apply app_cov_l].
Qed.
Lemma created_id st t : inv st -> (forall p tys l, t = Fun p tys l -> ~ sk (id_index p)) -> created_from (orig st) (made st) t = Ok t.
Proof.
  intros (_ & V & _) H. generalize (made st). induction (orig st) as [|o l IH]; intros m; [reflexivity|]. cbn [created_from]. destruct (V o (or_introl eq_refl)) as (p & tys & args & -> & Hp).
  destruct (term_eqb (Fun p tys args) t) eqn:E.
  - exfalso. destruct t as [|q tys' args'| |]; try discriminate. cbn in E. rewrite !andb_true_iff in E. destruct E as [[E _] _]. unfold id_eqb in E. apply Z.eqb_eq in E. apply (H q tys' args' eq_refl). rewrite <- E. exact Hp.
  - apply IH. intros o Ho. apply V. right. exact Ho.
Qed.
Lemma gamma_good s hyps target st f g v b u x k G r : inv st -> nth_error hyps target = Some g -> same f g ->
  gamma_by (s_rule s) f v b u x -> clean v b (rest_vars f) -> t_vars u = [] -> t_tyvars u = [] -> (forall p tys l, u = Fun p tys l -> ~ sk (id_index p)) ->
  (s_term s = Some u \/ s_term s = None /\ ~ In (tv_index v) (f_vars b)) -> s_forms s = [[x]] -> s_kids s = [k] -> ok sk [] (G ++ [x]) k -> cov hyps G ->
  wf_seq sk (good_at st) s -> Forall (wf_form sk (good_at st)) hyps -> r = quant_name (s_rule s) ->
  exists own hs s' st', gamma_step dummy s hyps target r st = Ok (own, hs, s', -1, st') /\ step_good s hyps (s_id s) st own hs s' st'.
Proof.
  intros V N S A Cl U1 U2 U3 T Ef Ek K C W F ->. unfold gamma_step. rewrite (numbered_one s k st Ek). unfold forms_of. rewrite with_kids_forms, Ef. cbn [nth_error bind].
  pose proof (moved_grows st 1 V ltac:(lia)) as Gr. unfold moved in Gr.
  assert (U : exists u', find_constant dummy (s_term (with_kids [with_id (cnt st + 1) k] s)) (mkTst (cnt st + 1) (orig st) (made st) (ids st)) = Ok u' /\ gamma_by (s_rule s) f v b u' x /\ t_vars u' = [] /\ t_tyvars u' = []).
  { rewrite with_kids_term. destruct T as [->|[-> T]].
    - exists u. split; [|auto]. cbn [find_constant]. exact (created_id _ u (grows_inv _ _ Gr) U3).
    - exists dummy. split; [reflexivity|]. split; [eapply gamma_any; eauto|]. split; reflexivity. }
  destruct U as (u' & -> & A' & U1' & U2'). cbn [bind]. rewrite with_kids_id.
  do 4 eexists. split; [reflexivity|].
  inversion W as [? (W1 & W2 & W3 & W4) Wk]; subst. rewrite Ef in W3. rewrite Ek in Wk. inversion W3; subst. inversion Wk; subst.
  apply step_one; [exact Gr|unfold ids_of; rewrite with_kids_kids; cbn; rewrite with_id_id; reflexivity|rewrite with_kids_kids; reflexivity| |].
  - rewrite with_kids_kids. intros [|[|j]] k' h Ek' Eh; try discriminate. injection Ek' as <-. assert (h = list_add hyps [x]) as -> by (unfold at_ in Eh; cbn [nth_error] in Eh; congruence). rewrite depth_with_id. split; [|apply depth_kid; rewrite Ek; left; reflexivity].
    eapply ready_mono; [exact Gr|]. apply (kid_ready st hyps _ G [x]); auto.
    + apply la_base. + apply la_twice. + auto using la_wf.
  - destruct (gamma_quant _ _ _ _ _ _ A' Cl U1' U2') as (y & Q & Sy). apply (rule_quant _ _ _ _ f g u' y x); auto using same_sym.
    + apply la_cov; [exact (app_cov_r [x] hyps)|]. apply la_cov; [exact (app_cov_r [x] hyps)|exact (app_cov_l [x] hyps)].
    + destruct A; cbn; discriminate.
Qed.
Lemma good_new st : inv st -> good_at (mkTst (cnt st) (orig st) (made st ++ [Fun (mkId (ids st) (prefix ++ dec (Z.of_nat (List.length (made st))))) [] []]) (ids st + 1)) (mkId (ids st) (prefix ++ dec (Z.of_nat (List.length (made st))))).
Proof.
  intros _. split; cbn [ids made id_index id_name]; [lia|]. intros j Hj E. apply str_app_inv in E. apply dec_inj in E; [|lia|exact Hj]. rewrite app_length. cbn. lia.
Qed.
Lemma fresh_new st hyps : Forall (wf_form sk (good_at st)) hyps -> new_constant_in (Fun (mkId (ids st) (prefix ++ dec (Z.of_nat (List.length (made st))))) [] []) (hyps ++ []) = true.
Proof.
  intros F. rewrite app_nil_r. unfold new_constant_in. apply forallb_forall. intros p Hp. apply in_flat_map in Hp. destruct Hp as (f & Hf & Hp). rewrite Forall_forall in F. destruct (F f Hf) as (_ & _ & W). destruct (W p Hp) as [W1 W2].
  cbn [id_name id_index]. apply andb_true_iff. split; apply negb_true_iff.
  - apply String.eqb_neq. intros E. specialize (W2 (Z.of_nat (List.length (made st))) ltac:(lia) E). lia.
  - apply Z.eqb_neq. lia.
Qed.
Lemma delta_good s hyps target st f g v b p tys args x k G r : inv st -> nth_error hyps target = Some g -> same f g -> GsProof_Spec.target s f -> available G f ->
  delta_by (s_rule s) f v b (Fun p tys args) x -> clean v b (rest_vars f) -> sk (id_index p) -> ~ In (id_index p) (flat_map f_funs G) ->
  s_term s = Some (Fun p tys args) -> s_forms s = [[x]] -> s_kids s = [k] -> terms_ok (Fun p tys args) k -> ok sk [id_index p] (G ++ [x]) k -> cov hyps G ->
  wf_seq sk (good_at st) s -> Forall (wf_form sk (good_at st)) hyps -> r = quant_name (s_rule s) ->
  exists own hs s' st', delta_step prefix s hyps target r st = Ok (own, hs, s', -1, st') /\ step_good s hyps (s_id s) st own hs s' st'.
Proof.
  intros V N S Tg Av A Cl Hsk Nf Et Ef Ek Tm K C W F ->. unfold delta_step. rewrite (numbered_one s k st Ek). unfold new_constant. cbn [ids made cnt orig]. rewrite with_kids_term, Et.
  set (c := mkId (ids st) (prefix ++ dec (Z.of_nat (List.length (made st))))%string). set (d := Fun c [] []). set (s1 := with_kids [with_id (cnt st + 1) k] s).
  set (st2 := mkTst (cnt st + 1) (orig st ++ [Some (Fun p tys args)]) (made st ++ [d]) (ids st + 1)).
  assert (Gr : grows st st2).
  { destruct V as (V1 & V2 & V3). unfold grows, inv, st2. cbn. split; [lia|]. split; [lia|]. rewrite app_length. split; [lia|]. split; [lia|]. split; [|intros i Hi; specialize (V3 i Hi); lia].
    intros o Ho. apply in_app_iff in Ho. destruct Ho as [Ho|[<-|[]]]; [auto|]. do 3 eexists. split; [reflexivity|exact Hsk]. }
  assert (Gc : good_at st2 c) by exact (good_new st V).
  assert (Nc : ~ sk (id_index c)) by (intros Hc; destruct V as (_ & _ & V3); specialize (V3 _ Hc); cbn in V3; lia).
  pose proof (wf_more sk _ (good_at st2) s (fun q => good_mono st st2 q Gr) W) as W'. inversion W' as [? (W1 & W2 & W3 & W4) Wk]; subst. rewrite Ef in W3. rewrite Ek in Wk. inversion W3 as [|? ? W3x _]; subst. inversion Wk as [|? ? Wkk _]; subst.
  assert (E : update (Some (Fun p tys args)) d s1 = Ok (rseq (id_index p) d s1)).
  { assert (Ks1 : s_kids s1 = [with_id (cnt st + 1) k]) by apply with_kids_kids. pose proof (ok_every _ _ _ _ (ok_with_id _ _ _ (cnt st + 1) _ K)) as Ev.
    apply (update_is sk (good_at st2) p c tys args Hsk Nc).
    - constructor; [|rewrite Ks1; constructor; [apply wf_with_id, Wkk|constructor]]. unfold s1. rewrite with_kids_hyps, with_kids_forms, with_kids_term, Ef. split; [exact W1|]. split; [|split; [exact W3|exact W4]]. intros h Hh. apply W2. apply with_kids_target in Hh. exact Hh.
    - constructor; [|rewrite Ks1; constructor; [apply terms_with_id, Tm|constructor]]. unfold s1. rewrite with_kids_term, Et. intros t Ht. injection Ht as <-. apply O_here.
    - constructor; [unfold s1; rewrite with_kids_kids, with_kids_forms, Ef; cbn; lia|]. rewrite Ks1. constructor; [|constructor]. eapply every_more; [|exact Ev]. cbn. tauto.
    - constructor; [exists f; unfold s1; apply with_kids_target; exact Tg|]. rewrite Ks1. constructor; [|constructor]. eapply every_more; [|exact Ev]. cbn. tauto. }
  rewrite E. cbn [bind]. unfold forms_of. rewrite rseq_forms. unfold s1 at 1 2. rewrite with_kids_kids, with_kids_forms, Ef. cbn [List.length firstn map nth_error bind].
  rewrite rseq_id. unfold s1 at 1. rewrite with_kids_id. set (s2 := rseq (id_index p) d s1). assert (Ks2 : s_kids s2 = [rseq (id_index p) d (with_id (cnt st + 1) k)]) by (unfold s2, s1; rewrite rseq_kids, with_kids_kids; reflexivity).
  set (x' := frep (id_index p) d x). do 4 eexists. split; [reflexivity|].
  apply step_one; [exact Gr|unfold ids_of; rewrite Ks2; cbn [map]; rewrite rseq_id, with_id_id; reflexivity|rewrite Ks2; reflexivity| |].
  - rewrite Ks2. intros [|[|j]] k' h Ek' Eh; try discriminate. injection Ek' as <-. assert (h = list_add hyps [x']) as -> by (unfold at_ in Eh; cbn [nth_error] in Eh; congruence). rewrite depth_rseq, depth_with_id. split; [|apply depth_kid; rewrite Ek; left; reflexivity].
    exists (map (frep (id_index p) d) (G ++ [x])). split; [|split; [|split]].
    + apply (ok_rep sk p c Nc [id_index p]); [apply ok_with_id, K|left; reflexivity|intros y [<-|[]]; auto|intros y []].
    + rewrite map_app. apply cov_app.
      * eapply cov_trans; [apply la_base|]. intros y Hy. apply in_map_iff in Hy. destruct Hy as (z & <- & Hz). rewrite frep_id; [apply C, Hz|]. intros Q. apply Nf. apply in_flat_map. eauto.
      * cbn [map]. fold x'. apply la_twice.
    + apply (wf_rep sk (good_at st2) p c Gc). apply wf_with_id, Wkk.
    + assert (F' : Forall (wf_form sk (good_at st2)) hyps) by (eapply Forall_impl; [|exact F]; intros y; apply wf_form_more; intros q; apply good_mono, Gr).
      apply la_wf; [exact F'|]. apply la_wf; [exact F'|]. constructor; [|constructor]. apply (wf_form_rep sk (good_at st2) p c Gc). inversion W3x; assumption.
  - assert (Ff : frep (id_index p) d f = f) by (apply frep_id, (avail_funs G); assumption).
    pose proof (frep_delta (id_index p) d (s_rule s) f v b (Fun p tys args) x eq_refl A) as A'. rewrite Ff in A'. cbn [trep] in A'. rewrite Z.eqb_refl in A'. fold x' in A'.
    assert (Cl' : clean v (frep (id_index p) d b) (rest_vars f)) by (destruct Cl as [C1 C2]; split; [exact C1|rewrite frep_binders; exact C2]).
    destruct (delta_quant _ _ _ _ _ _ A' Cl' eq_refl eq_refl) as (y & Q & Sy). apply (rule_quant _ _ _ _ f g d y x'); auto using same_sym.
    + apply la_cov; [exact (app_cov_r [x'] hyps)|]. apply la_cov; [exact (app_cov_r [x'] hyps)|exact (app_cov_l [x'] hyps)].
    + intros _. apply fresh_new, F.
Qed.

(** *** equivalences *)
Lemma numbered_two s k0 k1 st : s_kids s = [k0; k1] ->
  numbered s st = ([cnt st + 1; cnt st + 1 + 1], with_kids [with_id (cnt st + 1) k0; with_id (cnt st + 1 + 1) k1] s, mkTst (cnt st + 2) (orig st) (made st) (ids st)).
Proof. intros E. unfold numbered. rewrite E. reflexivity. Qed.
Lemma two_hyps s hyps fs0 fs1 k0 k1 : s_forms s = [fs0; fs1] -> child_hyps s hyps 0 [k0; k1] = Ok [list_add hyps fs0; list_add hyps fs1].
Proof. intros E. rewrite child_hyps_ok by (rewrite E; reflexivity). rewrite E. reflexivity. Qed.
Lemma index_positive f l i : positive f -> index_pos f l i = Ok i.
Proof. destruct f; cbn; try reflexivity. contradiction. Qed.
Lemma positive_same f g : same f g -> positive f -> positive g.
Proof. intros S. destruct f, g; try discriminate S; cbn; auto. Qed.
Lemma two_good s hyps id st own r0 r1 s' st' G fs0 fs1 k0 k1 i0 i1 : grows st st' -> s_kids s = [k0; k1] -> s_kids s' = [with_id i0 k0; with_id i1 k1] ->
  cov hyps G -> cov r0 fs0 -> cov r1 fs1 -> Forall (wf_form sk (good_at st)) hyps -> Forall (wf_form sk (good_at st)) r0 -> Forall (wf_form sk (good_at st)) r1 ->
  ok sk [] (G ++ fs0) k0 -> ok sk [] (G ++ fs1) k1 -> wf_seq sk (good_at st) k0 -> wf_seq sk (good_at st) k1 ->
  (forall db, In (SF i0 [], (list_add hyps r0, [])) db -> In (SF i1 [], (list_add hyps r1, [])) db -> incl (seqs own) db -> Forall (line_good db) own) ->
  In (SF id [], (hyps, [])) (seqs own) -> step_good s hyps id st own [r0; r1] s' st'.
Proof.
  intros Gr Ek Ek' C C0 C1 F F0 F1 K0 K1 W0 W1 H I. split; [exact Gr|]. split; [|split; [|exact I]].
  - rewrite Ek'. intros [|[|[|j]]] k E; try discriminate; cbn in E; [exists r0|exists r1]; (split; [reflexivity|]); assert (D : k = with_id i0 k0 \/ k = with_id i1 k1) by (injection E; auto); injection E as <-; rewrite depth_with_id; (split; [|apply depth_kid; rewrite Ek; cbn; auto]); (eapply ready_mono; [exact Gr|]).
    + apply (kid_ready st hyps _ G fs0); auto using la_base, la_wf. exact (cov_trans _ _ _ (la_right r0 hyps) C0).
    + apply (kid_ready st hyps _ G fs1); auto using la_base, la_wf. exact (cov_trans _ _ _ (la_right r1 hyps) C1).
  - intros db Hk Hi. apply H; [| |exact Hi].
    + specialize (Hk 0%nat (with_id i0 k0) r0). rewrite Ek', with_id_id in Hk. apply Hk; reflexivity.
    + specialize (Hk 1%nat (with_id i1 k1) r1). rewrite Ek', with_id_id in Hk. apply Hk; reflexivity.
Qed.
Lemma syms_not i f : f_syms (Not i f) = f_syms f. Proof. reflexivity. Qed.
Lemma wf_not good i f : wf_form sk good f -> wf_form sk good (Not i f). Proof. intros H. exact H. Qed.
Lemma wf_two good (mk : form -> form -> form) a b : (forall (A : Type) (g : ident -> list ty -> list term -> list A), f_collect g (mk a b) = f_collect g a ++ f_collect g b) ->
  wf_form sk good (mk a b) <-> wf_form sk good a /\ wf_form sk good b.
Proof.
  intros H. unfold wf_form, f_noid, f_vars, f_syms. rewrite !H. split.
  - intros (A & B & C). split; (split; [|split]); intros x Hx; try (apply A); try (apply B); try (apply C); apply in_or_app; auto.
  - intros [(A & B & C) (A' & B' & C')]. split; [|split]; intros x Hx; apply in_app_iff in Hx; destruct Hx; auto.
Qed.
Lemma wf_imp good i a b : wf_form sk good a -> wf_form sk good b -> wf_form sk good (Imp i a b).
Proof. intros A B. apply (wf_two good (Imp i) a b); auto. Qed.
Ltac covs := repeat first [apply la_cov | apply cov_app | apply cov_cons | apply cov_nil].

Lemma equ_good s hyps target st f g a b j fs0 fs1 k0 k1 G : inv st -> nth_error hyps target = Some g -> same f g -> f = Equ j a b -> positive a -> positive b ->
  s_forms s = [fs0; fs1] -> s_kids s = [k0; k1] -> among fs0 [neg a; neg b] -> among fs1 [a; b] -> ok sk [] (G ++ fs0) k0 -> ok sk [] (G ++ fs1) k1 -> cov hyps G ->
  wf_seq sk (good_at st) s -> Forall (wf_form sk (good_at st)) hyps ->
  exists own hs s' st', equ_step s hyps target st = Ok (own, hs, s', -1, st') /\ step_good s hyps (s_id s) st own hs s' st'.
Proof.
  intros V N Sm -> Pa Pb Ef Ek A0 A1 K0 K1 C W F. destruct (inv_equ _ _ _ _ Sm) as (j' & a' & b' & -> & Sa & Sb).
  apply (positive_same _ _ Sa) in Pa. apply (positive_same _ _ Sb) in Pb.
  assert (Wg : wf_form sk (good_at st) (Equ j' a' b')) by (rewrite Forall_forall in F; apply F; eapply nth_error_In; eauto).
  apply (wf_two _ (Equ j')) in Wg; [|reflexivity]. destruct Wg as [Wa Wb].
  assert (A0' : among fs0 [neg a'; neg b']).
  { intros x Hx. destruct (A0 x Hx) as (c & Hc & Sc). destruct Hc as [<-|[<-|[]]]; [exists (neg a')|exists (neg b')]; (split; [cbn; auto|]); (eapply same_trans; [apply same_neg, same_sym; eassumption|exact Sc]). }
  assert (A1' : among fs1 [a'; b']).
  { intros x Hx. destruct (A1 x Hx) as (c & Hc & Sc). destruct Hc as [<-|[<-|[]]]; [exists a'|exists b']; (split; [cbn; auto|]); (eapply same_trans; [apply same_sym; eassumption|exact Sc]). }
  clear A0 A1 Sm Sa Sb a b. rename a' into a, b' into b.
  inversion W as [? (W1 & W2 & W3 & W4) Wk]; subst. rewrite Ef in W3. rewrite Ek in Wk. inversion W3 as [|? ? W30 W3']; subst. inversion W3' as [|? ? W31 _]; subst. inversion Wk as [|? ? Wk0 Wk']; subst. inversion Wk' as [|? ? Wk1 _]; subst.
  unfold equ_step. rewrite (numbered_two s k0 k1 st Ek), with_kids_kids. rewrite (two_hyps _ hyps fs0 fs1) by (rewrite with_kids_forms; exact Ef). cbn [bind]. rewrite N, with_kids_id. cbv zeta.
  set (ab := Imp 0 a b). set (ba := Imp 0 b a). set (na := Not 0 a). set (nb := Not 0 b). set (h := list_add hyps [ab; ba]). set (h2 := list_add h [na]). set (h2c := list_add h2 [a]). set (h3 := list_add h [b]). set (h3c := list_add h3 [nb]).
  assert (Ch : cov h hyps) by apply la_base. assert (Cx : cov h [ab; ba]) by apply la_right. assert (C2 : cov h2 h) by apply la_base. assert (C2n : cov h2 [na]) by apply la_right.
  assert (C2c : cov h2c h2) by apply la_base. assert (C2a : cov h2c [a]) by apply la_right. assert (C3 : cov h3 h) by apply la_base. assert (C3b : cov h3 [b]) by apply la_right. assert (C3c : cov h3c h3) by apply la_base. assert (C3n : cov h3c [nb]) by apply la_right.
  destruct (get_ok ab h) as (i1 & g1 & E1 & N1 & S1); [apply Cx; cbn; auto|].
  destruct (get_ok ba h2) as (i2 & g2 & E2 & N2 & S2); [apply (cov_avail h2 h); [exact C2|]; apply Cx; cbn; auto|].
  destruct (get_ok a h2c) as (i3 & g3 & E3 & N3 & S3); [apply C2a; cbn; auto|].
  destruct (get_ok ba h3) as (i4 & g4 & E4 & N4 & S4); [apply (cov_avail h3 h); [exact C3|]; apply Cx; cbn; auto|].
  destruct (get_ok b h3c) as (i5 & g5 & E5 & N5 & S5); [apply (cov_avail h3c h3); [exact C3c|]; apply C3b; cbn; auto|].
  assert (Wab : Forall (wf_form sk (good_at st)) [ab; ba]) by (constructor; [apply wf_imp; assumption|constructor; [apply wf_imp; assumption|constructor]]).
  assert (Wh : Forall (wf_form sk (good_at st)) h) by (apply la_wf; assumption).
  assert (Wh2 : Forall (wf_form sk (good_at st)) h2) by (apply la_wf; [exact Wh|constructor; [apply wf_not, Wa|constructor]]).
  assert (Wh3 : Forall (wf_form sk (good_at st)) h3) by (apply la_wf; [exact Wh|constructor; [exact Wb|constructor]]).
  rewrite E1. cbn [bind]. rewrite E2. cbn [bind at_ nth_error Tptp_Model.upd]. rewrite E3. cbn [bind]. rewrite (index_positive a _ _ Pa). cbn [bind]. rewrite E4. cbn [bind]. rewrite E5. cbn [bind]. rewrite (index_positive b _ _ Pb). cbn [bind].
  do 4 eexists. split; [reflexivity|].
  apply (two_good s hyps (s_id s) st _ _ _ _ _ G fs0 fs1 k0 k1 (cnt st + 1) (cnt st + 1 + 1)); auto.
  - apply (moved_grows st 2 V). lia.
  - apply with_kids_kids.
  - eapply cov_trans; [apply la_base|apply (la_right fs0 hyps)].
  - eapply cov_trans; [apply la_base|apply (la_right fs1 hyps)].
  - auto using la_wf.
  - auto using la_wf.
  - intros db H0 H1 I.
    assert (D1 : In (SF (s_id s) [1%nat], (h, [])) db) by (apply I; cbn; auto 10).
    assert (D2 : In (SF (s_id s) [2%nat], (h2, [])) db) by (apply I; cbn; auto 10).
    assert (D21 : In (SF (s_id s) [2%nat; 1%nat], (h2c, [])) db) by (apply I; cbn; auto 10).
    assert (D3 : In (SF (s_id s) [3%nat], (h3, [])) db) by (apply I; cbn; auto 10).
    assert (D31 : In (SF (s_id s) [3%nat; 1%nat], (h3c, [])) db) by (apply I; cbn; auto 10).
    clear I. cbn [map]. constructor; [|constructor; [|constructor; [|constructor; [|constructor; [|constructor; [|constructor]]]]]].
    + do 2 eexists. split; [reflexivity|]. split; [constructor|]. apply (rule_hyp _ _ _ b g5); auto. apply C3n. cbn. auto.
    + do 2 eexists. split; [reflexivity|]. cbn [t_prem]. split; [repeat constructor; eassumption|]. apply (rule_parts _ _ _ _ ba g4 [[neg b]; [a]]); auto. constructor; [|constructor; [|constructor]]; cbn [fst snd]; (split; [|reflexivity]).
      * apply la_cov; [apply app_cov_r|apply app_cov_l].
      * assert (Q : cov ([a] ++ h3) hyps) by (eapply cov_trans; [apply app_cov_r|]; exact (cov_trans _ _ _ C3 Ch)).
        apply la_cov; [exact Q|]. apply la_cov; [apply la_cov; [exact Q|]|apply app_cov_r]. apply (among_cov fs1 [a; b]); [exact A1'|]. apply cov_cons; [apply app_cov_l; left; reflexivity|]. eapply cov_trans; [apply app_cov_r|exact C3b].
    + do 2 eexists. split; [reflexivity|]. split; [constructor|]. apply (rule_hyp _ _ _ a g3); auto. apply (cov_avail h2c h2); [exact C2c|]. apply C2n. cbn. auto.
    + do 2 eexists. split; [reflexivity|]. cbn [t_prem]. split; [repeat constructor; eassumption|]. apply (rule_parts _ _ _ _ ba g2 [[neg b]; [a]]); auto. constructor; [|constructor; [|constructor]]; cbn [fst snd]; (split; [|reflexivity]).
      * assert (Q : cov ([neg b] ++ h2) hyps) by (eapply cov_trans; [apply app_cov_r|]; exact (cov_trans _ _ _ C2 Ch)).
        apply la_cov; [exact Q|]. apply la_cov; [apply la_cov; [exact Q|]|apply app_cov_r]. apply (among_cov fs0 [neg a; neg b]); [exact A0'|]. apply cov_cons; [|apply app_cov_l]. apply (cov_avail _ h2); [apply app_cov_r|]. apply C2n. cbn. auto.
      * apply la_cov; [apply app_cov_r|apply app_cov_l].
    + do 2 eexists. split; [reflexivity|]. cbn [t_prem]. split; [repeat constructor; eassumption|]. apply (rule_parts _ _ _ _ ab g1 [[neg a]; [b]]); auto. constructor; [|constructor; [|constructor]]; cbn [fst snd]; (split; [|reflexivity]); (apply la_cov; [apply app_cov_r|apply app_cov_l]).
    + do 2 eexists. split; [reflexivity|]. cbn [t_prem]. split; [repeat constructor; eassumption|]. apply (rule_parts _ _ _ _ (Equ j' a b) (Equ j' a b) [[ab; ba]]); auto using same_refl. constructor; [|constructor]; cbn [fst snd]; (split; [|reflexivity]). apply la_cov; [apply app_cov_r|apply app_cov_l].
  - cbn. auto 10.
Qed.
Lemma nequ_good s hyps target st f g a b i j fs0 fs1 k0 k1 G : inv st -> nth_error hyps target = Some g -> same f g -> f = Not i (Equ j a b) ->
  s_forms s = [fs0; fs1] -> s_kids s = [k0; k1] -> among fs0 [neg a; b] -> among fs1 [a; neg b] -> ok sk [] (G ++ fs0) k0 -> ok sk [] (G ++ fs1) k1 -> cov hyps G ->
  wf_seq sk (good_at st) s -> Forall (wf_form sk (good_at st)) hyps ->
  exists own hs s' st', nequ_step s hyps target st = Ok (own, hs, s', -1, st') /\ step_good s hyps (s_id s) st own hs s' st'.
Proof.
  intros V N Sm -> Ef Ek A0 A1 K0 K1 C W F. destruct (inv_not _ _ _ Sm) as (i' & q & -> & Sm'). destruct (inv_equ _ _ _ _ Sm') as (j' & a' & b' & -> & Sa & Sb).
  assert (Wg : wf_form sk (good_at st) (Equ j' a' b')) by (rewrite Forall_forall in F; apply (F (Not i' (Equ j' a' b'))); eapply nth_error_In; eauto).
  apply (wf_two _ (Equ j')) in Wg; [|reflexivity]. destruct Wg as [Wa Wb].
  assert (A0' : among fs0 [neg a'; b']).
  { intros x Hx. destruct (A0 x Hx) as (c & Hc & Sc). destruct Hc as [<-|[<-|[]]]; [exists (neg a')|exists b']; (split; [cbn; auto|]); (eapply same_trans; [|exact Sc]); [apply same_neg|]; apply same_sym; assumption. }
  assert (A1' : among fs1 [a'; neg b']).
  { intros x Hx. destruct (A1 x Hx) as (c & Hc & Sc). destruct Hc as [<-|[<-|[]]]; [exists a'|exists (neg b')]; (split; [cbn; auto|]); (eapply same_trans; [|exact Sc]); [|apply same_neg]; apply same_sym; assumption. }
  clear A0 A1 Sm Sm' Sa Sb a b. rename a' into a, b' into b.
  inversion W as [? (W1 & W2 & W3 & W4) Wk]; subst. rewrite Ef in W3. rewrite Ek in Wk. inversion W3 as [|? ? W30 W3']; subst. inversion W3' as [|? ? W31 _]; subst. inversion Wk as [|? ? Wk0 Wk']; subst. inversion Wk' as [|? ? Wk1 _]; subst.
  unfold nequ_step. rewrite (numbered_two s k0 k1 st Ek), with_kids_kids. rewrite (two_hyps _ hyps fs0 fs1) by (rewrite with_kids_forms; exact Ef). cbn [bind]. rewrite N, with_kids_id. cbv zeta.
  set (nab := Not 0 (Imp 0 a b)). set (nba := Not 0 (Imp 0 b a)). set (h1 := list_add hyps [nab]). set (h2 := list_add hyps [nba]).
  destruct (get_ok nab h1) as (i1 & g1 & E1 & N1 & S1); [apply (la_right [nab]); cbn; auto|].
  destruct (get_ok nba h2) as (i2 & g2 & E2 & N2 & S2); [apply (la_right [nba]); cbn; auto|].
  assert (Wh1 : Forall (wf_form sk (good_at st)) h1) by (apply la_wf; [exact F|constructor; [apply wf_not, wf_imp; assumption|constructor]]).
  assert (Wh2 : Forall (wf_form sk (good_at st)) h2) by (apply la_wf; [exact F|constructor; [apply wf_not, wf_imp; assumption|constructor]]).
  rewrite E1. cbn [bind at_ nth_error Tptp_Model.upd]. rewrite E2. cbn [bind].
  do 4 eexists. split; [reflexivity|].
  apply (two_good s hyps (s_id s) st _ _ _ _ _ G fs0 fs1 k0 k1 (cnt st + 1) (cnt st + 1 + 1)); auto.
  - apply (moved_grows st 2 V). lia.
  - apply with_kids_kids.
  - eapply cov_trans; [apply la_base|apply (la_right fs0 hyps)].
  - eapply cov_trans; [apply la_base|apply (la_right fs1 hyps)].
  - auto using la_wf.
  - auto using la_wf.
  - intros db H0 H1 I.
    assert (D1 : In (SF (s_id s) [1%nat], (h1, [])) db) by (apply I; cbn; auto 10).
    assert (D2 : In (SF (s_id s) [2%nat], (h2, [])) db) by (apply I; cbn; auto 10).
    clear I. cbn [map]. constructor; [|constructor; [|constructor; [|constructor]]].
    + do 2 eexists. split; [reflexivity|]. cbn [t_prem]. split; [repeat constructor; eassumption|]. apply (rule_parts _ _ _ _ nba g2 [[b; neg a]]); auto. constructor; [|constructor]; cbn [fst snd]; (split; [|reflexivity]).
      assert (Q : cov ([b; neg a] ++ h2) hyps) by (eapply cov_trans; [apply app_cov_r|apply la_base]).
      apply la_cov; [exact Q|]. apply la_cov; [apply la_cov; [exact Q|]|apply app_cov_r]. apply (among_cov fs0 [neg a; b]); [exact A0'|]. apply cov_incl. intros x [<-|[<-|[]]]; cbn; auto.
    + do 2 eexists. split; [reflexivity|]. cbn [t_prem]. split; [repeat constructor; eassumption|]. apply (rule_parts _ _ _ _ nab g1 [[a; neg b]]); auto. constructor; [|constructor]; cbn [fst snd]; (split; [|reflexivity]).
      assert (Q : cov ([a; neg b] ++ h1) hyps) by (eapply cov_trans; [apply app_cov_r|apply la_base]).
      apply la_cov; [exact Q|]. apply la_cov; [apply la_cov; [exact Q|]|apply app_cov_r]. apply (among_cov fs1 [a; neg b]); [exact A1'|]. apply cov_incl. intros x [<-|[<-|[]]]; cbn; auto.
    + do 2 eexists. split; [reflexivity|]. cbn [t_prem]. split; [repeat constructor; eassumption|]. apply (rule_parts _ _ _ _ (Not i' (Equ j' a b)) (Not i' (Equ j' a b)) [[nab]; [nba]]); auto using same_refl.
      constructor; [|constructor; [|constructor]]; cbn [fst snd]; (split; [|reflexivity]); (apply la_cov; [apply app_cov_r|apply app_cov_l]).
  - cbn. auto 10.
Qed.

(** ** Every sequent *)
Lemma close_good s hyps st own : inv st -> s_kids s = [] -> (exists r p, own = [LStep (mkStep (SF (s_id s) []) hyps [] r p None [])] /\ rule_ok (mkStep (SF (s_id s) []) hyps [] r p None []) [] = true) ->
  step_good s hyps (s_id s) st own [hyps] s st.
Proof.
  intros V Ek (r & p & -> & R). split; [apply grows_refl, V|]. rewrite Ek. split; [intros [|j] k E; discriminate|]. split; [|left; reflexivity].
  intros db _ _. constructor; [|constructor]. do 2 eexists. split; [reflexivity|]. split; [constructor|exact R].
Qed.
Lemma make_good s hyps cur st : ready st hyps s -> inv st ->
  exists own hs s' st', make_step s hyps cur st = Ok (own, hs, s', -1, st') /\ step_good s hyps (the_id s cur) st own hs s' st'.
Proof.
  intros (G & K & C & W & F) V. unfold Tptp_Model.make_step. fold (with_cur s cur). rewrite <- (with_cur_id s cur).
  assert (K' : ok sk [] G (with_cur s cur)) by (unfold with_cur; destruct (cur =? -1); [exact K|apply ok_with_id, K]).
  assert (W' : wf_seq sk (good_at st) (with_cur s cur)) by (unfold with_cur; destruct (cur =? -1); [exact W|apply wf_with_id, W]).
  assert (D : seq_depth s = seq_depth (with_cur s cur)) by (unfold with_cur; destruct (cur =? -1); [reflexivity|rewrite depth_with_id; reflexivity]).
  assert (SD : forall t id own hs s' st', seq_depth s = seq_depth t -> step_good t hyps id st own hs s' st' -> step_good s hyps id st own hs s' st').
  { intros t id own hs s' st' E H. unfold step_good in *. rewrite E. exact H. }
  enough (Q : exists own hs s' st', (let s := with_cur s cur in do f <- target_form s; do target <- get f hyps; match s_rule s with
  | AX =>
    if is_equal id_eq f then Ok ([LStep (mkStep (SF (s_id s) []) hyps [] "congruence" None None [])], [hyps], s, -1, st)
    else
      do i <- index_pos f hyps target;
      Ok ([LStep (mkStep (SF (s_id s) []) hyps [] "leftHyp" (Some i) None [])], [hyps], s, -1, st)
  | NNOT => alpha_step s hyps target "leftNotNot" st
  | AND => alpha_step s hyps target "leftAnd" st
  | NOR => alpha_step s hyps target "leftNotOr" st
  | NIMP => alpha_step s hyps target "leftNotImplies" st
  | NAND => beta_step s hyps target "leftNotAnd" st
  | NEQU => nequ_step s hyps target st
  | OR => beta_step s hyps target "leftOr" st
  | IMP => beta_step s hyps target "leftImp2" st
  | EQU => equ_step s hyps target st
  | NALL => delta_step prefix s hyps target "leftNotAll" st
  | EX => delta_step prefix s hyps target "leftExists" st
  | ALL => gamma_step dummy s hyps target "leftForall" st
  | NEX => gamma_step dummy s hyps target "leftNotEx" st
  | W =>
    match s_term s with
    | Some t => do u <- find_constant dummy (Some t) st; Ok ([LText u], [hyps], s, -1, st)
    | None => weaken_step s hyps target st
    end
  | REWRITE =>
    let '(Seq h _ _ w _ _ _ _ _) := s in
    do _ <- at_ h w;
    do fs <- forms_of s 0;
    do _ <- at_ fs 0;
    Ok ([LNone], [], s, -1, st)
  | R | NOT => Ok ([LNone], [hyps], s, -1, st)
  end) = Ok (own, hs, s', -1, st') /\ step_good (with_cur s cur) hyps (s_id (with_cur s cur)) st own hs s' st').
  { destruct Q as (own & hs & s' & st' & E & H). exists own, hs, s', st'. split; [exact E|]. eapply SD; eauto. }
  cbv zeta. clear K W D SD. revert K' W'. generalize (with_cur s cur). clear s. intros s K W.
  assert (TG : forall f, target s f -> available G f -> target_form s = Ok f /\ exists i g, get f hyps = Ok i /\ nth_error hyps i = Some g /\ same f g).
  { intros f Tf Af. split; [unfold target_form; rewrite Tf; reflexivity|]. apply get_ok. exact (cov_avail _ _ _ C Af). }
  inversion K as [I0 G0 s0 f Er Tf Af Cl Ek|I0 G0 s0 f l fs k Tf Af A Ef Am Ek Kk|I0 G0 s0 f v b u x k Tf Af A Clean U1 U2 U3 T Ef Ek Kk|I0 G0 s0 f v b p tys args x k Tf Af A Clean Hsk Ni Nf T Ef Ek Tm Kk|I0 G0 s0 f ls Tf Af B Pos Am Kk]; subst;
    destruct (TG f Tf Af) as (-> & i & g & Eg & Ng & Sg); cbn [bind]; rewrite Eg; cbn [bind].
  - rewrite Er. assert (CL : exists h, available hyps h /\ available hyps (neg h) /\ (available hyps f) /\ exists j e, index_pos f hyps i = Ok j /\ nth_error hyps j = Some e /\ same h e).
    { pose proof (cov_avail _ _ _ C Af) as Af'. destruct Cl as [[Pf An]|(j & a & -> & Aa)].
      - exists f. split; [exact Af'|]. split; [exact (cov_avail _ _ _ C An)|]. split; [exact Af'|]. exists i, g. rewrite (index_positive f _ _ Pf). auto.
      - exists a. pose proof (cov_avail _ _ _ C Aa) as Aa'. split; [exact Aa'|]. split; [apply (avail_same _ (Not j a)); [apply same_not, same_refl|exact Af']|]. split; [exact Af'|]. cbn [index_pos]. destruct (get_ok a hyps Aa') as (i' & e & E' & N' & S'). eauto. }
    destruct CL as (h & A1 & A2 & _ & j & e & E1 & E2 & E3). rewrite E1. cbn [bind]. destruct (is_equal id_eq f).
    + do 4 eexists. split; [reflexivity|]. apply close_good; auto. do 2 eexists. split; [reflexivity|]. apply (rule_congruence _ _ h); assumption.
    + do 4 eexists. split; [reflexivity|]. apply close_good; auto. do 2 eexists. split; [reflexivity|]. apply (rule_hyp _ _ _ h e); assumption.
  - pose proof (fun r => alpha_good s hyps i st f g l fs k G r V Ng Sg A Ef Am Ek Kk C W F) as H. inversion A as [? ? Er|? ? ? Er|? ? ? ? Er|? ? ? Er]; subst; rewrite <- Er in H; apply H; reflexivity.
  - pose proof (fun r => gamma_good s hyps i st f g v b u x k G r V Ng Sg A Clean U1 U2 (fun p tys l E Hp => U3 p tys l E Hp) T Ef Ek Kk C W F) as H.
    inversion A as [? ? ? ? ? ? ? ? Er|? ? ? ? ? ? ? ? ? Er]; subst; rewrite <- Er in H; apply H; reflexivity.
  - pose proof (fun r => delta_good s hyps i st f g v b p tys args x k G r V Ng Sg Tf Af A Clean Hsk Nf T Ef Ek Tm Kk C W F) as H.
    inversion A as [? ? ? ? ? ? ? ? Er|? ? ? ? ? ? ? ? ? Er]; subst; rewrite <- Er in H; apply H; reflexivity.
  - pose proof (fun r => beta_good s hyps i st f g ls G r V Ng Sg B) as H.
    inversion B as [? ? Er|? ? ? Er|? ? ? Er|? a b Er|? ? a b Er]; subst; rewrite <- Er in H; try (apply H; auto; discriminate); clear H;
      inversion Am as [|fs0 ? fl ? A0 Am']; subst; inversion Am' as [|fs1 ? fl' ? A1 Am'']; subst; inversion Am''; subst;
      match goal with H : _ = s_forms s |- _ => rewrite <- H in Kk; rename H into Ef; symmetry in Ef end;
      inversion Kk as [|? k0 ? kl K0 Kk']; subst; inversion Kk' as [|? k1 ? kl' K1 Kk'']; subst; inversion Kk''; subst;
      match goal with H : _ = s_kids s |- _ => rename H into Ek; symmetry in Ek end.
    + destruct (Pos _ _ _ eq_refl) as [Pa Pb]. eapply equ_good; eauto.
    + eapply nequ_good; eauto.
Qed.
Lemma follow_prints n s hyps cur st : ready st hyps s -> inv st -> (seq_depth s < n)%nat -> exists ls st', follow n s hyps cur st = Ok (ls, st') /\ printed st hyps (the_id s cur) ls st'.
Proof. apply follow_good. apply make_good. Qed.

(** ** The whole text *)
Lemma ok_plain I G s good : ok sk I G s -> wf_seq sk good s -> plain s.
Proof.
  intros K. induction K using ok_ind'; intros W; inversion W as [? (W1 & _) Wk]; subst; (constructor; [split; [exact W1|]|]).
  - rewrite H. assumption.
  - rewrite H3. constructor.
  - destruct (s_rule s); try exact Logic.I; inversion H1.
  - rewrite H4 in *. constructor; [|constructor]. apply IHK. inversion Wk; assumption.
  - destruct (s_rule s); try exact Logic.I; inversion H1.
  - rewrite H8 in *. constructor; [|constructor]. apply IHK. inversion Wk; assumption.
  - destruct (s_rule s); try exact Logic.I; inversion H1.
  - rewrite H8 in *. constructor; [|constructor]. apply IHK. inversion Wk; assumption.
  - destruct (s_rule s); try exact Logic.I; inversion H1.
  - clear - H4 Wk. induction H4 as [|a b l m [_ Hb] H4 IH]; constructor; inversion Wk; subst; [apply Hb; assumption|auto].
Qed.
Lemma find_in l n q : NoDup (map fst l) -> In (n, q) l -> find_seq l n = Some q.
Proof.
  unfold find_seq. induction l as [|[m r] l IH]; intros N H; [destruct H|]. cbn [find fst]. inversion N; subst. destruct (sid_eq_dec m n) as [->|Ne].
  - destruct H as [E|H]; [injection E as <-; reflexivity|]. exfalso. match goal with X : ~ In _ _ |- _ => apply X end. apply (in_map fst) in H. exact H.
  - destruct H as [E|H]; [congruence|]. auto.
Qed.
Lemma find_all_in l ns ps : NoDup (map fst l) -> Forall2 (fun n q => In (n, q) l) ns ps -> find_all l ns = Some ps.
Proof. intros N. induction 1 as [|n q ns ps H F IH]; [reflexivity|]. cbn. rewrite (find_in l n q N H), IH. reflexivity. Qed.
Definition fresh_line (axs : list form) (l : line) : Prop := forall s, l = LStep s -> new_to s axs = true.
Lemma good_derivation ls : ordered [] ls = true -> Forall (fun l => match l with LStep _ => line_good (seqs ls) l | LText _ => False | _ => True end) ls ->
  Forall (fresh_line (axioms_of ls)) ls -> derivation ls = true.
Proof.
  intros O F N'. unfold derivation. rewrite O. cbn [andb]. destruct (ordered_nodup ls [] O) as [N _]. apply forallb_forall. intros x Hx. rewrite Forall_forall in F, N'. specialize (F x Hx). specialize (N' x Hx). destruct x; auto.
  destruct F as (s' & ps & E & F & R). injection E as <-. unfold step_ok. rewrite (find_all_in _ _ _ N F), R. exact (N' _ eq_refl).
Qed.
Lemma marked_fresh n axs l : Forall (fun f => forall p, In p (f_syms f) -> old_symbol prefix n p) axs -> marked prefix n l -> fresh_line axs l.
Proof.
  intros F M s E. unfold new_to. destruct (is_delta_rule (t_rule s)) eqn:D; [|reflexivity]. destruct (M s E D) as (i & k & A & B & ->). cbn [negb orb new_constant_in id_name id_index].
  apply forallb_forall. intros p Hp. apply in_flat_map in Hp. destruct Hp as (f & Hf & Hp). rewrite Forall_forall in F. destruct (F f Hf p Hp) as [P1 P2]. apply andb_true_iff. split; apply negb_true_iff.
  - apply String.eqb_neq. apply P2, B.
  - apply Z.eqb_neq. lia.
Qed.
Lemma plain_fresh axs s : is_delta_rule (t_rule s) = false -> fresh_line axs (LStep s).
Proof. intros H s' E. injection E as <-. unfold new_to. rewrite H. reflexivity. Qed.
Lemma cuts_fresh axs axs' c rest : forall i, Forall (fresh_line axs') (cut_axioms axs c i rest).
Proof. induction rest as [|f r IH]; intros i; [constructor|]. cbn [cut_axioms]. apply Forall_app. split; [apply IH|]. constructor; [apply plain_fresh; reflexivity|constructor]. Qed.
Lemma axioms_app a b : axioms_of (a ++ b) = axioms_of a ++ axioms_of b.
Proof. unfold axioms_of. apply flat_map_app. Qed.
Lemma axioms_steps ls db : Forall (line_good db) ls -> axioms_of ls = [].
Proof. induction 1 as [|l ls (s & ps & -> & _) H IH]; [reflexivity|exact IH]. Qed.
Lemma axioms_decl axs : axioms_of (map (fun f => LAxiom (form_index f) f) axs) = axs.
Proof. induction axs as [|f l IH]; [reflexivity|]. unfold axioms_of in *. cbn. rewrite IH. reflexivity. Qed.
Lemma seqs_decl axs f : In f axs -> In (SAx (form_index f), ([], [f])) (seqs (map (fun f => LAxiom (form_index f) f) axs)).
Proof. intros H. unfold seqs. apply in_flat_map. exists (LAxiom (form_index f) f). split; [apply (in_map (fun f => LAxiom (form_index f) f)), H|left; reflexivity]. Qed.
Lemma within_refl l : within l l = true.
Proof. apply within_cov, cov_incl, incl_refl. Qed.
Lemma within_incl l m : incl l m -> within l m = true.
Proof. intros H. apply within_cov, cov_incl, H. Qed.
Lemma cuts_axioms axs c rest : forall i, axioms_of (cut_axioms axs c i rest) = [].
Proof. induction rest as [|f r IH]; intros i; [reflexivity|]. cbn [cut_axioms]. rewrite axioms_app, IH. reflexivity. Qed.
Lemma cuts_good axs c db rest : forall i, skipn i axs = rest -> (forall f, In f rest -> In (SAx (form_index f), ([], [f])) db) -> In (SF 0 [], (axs, [c])) db ->
  incl (seqs (cut_axioms axs c i rest)) db -> Forall (line_good db) (cut_axioms axs c i rest) /\ (rest <> [] -> In (SCut i, (firstn i axs, [c])) (seqs (cut_axioms axs c i rest))).
Proof.
  induction rest as [|f r IH]; intros i E A Z I; [split; [constructor|congruence]|]. cbn [cut_axioms] in *. rewrite seqs_app in *.
  assert (E' : skipn (S i) axs = r /\ firstn (S i) axs = firstn i axs ++ [f]).
  { clear - E. revert axs E. induction i as [|i IHi]; intros [|x l] E; try discriminate; cbn in *.
    - injection E as -> ->. auto.
    - destruct (IHi l E) as [A B]. split; [exact A|]. cbn in B. rewrite B. reflexivity. }
  destruct E' as [E1 E2]. destruct (IH (S i) E1) as [B1 B2]; [intros g Hg; apply A; right; exact Hg|exact Z|intros x Hx; apply I, in_or_app; left; exact Hx|].
  split; [|intros _; apply in_or_app; right; left; reflexivity].
  apply Forall_app. split; [exact B1|]. constructor; [|constructor].
  assert (Nx : In (match r with [] => SF 0 [] | _ => SCut (S i) end, (firstn i axs ++ [f], [c])) db).
  { destruct r as [|y r]; [|apply I, in_or_app; left; rewrite <- E2; apply B2; discriminate]. rewrite <- E2. replace (firstn (S i) axs) with axs; [exact Z|]. rewrite <- (firstn_skipn (S i) axs) at 1. rewrite E1. apply app_nil_r. }
  do 2 eexists. split; [reflexivity|]. cbn [t_prem]. split; [constructor; [apply A; left; reflexivity|constructor; [exact Nx|constructor]]|].
  unfold rule_ok. cbn [t_pos t_rule t_left t_right String.eqb Ascii.eqb Bool.eqb fst snd nth_error]. rewrite !andb_true_iff. repeat split.
  - apply within_incl. intros x [<-|[]]. left. reflexivity.
  - apply within_incl. intros x Hx. apply in_app_iff in Hx. destruct Hx as [Hx|[<-|[]]]; [right; exact Hx|left; reflexivity].
  - apply within_refl.
Qed.
Lemma wf_and good j l : wf_form sk good (And j l) -> Forall (wf_form sk good) l.
Proof.
  intros (A & B & C). apply Forall_forall. intros f Hf. split; [|split]; intros x Hx; [apply A|apply B|apply C]; apply in_flat_map; exists f; split; assumption.
Qed.
Lemma main_started s axs c k : started s axs c k -> exists f, target_form s = Ok f /\ main_formula f = Ok (axs, c) /\ (match axs with [] => Ok s | _ => at_ (s_kids s) 0 end = Ok k).
Proof.
  intros [s0 i c0 T|s0 j axs0 i c0 k0 Ne R T Ek]; unfold target_form; rewrite T.
  - eexists. split; [reflexivity|]. split; reflexivity.
  - eexists. split; [reflexivity|]. cbn [main_formula]. rewrite rev_app_distr. cbn. rewrite rev_involutive. split; [reflexivity|]. rewrite Ek. destruct axs0; [congruence|reflexivity].
Qed.
Theorem tptp_good n s axs c k st : started s axs c k -> ok sk [] (axs ++ [neg c]) k -> wf_seq sk (old_symbol prefix (ids st)) s -> (seq_depth s < n)%nat ->
  0 <= cnt st -> orig st = [] -> (forall i, sk i -> i < ids st) -> NoDup (map form_index axs) ->
  exists ls st', tptp id_eq prefix dummy n s st = Ok (ls, st') /\ derivation ls = true /\ axioms_of ls = axs /\ concludes ls c.
Proof.
  intros T K W D Z0 O Sk ND. destruct (main_started s axs c k T) as (f & Ef & Em & Ek).
  set (st1 := mkTst (cnt st + 3) (orig st) (made st) (ids st)).
  assert (V : inv st1) by (unfold inv, st1; cbn; split; [lia|]; split; [rewrite O; intros o []|exact Sk]).
  assert (OG : forall p, old_symbol prefix (ids st) p -> good_at st1 p).
  { intros p [P1 P2]. split; [exact P1|]. intros j Hj E. destruct (P2 j Hj E). }
  assert (R : ready st1 (axs ++ [Not 0 c]) k /\ (seq_depth k < n)%nat).
  { apply (wf_more sk _ (good_at st1) s OG) in W. inversion W as [? (W1 & W2 & _) Wk]; subst. inversion T as [s0 i c0 Tg|s0 j axs0 i c0 k0 Ne Rl Tg Ek0]; subst.
    - split; [|exact D]. exists ([] ++ [neg c]). split; [exact K|]. split; [apply cov_incl, incl_refl|]. split; [exact W|]. constructor; [|constructor]. exact (W2 _ Tg).
    - rewrite Ek0 in Wk. inversion Wk; subst. pose proof (depth_kid s k ltac:(rewrite Ek0; left; reflexivity)) as Dk. split; [|lia].
      exists (axs ++ [neg c]). split; [exact K|]. split; [apply cov_incl, incl_refl|]. split; [assumption|]. specialize (W2 _ Tg). apply wf_and in W2. apply Forall_app in W2. destruct W2 as [F1 F2]. apply Forall_app. split; [exact F1|].
      inversion F2; subst. constructor; [assumption|constructor]. }
  destruct R as [R Dk]. destruct (follow_prints n k (axs ++ [Not 0 c]) (cnt st + 3) st1 R V Dk) as (l & st2 & El & P1 & P2 & P3).
  assert (EI : the_id k (cnt st + 3) = cnt st + 3) by (unfold the_id; destruct (Z.eqb_spec (cnt st + 3) (-1)); [lia|reflexivity]). rewrite EI in P2.
  assert (Et : exists ls, tptp id_eq prefix dummy n s st = Ok (ls, st2) /\ ls = theorem axs c ++ l ++ fst (fst (first_steps axs c st)) ++ cut_axioms axs c 0 axs).
  { eexists. split; [|reflexivity]. unfold tptp. rewrite Ef. cbn [bind]. rewrite Em. cbn [bind first_steps]. rewrite Ek. cbn [bind]. fold st1. rewrite El. reflexivity. }
  destruct Et as (ls & Et & Els). exists ls, st2. split; [exact Et|].
  assert (Pl : plain s).
  { pose proof (wf_more sk _ (good_at st1) s OG W) as W'. inversion W' as [? (W1 & W2 & _) Wk]; subst. inversion T as [s0 i c0 Tg|s0 j axs0 i c0 k0 Ne Rl Tg Ek0]; subst.
    - exact (ok_plain _ _ _ _ K W').
    - rewrite Ek0 in Wk. inversion Wk; subst. constructor; [split; [exact W1|rewrite Rl; exact I]|]. rewrite Ek0. constructor; [|constructor]. eapply ok_plain; eauto. }
  assert (Or : ordered [] ls = true).
  { apply (tptp_ordered2 id_eq prefix dummy n s st ls st2 Et Z0 Pl). intros f' axs' c' Tf' Em'. unfold target_form in Ef. rewrite Tf' in Ef. injection Ef as ->. rewrite Em in Em'. injection Em' as <- <-. exact ND. }
  assert (EA : axioms_of ls = axs) by (rewrite Els, !axioms_app; unfold theorem; rewrite axioms_app, axioms_decl, (axioms_steps l (seqs l) P3), cuts_axioms; cbn; rewrite !app_nil_r; reflexivity).
  assert (OA : Forall (fun f => forall p, In p (f_syms f) -> old_symbol prefix (ids st) p) axs).
  { inversion W as [? (_ & W2 & _) _]; subst. inversion T as [s0 i c0 Tg|s0 j axs0 i c0 k0 Ne Rl Tg Ek0]; subst; [constructor|]. specialize (W2 _ Tg). apply wf_and in W2. apply Forall_app in W2. destruct W2 as [W2 _].
    eapply Forall_impl; [|exact W2]. intros g (_ & _ & Q). exact Q. }
  assert (FL : Forall (fresh_line axs) ls).
  { rewrite Els. apply Forall_app. split; [|apply Forall_app; split; [|apply Forall_app; split]].
    - unfold theorem. apply Forall_app. split; [apply Forall_forall; intros x Hx; apply in_map_iff in Hx; destruct Hx as (g & <- & _); discriminate|]. constructor; [discriminate|constructor].
    - destruct (follow_marked _ _ _ _ _ _ _ _ _ _ El) as [_ M]. eapply Forall_impl; [|exact M]. intros x. apply marked_fresh. exact OA.
    - cbn [first_steps fst]. constructor; [apply plain_fresh; reflexivity|]. constructor; [apply plain_fresh; reflexivity|]. constructor; [apply plain_fresh; reflexivity|constructor].
    - apply cuts_fresh. }
  assert (Sq : forall x, In x (seqs l) -> In x (seqs ls)) by (intros x Hx; rewrite Els, !seqs_app; apply in_or_app; right; apply in_or_app; left; exact Hx).
  assert (S1 : forall x, In x (seqs (fst (fst (first_steps axs c st)))) -> In x (seqs ls)) by (intros x Hx; rewrite Els, !seqs_app; apply in_or_app; right; apply in_or_app; right; apply in_or_app; left; exact Hx).
  assert (CG : Forall (line_good (seqs ls)) (cut_axioms axs c 0 axs) /\ (axs <> [] -> In (SCut 0, (firstn 0 axs, [c])) (seqs (cut_axioms axs c 0 axs)))).
  { apply (cuts_good axs c (seqs ls) axs 0); [reflexivity| | |].
    - intros g Hg. rewrite Els, seqs_app. apply in_or_app. left. unfold theorem. rewrite seqs_app. apply in_or_app. left. apply seqs_decl, Hg.
    - apply S1. cbn. auto.
    - intros x Hx. rewrite Els, !seqs_app. do 3 (apply in_or_app; right). exact Hx. }
  split; [|split].
  - apply good_derivation; [exact Or| |rewrite EA; exact FL]. set (db := seqs ls) in *. clearbody db. rewrite Els. unfold theorem. rewrite !Forall_app. split; [split; [apply Forall_forall; intros x Hx; apply in_map_iff in Hx; destruct Hx as (g & <- & _); exact I|constructor; [exact I|constructor]]|].
    assert (LG : forall m, Forall (line_good db) m -> Forall (fun l => match l with LStep _ => line_good db l | LText _ => False | _ => True end) m).
    { intros m. apply Forall_impl. intros x Hx. destruct x; auto. destruct Hx as (? & ? & E & _). discriminate. }
    split; [apply LG; eapply Forall_impl; [|exact P3]; intros x; apply line_good_more; exact Sq|]. split; [|apply LG, CG].
    apply LG. cbn [first_steps fst]. constructor; [|constructor; [|constructor; [|constructor]]].
    + do 2 eexists. split; [reflexivity|]. split; [constructor|]. unfold rule_ok. cbn [t_pos t_rule t_left t_right String.eqb Ascii.eqb Bool.eqb]. rewrite nth_error_app2, Nat.sub_diag by lia. cbn [nth_error]. apply mem_avail, avail_in. left. reflexivity.
    + do 2 eexists. split; [reflexivity|]. cbn [t_prem]. split; [constructor; [apply S1; left; reflexivity|constructor]|]. unfold rule_ok. cbn [t_pos t_rule t_left t_right String.eqb Ascii.eqb Bool.eqb nth_error fst snd]. apply andb_true_iff. split; apply within_incl.
      * intros x Hx. apply in_app_iff in Hx. destruct Hx as [Hx|[<-|[]]]; [right; exact Hx|left; reflexivity].
      * intros x [<-|[]]. left. reflexivity.
    + do 2 eexists. split; [reflexivity|]. cbn [t_prem]. split; [constructor; [apply S1; right; left; reflexivity|constructor; [apply Sq, P2|constructor]]|].
      unfold rule_ok. cbn [t_pos t_rule t_left t_right String.eqb Ascii.eqb Bool.eqb nth_error fst snd]. rewrite !andb_true_iff. repeat split.
      * apply within_refl.
      * apply within_incl. intros x [<-|[<-|[]]]; cbn; auto.
      * apply within_incl. intros x Hx. apply in_app_iff in Hx. destruct Hx as [Hx|[<-|[]]]; [right; exact Hx|left; reflexivity].
  - exact EA.
  - rewrite Els. split.
    + unfold theorem. exists (map (fun f => LAxiom (form_index f) f) axs). eexists. rewrite <- app_assoc. reflexivity.
    + destruct axs as [|a axs].
      * cbn [cut_axioms first_steps fst]. rewrite app_nil_r. match goal with |- context [_ ++ _ ++ [?a; ?b; ?d]] => change [a; b; d] with ([a; b] ++ [d]) end. rewrite !app_assoc. do 2 eexists. split; [reflexivity|]. split; reflexivity.
      * cbn [cut_axioms]. rewrite !app_assoc. do 2 eexists. split; [reflexivity|]. split; reflexivity.
Qed.
Theorem tptp_ends n s axs c k st : started s axs c k -> ok sk [] (axs ++ [neg c]) k -> wf_seq sk (old_symbol prefix (ids st)) s -> (seq_depth s < n)%nat ->
  0 <= cnt st -> orig st = [] -> (forall i, sk i -> i < ids st) -> NoDup (map form_index axs) -> exists ls st', tptp id_eq prefix dummy n s st = Ok (ls, st').
Proof. intros A B C D E F G H. destruct (tptp_good n s axs c k st A B C D E F G H) as (ls & st' & T & _). eauto. Qed.
End Good.
(** the sequent that is printed for a weakening is the one of its premise *)
Lemma dropped_at f l l' : dropped f l l' -> exists i, index_of f l = Some i /\ remove_at i l = l'.
Proof.
  induction 1 as [g l S|g l l' N _ (i & E & R)]; cbn.
  - exists 0%nat. unfold same in S. rewrite S. auto.
  - exists (S i). destruct (form_eqb f g) eqn:Q; [destruct (N Q)|]. rewrite E. cbn [option_map remove_at]. rewrite R. auto.
Qed.
Lemma weaken_printed id_eq prefix dm s f hyps h cur st l hs s' c' st' : s_rule s = W -> s_term s = None -> target s f -> dropped f hyps h ->
  make_step id_eq prefix dm s hyps cur st = Ok (l, hs, s', c', st') ->
  hs = [h] /\ exists n i, index_of f hyps = Some i /\ l = [LStep (mkStep n h [] "leftWeaken" (Some i) None [SF c' []])].
Proof.
  intros Rr T Tg D. destruct (dropped_at f hyps h D) as (i & E & R).
  assert (Q : forall t, s_rule (with_id t s) = s_rule s /\ s_term (with_id t s) = s_term s /\ s_hyps (with_id t s) = s_hyps s /\ s_on (with_id t s) = s_on s) by (intros t; destruct s; cbn; auto).
  unfold make_step, target in *. set (s0 := if cur =? -1 then s else with_id cur s).
  assert (W0 : s_rule s0 = W /\ s_term s0 = None /\ nth_error (s_hyps s0) (s_on s0) = Some f).
  { subst s0. destruct (cur =? -1); [auto|]. destruct (Q cur) as (-> & -> & -> & ->). auto. }
  destruct W0 as (W1 & W2 & W3). unfold target_form. rewrite W3. cbn [bind]. unfold get. rewrite E. cbn [bind]. rewrite W1, W2. unfold weaken_step. rewrite R. intros H. injection H as <- <- <- <- <-. eauto.
Qed.
