(** The scripts (C124 to C129). *)
From Coq Require Import ZArith List Bool String Lia.
From Verif Require Import Ast_Model Ast_Proofs Sem_Spec Occ_Spec Rules_Proofs Unif_Model GsProof_Model GsProof_Spec GsProof_Sound Tptp_Model Lp_Model Lp_Spec Lp_Proofs.
Import ListNotations.
Open Scope list_scope.
Open Scope Z_scope.

(** ** The names stay well formed *)
Lemma add_forms_inv fs : forall st bs st', inv st -> add_forms fs st = (bs, st') -> inv st'.
Proof.
  induction fs as [|f fs IH]; intros st bs st' I E; cbn in E; [injection E as <- <-; exact I|].
  destruct (add_to st (KForm f)) as [n s1] eqn:A. destruct (add_forms fs s1) as [ms s2] eqn:B. injection E as <- <-. eapply IH; [|exact B]. eapply add_spec; eassumption.
Qed.
Lemma walk_inv s t b ks : (forall k, In k ks -> forall st x st', inv st -> proof_step k st = Ok (x, st') -> inv st') ->
  forall i st l st', inv st -> walk s t b i ks st = Ok (l, st') -> inv st'.
Proof.
  induction ks as [|k ks IH]; intros H i st l st' I E; [rewrite walk_nil in E; injection E as <- <-; exact I|]. rewrite walk_cons in E.
  assert (Q : forall p, (if b then add_term_to t st else Ok ([], st)) = Ok p -> inv (snd p)).
  { intros p Ep. destruct b; [|injection Ep as <-; exact I]. destruct t as [t|]; [|discriminate]. cbn in Ep. destruct (add_to st (KTerm t)) as [n s1] eqn:A. injection Ep as <-. eapply add_spec; eassumption. }
  destruct (if b then add_term_to t st else Ok ([], st)) as [p| | |]; try discriminate. cbn [bind] in E. destruct (forms_of s i) as [fs| | |]; try discriminate. cbn [bind] in E.
  destruct (add_forms fs (snd p)) as [bs s2] eqn:A. pose proof (add_forms_inv _ _ _ _ (Q p eq_refl) A) as I2. destruct (proof_step k s2) as [[x s3]| | |] eqn:P; try discriminate. cbn [bind fst snd] in E.
  destruct (walk s t b (S i) ks s3) as [[l' s4]| | |] eqn:W; try discriminate. cbn [bind fst snd] in E. injection E as <- <-.
  eapply IH; [intros k' Hk'; apply H; right; exact Hk'| |exact W]. eapply H; [left; reflexivity|exact I2|exact P].
Qed.
Lemma step_inv s : forall st t st', inv st -> proof_step s st = Ok (t, st') -> inv st'.
Proof.
  induction s as [s IH] using seq_ind'. rewrite Forall_forall in IH. intros st t st' I E. rewrite step_eq in E. destruct (target_form s) as [f| | |]; try discriminate. cbn [bind] in E.
  assert (Wk : forall b st1 l st2, inv st1 -> walk s (s_term s) b 0 (s_kids s) st1 = Ok (l, st2) -> inv st2) by (intros b st1 l st2 I1 W; eapply walk_inv; [|exact I1|exact W]; intros k Hk; apply IH; exact Hk).
  destruct (s_rule s); try discriminate; try (injection E as <- <-; exact I);
    repeat match type of E with
    | bind ?x _ = _ => let y := fresh "y" in let H := fresh "H" in destruct x as [y| | |] eqn:H; try discriminate; cbn [bind] in E
    | (let '(_, _) := ?x in _) = _ => let a := fresh "a" in let b := fresh "b" in let H := fresh "H" in destruct x as [a b] eqn:H
    | match ?x with Some _ => _ | None => _ end = _ => destruct x; try discriminate
    end; injection E as <- <-;
    match goal with W : walk _ _ _ _ _ _ = Ok ?y |- _ => destruct y; cbn [snd]; (eapply Wk; [|exact W]); try exact I; eapply add_vars_spec; eassumption end.
Qed.
Lemma reachable_inv st : reachable st -> inv st.
Proof.
  induction 1 as [|st s sc st' R IH E]; [apply inv_none|]. unfold make_script in E. destruct (target_form s) as [f| | |]; try discriminate. cbn [bind] in E.
  destruct (process_main f) as [p| | |]; try discriminate. cbn [bind] in E. destruct (imp_chain _) as [c| | |]; try discriminate. cbn [bind] in E.
  destruct (add_to st (KForm f)) as [n s1] eqn:A. destruct (proof_step s s1) as [[t s2]| | |] eqn:P; try discriminate. cbn [bind] in E. injection E as <- <-. cbn [snd].
  eapply step_inv; [|exact P]. eapply add_spec; eassumption.
Qed.

(** ** The script *)
Lemma chain_ok axs c : imp_chain (axs ++ [c]) = Ok (fold_right (fun a f => Imp 0 a f) c axs).
Proof. unfold imp_chain. rewrite rev_app_distr. cbn [rev app]. f_equal. rewrite <- fold_left_rev_right, rev_involutive. reflexivity. Qed.
Lemma process_conj j axs i c : process_main (And j (axs ++ [Not i c])) = Ok (axs, c).
Proof. cbn [process_main]. rewrite rev_app_distr. cbn [rev app]. rewrite rev_involutive. reflexivity. Qed.
Lemma process_ok f : has_conjecture f -> exists p, process_main f = Ok p.
Proof. destruct f; cbn [has_conjecture]; try (intros _; eexists; reflexivity). intros (axs & i & c & ->). rewrite process_conj. eauto. Qed.
Lemma script_shape s st sc st' : make_script s st = Ok (sc, st') -> exists axs c, target s (sc_formula sc) /\ process_main (sc_formula sc) = Ok (axs, c) /\
  sc_statement sc = fold_right (fun a f => Imp 0 a f) (Not 0 c) axs /\ exists s1, add_to st (KForm (sc_formula sc)) = (sc_var sc, s1) /\ proof_step s s1 = Ok (sc_proof sc, st').
Proof.
  unfold make_script. intros E. destruct (target_form s) as [f| | |] eqn:T; try discriminate. cbn [bind] in E. destruct (process_main f) as [[axs c]| | |] eqn:M; try discriminate. cbn [bind fst snd] in E.
  rewrite chain_ok in E. cbn [bind] in E. destruct (add_to st (KForm f)) as [n s1] eqn:A. destruct (proof_step s s1) as [[t s2]| | |] eqn:P; try discriminate. cbn [bind fst snd] in E. injection E as <- <-.
  exists axs, c. cbn [sc_formula sc_statement sc_var sc_proof]. split; [unfold target_form in T; unfold target; destruct (nth_error _ _); [injection T as <-; reflexivity|discriminate]|]. split; [exact M|]. split; [reflexivity|]. exists s1. auto.
Qed.
Lemma script_made (P : scope -> lp -> Prop) s f st : target s f -> has_conjecture f -> reachable st -> good_step P [f] s ->
  exists sc st', make_script s st = Ok (sc, st') /\ sc_formula sc = f /\ P [(sc_var sc, Some (sc_formula sc))] (sc_proof sc).
Proof.
  intros T C R H. apply reachable_inv in R. destruct (process_ok f C) as [[axs c] M]. unfold make_script. rewrite (target_eq _ _ T). cbn [bind]. rewrite M. cbn [bind fst snd]. rewrite chain_ok. cbn [bind].
  destruct (add_to st (KForm f)) as [n s1] eqn:A. destruct (add_spec _ _ _ _ R A) as (X & I & N).
  destruct (H [(n, Some f)] s1) as (t & s2 & -> & _ & _ & Pt); [exact I| | |].
  - intros m o [E|[]]. injection E as <- <-. exact N.
  - intros g [<-|[]]. exists n, f. split; [left; reflexivity|apply same_refl].
  - cbn [bind fst snd]. eexists _, _. split; [reflexivity|]. auto.
Qed.
Theorem scope_final s f st : target s f -> has_conjecture f -> printed_well [f] s -> reachable st ->
  exists sc st', make_script s st = Ok (sc, st') /\ sc_formula sc = f /\ in_scope [(sc_var sc, Some (sc_formula sc))] (sc_proof sc).
Proof. intros T C W R. eapply script_made; eauto. apply scope_ok. exact W. Qed.
Lemma target_fun s f g : target s f -> target s g -> f = g. Proof. unfold target. congruence. Qed.
Theorem accepted_final s i c st : target s (Not i c) -> propositional [Not i c] s -> reachable st ->
  exists sc st', make_script s st = Ok (sc, st') /\ accepted sc.
Proof.
  intros T W R. destruct (script_made checks s (Not i c) st T) as (sc & st' & E & F & Ck); [exact Logic.I|exact R|apply checks_ok; exact W|]. exists sc, st'. split; [exact E|].
  destruct (script_shape _ _ _ _ E) as (axs & d & T' & M & S & _). rewrite F in M. cbn in M. injection M as <- <-. split; [|exact Ck]. rewrite S, F. cbn [fold_right]. samef.
Qed.

(** ** The checker is right *)
Section Sound.
Context {I : interp} (v : val I).
Definition true_in (G : scope) : Prop := forall n g, In (n, Some g) G -> holds g v.
Lemma stands_true G x f : true_in G -> stands_for G x f -> holds f v.
Proof.
  intros T (n & g & _ & F & S). destruct (List.find _ G) as [[m o]|] eqn:E; [|discriminate]. cbn in F. injection F as ->. apply find_some in E. destruct E as [E _].
  apply (form_eqb_equiv _ _ S). eapply T. exact E.
Qed.
Lemma bind_true bs fs G : Forall2 binds bs fs -> true_in G -> (forall f, In f fs -> holds f v) -> true_in (bind_all bs G).
Proof.
  intros B T H n g K. unfold bind_all in K. apply in_app_iff in K. destruct K as [K|K]; [|eapply T; exact K]. apply in_rev in K. apply in_map_iff in K. destruct K as (b & Eb & Hb). destruct b as [m f|m t]; [|discriminate]. injection Eb as -> ->.
  assert (Q : exists f, In f fs /\ same g f) by (clear -B Hb; induction B as [|b f bs fs Hbf B IH]; [contradiction|]; destruct Hb as [->|Hb]; [exists f; split; [left; reflexivity|exact Hbf]|]; destruct (IH Hb) as (f' & Hf' & S'); exists f'; split; [right; exact Hf'|exact S']).
  destruct Q as (f & Hf & S). apply (form_eqb_equiv _ _ S). apply H. exact Hf.
Qed.
(** one of the premises of a rule has true hypotheses *)
Lemma premises_true r args m ps : const_type r args = Some (m, ps) -> holds m v -> (forall p, In p ps -> (forall f, In f p -> holds f v) -> False) -> False.
Proof.
  intros E H K. assert (L : forall p, In p ps -> fold_right (fun f P => holds f v /\ P) True p -> False).
  { intros p Hp Y. apply (K p Hp). clear -Y. induction p as [|a p IH]; intros f Hf; [contradiction|]. destruct Y as [Y1 Y2]. destruct Hf as [<-|Hf]; auto. }
  clear K. destruct r; cbn in E; try discriminate; repeat (destruct args as [|? args]; cbn in E; try discriminate); injection E as <- <-; cbn in H;
    pose proof (L _ (or_introl eq_refl)) as K1; try pose proof (L _ (or_intror (or_introl eq_refl))) as K2; clear L; cbn in K1; try cbn in K2; intuition.
Qed.
Lemma checks_sound : forall t G, checks G t -> true_in G -> False.
Proof.
  fix IH 1. intros t G H T. destruct t as [|f x y|y|x|r vs args tm kids x]; inversion H; subst.
  - match goal with A : stands_for G x f, B : stands_for G y (neg f) |- _ => exact (stands_true _ _ _ T B (stands_true _ _ _ T A)) end.
  - match goal with B : stands_for G y (neg _) |- _ => exact (stands_true _ _ _ T B Logic.I) end.
  - match goal with B : stands_for G x _ |- _ => exact (stands_true _ _ _ T B) end.
  - match goal with E : const_type _ _ = Some (?m, ?ps), S : stands_for G x _, B : Forall2 _ ps kids, C : Forall _ kids |- _ =>
      apply (premises_true _ _ _ _ E (stands_true _ _ _ T S)); clear E S H; revert ps B C end.
    induction kids as [|[bs k] kids IHk]; intros ps B C p Hp Hf; inversion B; subst; [contradiction|]. inversion C; subst. cbn [fst snd] in *. destruct Hp as [->|Hp].
    + eapply (IH k); [eassumption|]. eapply bind_true; eassumption.
    + eapply IHk; eassumption.
Qed.
End Sound.
Theorem checker_final sc : accepted sc -> unsat (sc_statement sc).
Proof.
  intros [S C] I v H. apply (checks_sound v _ _ C). intros n g [E|[]]. injection E as <- <-. apply (form_eqb_equiv _ _ S). exact H.
Qed.

(** ** The statement *)
Lemma chain_holds axs c I (v : val I) : holds (fold_right (fun a f => Imp 0 a f) c axs) v <-> ((forall a, In a axs -> holds a v) -> holds c v).
Proof.
  induction axs as [|a axs IH]; cbn [fold_right].
  - split; [auto|]. intros H. apply H. intros a [].
  - cbn [holds]. rewrite IH. split.
    + intros H K. apply H; [apply K; left; reflexivity|]. intros b Hb. apply K. right. exact Hb.
    + intros H Ha K. apply H. intros b [<-|Hb]; auto.
Qed.
Lemma last_conj axs axs' i i' c c' : axs ++ [Not i c] = axs' ++ [Not i' c'] -> axs = axs' /\ c = c'.
Proof. intros E. apply app_inj_tail in E. destruct E as [-> E]. injection E as _ ->. auto. Qed.
Theorem statement_final s st sc st' : make_script s st = Ok (sc, st') ->
  (forall i c, sc_formula sc = Not i c -> same (sc_statement sc) (sc_formula sc)) /\
  (forall j axs i c, sc_formula sc = And j (axs ++ [Not i c]) ->
     (forall I (v : val I), holds (sc_statement sc) v <-> ((forall a, In a axs -> holds a v) -> ~ holds c v)) /\
     (unsat (sc_statement sc) <-> forall I (v : val I), (forall a, In a axs -> ~ ~ holds a v) /\ ~ ~ holds c v)) /\
  (has_conjecture (sc_formula sc) -> (forall j l, sc_formula sc <> And j l) -> (forall i c, sc_formula sc <> Not i c) ->
     forall I (v : val I), holds (sc_statement sc) v <-> ~ holds (sc_formula sc) v).
Proof.
  intros E. destruct (script_shape _ _ _ _ E) as (axs & c & T & M & S & _). rewrite S. split; [|split].
  - intros i d F. rewrite F in *. cbn in M. injection M as <- <-. cbn [fold_right]. samef.
  - intros j axs' i d F. rewrite F, process_conj in M. injection M as <- <-. split; [intros I v; rewrite chain_holds; reflexivity|]. split.
    + intros U I v. specialize (U I v). rewrite chain_holds in U. cbn [holds] in U. split; [intros a Ha K; apply U; intros H; exfalso; apply K, H; exact Ha|]. intros K. apply U. intros _. exact K.
    + intros U I v H. rewrite chain_holds in H. cbn [holds] in H. destruct (U I v) as [A B]. apply B. intros Hc. clear S T.
      assert (X : ~ ~ forall a, In a axs' -> holds a v).
      { clear -A. induction axs' as [|a l IH]; [intros K; apply K; intros a []|]. intros K. apply (A a (or_introl eq_refl)). intros Ha. apply IH; [intros b Hb; apply A; right; exact Hb|]. intros Hl. apply K. intros b [<-|Hb]; auto. }
      apply X. intros Hx. exact (H Hx Hc).
  - intros _ NA NN I v. destruct (sc_formula sc); cbn in M; try (injection M as <- <-; cbn [fold_right]; reflexivity); exfalso; [eapply NA|eapply NN]; reflexivity.
Qed.

(** ** The declarations *)
Section Decl.
Variables (id_eq : Z) (show : string -> string).
Lemma clean_in set add x : In x (clean set add) <-> In x add /\ ~ In x set.
Proof.
  unfold clean. rewrite filter_In, negb_true_iff. split; intros [H K]; (split; [exact H|]).
  - intros Q. apply not_true_iff_false in K. apply K. apply existsb_exists. exists x. split; [exact Q|apply String.eqb_refl].
  - apply not_true_iff_false. rewrite existsb_exists. intros (y & Hy & E). apply String.eqb_eq in E. subst. contradiction.
Qed.
Lemma nodup_clean set add : NoDup add -> NoDup (clean set add).
Proof. unfold clean. induction 1 as [|a l N H IH]; cbn; [constructor|]. destruct (negb _); [constructor; [rewrite filter_In; tauto|exact IH]|exact IH]. Qed.
Lemma join_nodup a b : NoDup a -> NoDup b -> NoDup (a ++ clean a b).
Proof.
  intros A B. pose proof (nodup_clean a b B) as C. assert (D : forall x, In x (clean a b) -> ~ In x a) by (intros x H; apply clean_in in H; tauto). revert D C. generalize (clean a b). clear B b.
  induction A as [|x a N H IH]; intros l D C; cbn; [exact C|]. constructor; [rewrite in_app_iff; intros [K|K]; [contradiction|]; apply (D x K); left; reflexivity|]. apply IH; [|exact C]. intros y Hy K. apply (D y Hy). right. exact K.
Qed.
Lemma join_in a b x : In x (a ++ clean a b) <-> In x a \/ In x b.
Proof. rewrite in_app_iff, clean_in. destruct (in_dec string_dec x a); tauto. Qed.
Lemma add_all_ok {A} (f : A -> list string) (us : A -> list string) l : (forall x, In x l -> NoDup (f x) /\ forall d, In d (f x) <-> In d (us x)) ->
  forall start, NoDup start -> NoDup (add_all f l start) /\ forall d, In d (add_all f l start) <-> In d start \/ In d (flat_map us l).
Proof.
  induction l as [|x l IH]; intros H start S; cbn [add_all fold_left]; [split; [exact S|]; intros d; cbn; tauto|].
  destruct (H x (or_introl eq_refl)) as [N E]. destruct (IH (fun y Hy => H y (or_intror Hy)) _ (join_nodup start (f x) S N)) as [N2 E2]. split; [exact N2|].
  intros d. unfold add_all in E2. rewrite E2, join_in, E. cbn [flat_map]. rewrite in_app_iff. tauto.
Qed.
Lemma map_flat {A B C} (g : B -> C) (f : A -> list B) l : map g (flat_map f l) = flat_map (fun x => map g (f x)) l.
Proof. induction l; cbn; [reflexivity|]. rewrite map_app. congruence. Qed.
Lemma nodup1 (x : string) : NoDup [x]. Proof. constructor; [intros []|constructor]. Qed.
Lemma term_context_ok t : NoDup (term_context show t) /\ forall d, In d (term_context show t) <-> In d (map show (t_symbols t)).
Proof.
  induction t as [i|p tys l IH| |] using term_ind'; try (split; [constructor|]; intros d; cbn; tauto).
  rewrite Forall_forall in IH. cbn [term_context t_symbols map]. destruct (add_all_ok (term_context show) (fun t => map show (t_symbols t)) l IH [show (id_name p)] (nodup1 _)) as [N E].
  split; [exact N|]. intros d. rewrite E, map_flat. cbn. tauto.
Qed.
Lemma form_context_ok f : NoDup (form_context id_eq show f) /\ forall d, In d (form_context id_eq show f) <-> In d (map show (f_symbols id_eq f)).
Proof.
  assert (L : forall fs, Forall (fun f => NoDup (form_context id_eq show f) /\ forall d, In d (form_context id_eq show f) <-> In d (map show (f_symbols id_eq f))) fs ->
    NoDup (add_all (form_context id_eq show) fs []) /\ forall d, In d (add_all (form_context id_eq show) fs []) <-> In d (map show (flat_map (f_symbols id_eq) fs))).
  { intros fs H. rewrite Forall_forall in H. destruct (add_all_ok (form_context id_eq show) (fun f => map show (f_symbols id_eq f)) fs H [] (NoDup_nil _)) as [N E]. split; [exact N|]. intros d. rewrite E, map_flat. cbn. tauto. }
  assert (B : forall a b, NoDup (form_context id_eq show a) /\ (forall d, In d (form_context id_eq show a) <-> In d (map show (f_symbols id_eq a))) ->
    NoDup (form_context id_eq show b) /\ (forall d, In d (form_context id_eq show b) <-> In d (map show (f_symbols id_eq b))) ->
    let r := clean [] (form_context id_eq show a) in NoDup (r ++ clean r (form_context id_eq show b)) /\ forall d, In d (r ++ clean r (form_context id_eq show b)) <-> In d (map show (f_symbols id_eq a ++ f_symbols id_eq b))).
  { intros a b [Na Ea] [Nb Eb] r. split; [apply join_nodup; [apply nodup_clean; exact Na|exact Nb]|]. intros d. rewrite join_in, map_app, in_app_iff, Eb. unfold r. rewrite clean_in, Ea. cbn. tauto. }
  induction f using form_ind'; cbn [form_context f_symbols f_collect]; auto; try (split; [constructor|]; intros d; cbn; tauto).
  destruct (add_all_ok (term_context show) (fun t => map show (t_symbols t)) args (fun t _ => term_context_ok t) (if id_index p =? id_eq then [] else [show (id_name p)])) as [N E]; [destruct (id_index p =? id_eq); [constructor|apply nodup1]|].
    split; [exact N|]. intros d. rewrite E, map_app, in_app_iff, map_flat. destruct (id_index p =? id_eq); cbn; tauto.
Qed.
End Decl.

(** ** The names of the text *)
Section Names.
Variables (id_eq : Z) (declared N : list string).
Hypothesis N_ok : forall vs x, In x N -> meant declared vs x.
Definition names_in (f : form) : Prop := forall x, In x (free_names id_eq f) -> In x N.
Lemma walk_names s t (P : list form -> lp -> Prop) : forall ks fss i st l st', skipn i (s_forms s) = fss ->
  Forall2 (fun fs k => forall st x st', proof_step k st = Ok (x, st') -> P fs x) fss ks -> walk s t false i ks st = Ok (l, st') ->
  Forall2 (fun fs x => Forall2 (fun b f => exists n, b = BForm n f) (fst x) fs /\ P fs (snd x)) fss l.
Proof.
  induction ks as [|k ks IH]; intros fss i st l st' Ef H W; (destruct fss as [|fs fss']; inversion H as [|? ? ? ? Hk Hr]; subst); [rewrite walk_nil in W; injection W as <- <-; constructor|].
  rewrite walk_cons in W. cbn [bind] in W. assert (Q : nth_error (s_forms s) i = Some fs /\ skipn (S i) (s_forms s) = fss').
  { clear -Ef. revert Ef. generalize (s_forms s). induction i as [|i IH]; intros [|x l] E; cbn in E |- *; try discriminate; [injection E as <- <-; auto|]. apply IH. exact E. }
  destruct Q as [Q1 Q2]. unfold forms_of in W. rewrite Q1 in W. cbn [bind snd] in W. destruct (add_forms fs st) as [bs s2] eqn:A. destruct (proof_step k s2) as [[x s3]| | |] eqn:Pk; try discriminate. cbn [bind fst snd] in W.
  destruct (walk s t false (S i) ks s3) as [[l' s4]| | |] eqn:W'; try discriminate. cbn [bind fst snd] in W. injection W as <- <-. constructor; [|eapply IH; eassumption]. cbn [fst snd app]. split; [|eapply Hk; exact Pk].
  clear -A. revert st bs s2 A. induction fs as [|f fs IH]; intros st bs s2 A; cbn in A; [injection A as <- <-; constructor|]. destruct (add_to st (KForm f)) as [n s1]. destruct (add_forms fs s1) as [ms s3] eqn:B. injection A as <- <-. constructor; eauto.
Qed.
Lemma binders_ok bs : forall fs vs, Forall2 (fun b f => exists n, b = BForm n f) bs fs -> (forall f, In f fs -> names_in f) -> binders_meant id_eq declared vs bs.
Proof.
  induction bs as [|b bs IH]; intros fs vs H K; inversion H as [|? f ? fs' [n ->] H']; subst; cbn; [exact Logic.I|]. split.
  - intros x Hx. apply N_ok. apply (K f (or_introl eq_refl)). exact Hx.
  - eapply IH; [exact H'|]. intros g Hg. apply K. right. exact Hg.
Qed.
Lemma copy_names h f : copy id_eq h f -> names_in h -> names_in f.
Proof. intros [_ E] H x Hx. apply H. rewrite E. exact Hx. Qed.
Lemma alpha_names r f l args : alpha_of r f l -> names_in f -> composing r f = Ok args -> (forall g, In g args -> names_in g) /\ forall g, In g l -> names_in g.
Proof.
  intros H Hn E. unfold names_in in *. inversion H; subst; cbn in E; injection E as <-; cbn in Hn.
  - split; intros g Hg x Hx; apply Hn; apply in_flat_map; eauto.
  - split; intros g Hg x Hx; apply Hn; apply in_flat_map; [eauto|]. apply in_map_iff in Hg. destruct Hg as (a & <- & Ha). eauto.
  - split; intros g [<-|[<-|[]]] x Hx; apply Hn; apply in_or_app; cbn in Hx; auto.
  - split; intros g [<-|[]] x Hx; apply Hn; exact Hx.
Qed.
Lemma beta_names r f ls args : beta_of r f ls -> names_in f -> composing r f = Ok args -> (forall g, In g args -> names_in g) /\ forall l g, In l ls -> In g l -> names_in g.
Proof.
  intros H Hn E. unfold names_in in *. inversion H; subst; cbn in E; injection E as <-; cbn in Hn.
  - split; [intros g Hg x Hx; apply Hn; apply in_flat_map; eauto|]. intros l' g Hl Hg x Hx. apply in_map_iff in Hl. destruct Hl as (a & <- & Ha). destruct Hg as [<-|[]]. apply Hn, in_flat_map. eauto.
  - split; [intros g Hg x Hx; apply Hn; apply in_flat_map; eauto|]. intros l' g Hl Hg x Hx. apply in_map_iff in Hl. destruct Hl as (a & <- & Ha). destruct Hg as [<-|[]]. apply Hn, in_flat_map. eauto.
  - split; [intros g [<-|[<-|[]]] x Hx; apply Hn, in_or_app; auto|]. intros l g [<-|[<-|[]]] Hg x Hx; cbn in Hg; intuition (subst; apply Hn, in_or_app; cbn in Hx; auto).
  - split; [intros g [<-|[<-|[]]] x Hx; apply Hn, in_or_app; auto|]. intros l g [<-|[<-|[]]] Hg x Hx; cbn in Hg; intuition (subst; apply Hn, in_or_app; cbn in Hx; auto).
  - split; [intros g [<-|[<-|[]]] x Hx; apply Hn, in_or_app; auto|]. intros l g [<-|[<-|[]]] Hg x Hx; cbn in Hg; intuition (subst; apply Hn, in_or_app; cbn in Hx; auto).
Qed.
Theorem names_ok s : forall F, without_quantifiers id_eq F s -> (forall f, In f F -> names_in f) ->
  forall st t st', proof_step s st = Ok (t, st') -> forall vs, all_meant id_eq declared vs t.
Proof.
  induction s as [s IH] using seq_ind'. rewrite Forall_forall in IH. intros F H K st t st' E.
  assert (Pr : forall f, target s f -> names_in f -> (exists l, alpha_of (s_rule s) f l) \/ (exists l, beta_of (s_rule s) f l) ->
    (forall args, composing (s_rule s) f = Ok args -> forall g, In g args -> names_in g) -> (forall fs g, In fs (s_forms s) -> In g fs -> names_in g) ->
    Forall2 (fun fs k => without_quantifiers id_eq (F ++ fs) k) (s_forms s) (s_kids s) -> forall vs, all_meant id_eq declared vs t).
  { intros f T Nf Sh Na Nc Hk vs. destruct (prop_step s f st T Sh) as (args & m & Ea & _ & _ & Es). rewrite Es in E.
    destruct (walk s (s_term s) false 0 (s_kids s) st) as [[l s2]| | |] eqn:W; try discriminate. cbn [bind fst snd] in E. injection E as <- <-.
    pose proof (walk_names s (s_term s) (fun fs x => forall vs, (forall g, In g fs -> names_in g) -> all_meant id_eq declared vs x) (s_kids s) (s_forms s) 0%nat st l s2 eq_refl) as Q.
    assert (Q' : Forall2 (fun fs (x : list binder * lp) => Forall2 (fun b f => exists n, b = BForm n f) (fst x) fs /\ forall vs, (forall g, In g fs -> names_in g) -> all_meant id_eq declared vs (snd x)) (s_forms s) l).
    { apply Q; [|exact W]. eapply forall2_all; [exact Hk|]. intros fs k Hin Hw st0 x st1 Ex vs0 Hg. eapply (IH k Hin (F ++ fs) Hw); [|exact Ex]. intros g Hgi. apply in_app_iff in Hgi. destruct Hgi as [Hgi|Hgi]; [apply K|apply Hg]; exact Hgi. }
    constructor.
    - intros g x Hg Hx. apply N_ok. exact (Na args Ea g Hg x Hx).
    - discriminate.
    - clear -Q' Nc N_ok. induction Q' as [|fs [bs x] fss l [B P] Q' IHq]; constructor; cbn [fst snd] in *.
      + split; [eapply binders_ok; [exact B|]; intros g Hg; eapply Nc; [left; reflexivity|exact Hg]|]. apply P. intros g Hg. eapply Nc; [left; reflexivity|exact Hg].
      + apply IHq. intros fs' g Hf. apply Nc. right. exact Hf. }
  inversion H as [? ? f R T (h & Hh & Ch)|? ? f l T (h & Hh & Ch) Al Cp Hk|? ? f ls T (h & Hh & Ch) Be Cp Hk]; subst; pose proof (copy_names _ _ Ch (K _ Hh)) as Nf.
  - intros vs. rewrite step_eq, (target_eq _ _ T), R in E. cbn [bind] in E. injection E as <- _. unfold closure_axiom, pos_and_neg.
    destruct f; try constructor; try (intros x Hx; apply N_ok, Nf; exact Hx). destruct f; constructor; intros x Hx; apply N_ok, Nf; exact Hx.
  - eapply Pr; eauto.
    + intros args Ea. exact (proj1 (alpha_names _ _ _ _ Al Nf Ea)).
    + intros fs g Hfs Hg. rewrite Forall_forall in Cp. destruct (Cp fs Hfs g Hg) as (c & Hc & Cc). eapply copy_names; [exact Cc|].
      assert (Ea : exists args, composing (s_rule s) f = Ok args) by (inversion Al; eexists; reflexivity). destruct Ea as [args Ea]. destruct (alpha_names _ _ _ _ Al Nf Ea) as [_ A2]. apply A2. exact Hc.
  - eapply Pr; eauto.
    + intros args Ea. exact (proj1 (beta_names _ _ _ _ Be Nf Ea)).
    + intros fs g Hfs Hg. assert (Q : exists l, In l ls /\ forall g, In g fs -> exists c, In c l /\ copy id_eq c g).
      { clear -Cp Hfs. induction Cp as [|a b l m Hab Cp IH]; [contradiction|]. destruct Hfs as [->|Hfs]; [exists b; split; [left; reflexivity|exact Hab]|]. destruct (IH Hfs) as (x & Hx & Q). exists x. split; [right; exact Hx|exact Q]. }
      destruct Q as (l & Hl & Q). destruct (Q g Hg) as (c & Hc & Cc). eapply copy_names; [exact Cc|].
      assert (Ea : exists args, composing (s_rule s) f = Ok args) by (inversion Be; eexists; reflexivity). destruct Ea as [args Ea]. destruct (beta_names _ _ _ _ Be Nf Ea) as [_ A2]. eapply A2; eassumption.
Qed.
End Names.
Theorem names_final id_eq s f metas st sc st' : target s f -> without_quantifiers id_eq [f] s ->
  (forall x, In x (free_names id_eq f) -> In x (f_symbols id_eq f) \/ exists m, In m metas /\ x = (m_name m ++ "_" ++ dec (m_index m))%string) ->
  (forall x n, In x (free_names id_eq f) -> x <> var_name n) ->
  make_script s st = Ok (sc, st') ->
  let c := context_of id_eq (fun x => x) None f metas in script_meant id_eq (fst c ++ snd c) sc.
Proof.
  intros T W Cl Nv E c. destruct (script_shape _ _ _ _ E) as (axs & d & T' & M & S & s1 & A & P). rewrite (target_fun _ _ _ T' T) in *.
  assert (N_ok : forall vs x, In x (free_names id_eq f) -> meant (fst c ++ snd c) vs x).
  { intros vs x Hx. split.
    - apply in_app_iff. destruct (Cl x Hx) as [H|(m & Hm & ->)]; [left|right; cbn; apply in_map_iff; eauto]. cbn. apply form_context_ok. rewrite map_id. exact H.
    - intros H. apply in_map_iff in H. destruct H as (n & En & _). exact (Nv x n Hx (eq_sym En)). }
  assert (Sub : forall x, In x (free_names id_eq (sc_statement sc)) -> In x (free_names id_eq f)).
  { rewrite S. intros x Hx. assert (Q : In x (free_names id_eq d) \/ exists a, In a axs /\ In x (free_names id_eq a)).
    { clear -Hx. induction axs as [|a axs IH]; cbn in Hx; [left; exact Hx|]. apply in_app_iff in Hx. destruct Hx as [Hx|Hx]; [right; exists a; split; [left; reflexivity|exact Hx]|]. destruct (IH Hx) as [H|(b & Hb & H)]; [auto|]. right. exists b. split; [right; exact Hb|exact H]. }
    destruct f; cbn in M; try (injection M as <- <-; destruct Q as [Q|(a & [] & _)]; exact Q).
    destruct (rev fs) as [|[] r] eqn:Er; try discriminate. injection M as <- <-. assert (Ef : fs = rev r ++ [Not ix0 f]) by (rewrite <- (rev_involutive fs), Er; reflexivity). cbn [free_names]. apply in_flat_map.
    destruct Q as [Q|(a & Ha & Q)]; [exists (Not ix0 f); split; [rewrite Ef; apply in_or_app; right; left; reflexivity|exact Q]|exists a; split; [rewrite Ef; apply in_or_app; left; exact Ha|exact Q]]. }
  unfold script_meant. split; [intros x Hx; apply N_ok, Sub, Hx|]. rewrite (target_fun _ _ _ T' T). split; [intros x Hx; apply N_ok, Hx|].
  eapply (names_ok id_eq (fst c ++ snd c) (free_names id_eq f) N_ok s [f] W); [|exact P]. intros g [<-|[]] x Hx. exact Hx.
Qed.
Lemma made_conjecture f p : process_main f = Ok p -> has_conjecture f.
Proof.
  destruct f; cbn; auto. destruct (rev fs) as [|[] r] eqn:E; try discriminate. intros _. eexists (rev r), _, _. rewrite <- (rev_involutive fs), E. reflexivity.
Qed.
Theorem scope_made s f st sc st' : target s f -> printed_well [f] s -> reachable st -> make_script s st = Ok (sc, st') ->
  sc_formula sc = f /\ in_scope [(sc_var sc, Some f)] (sc_proof sc).
Proof.
  intros T W R E. destruct (script_shape _ _ _ _ E) as (axs & c & T' & M & _). pose proof (target_fun _ _ _ T' T) as F. rewrite F in M.
  destruct (scope_final s f st T (made_conjecture _ _ M) W R) as (sc2 & st2 & E2 & F2 & S). rewrite E in E2. injection E2 as <- <-. split; [exact F|]. rewrite F2 in S. exact S.
Qed.
Theorem ends_final s f st : target s f -> has_conjecture f -> printed_well [f] s -> reachable st -> exists sc st', make_script s st = Ok (sc, st').
Proof. intros T C W R. destruct (scope_final s f st T C W R) as (sc & st' & E & _). eauto. Qed.
Theorem declarations_final id_eq show registered f metas :
  let c := context_of id_eq show registered f metas in
  NoDup (fst c) /\ (forall d, In d (fst c) <-> exists g x, (g = f \/ exists l, registered = Some l /\ In g l) /\ In x (f_symbols id_eq g) /\ d = show x) /\
  snd c = map (fun m => (m_name m ++ "_" ++ dec (m_index m))%string) metas.
Proof.
  cbn. set (r := match registered with None => f | Some l => And 0 (l ++ [f]) end). destruct (form_context_ok id_eq show r) as [N E]. split; [exact N|]. split; [|reflexivity].
  intros d. rewrite E, in_map_iff. unfold r. destruct registered as [l|]; cbn [f_symbols f_collect].
  - split.
    + intros (x & <- & H). apply in_flat_map in H. destruct H as (g & Hg & Hx). exists g, x. split; [|auto]. apply in_app_iff in Hg. destruct Hg as [Hg|[<-|[]]]; [right; eauto|left; reflexivity].
    + intros (g & x & Hg & Hx & ->). exists x. split; [reflexivity|]. apply in_flat_map. exists g. split; [|exact Hx]. apply in_app_iff. destruct Hg as [->|(l' & El & Hg)]; [right; left; reflexivity|injection El as <-; left; exact Hg].
  - split; [intros (x & <- & H); eauto 6|]. intros (g & x & [->|(l & El & _)] & Hx & ->); [eauto|discriminate].
Qed.
