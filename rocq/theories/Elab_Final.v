(** The theorems about elaboration. *)
From Coq Require Import ZArith List Bool String Lia.
From Verif Require Import Ast_Model Sem_Spec Elab_Model Elab_Spec Elab_Proofs.
Import ListNotations.
Open Scope Z_scope.

(** ** One formula *)

Theorem elab_meaning fl kappa tysym scope con f g con' f' b g' :
  elab_form fl con f g = EOk (con', f', b, g') -> tab_ok g ->
  con_ok kappa tysym scope con -> wk_form kappa tysym scope f ->
  tab_ok g' /\ tab_ext g g' /\ con_ok kappa tysym scope con' /\
  forall G (I : interp) (N : ninterp (D I) (T I)) (v : val I) env,
    tab_ok G -> tab_ext g' G -> matches I N G -> defined_untyped N -> val_ok kappa scope G env v ->
    (holds f' v <-> psat N tysym f env).
Proof.
  intros H Hg Hc Hw. apply con_ok_iff in Hc. unfold elab_form in H. ebreak H. injection H as <- <- <- <-.
  destruct (elab_gen_good kappa tysym fl f scope None _ _ _ _ _ _ (or_introl eq_refl) E Hc Hw) as ((S1 & S2) & C1 & O1 & V1).
  destruct (O1 eq_refl) as (h & ->). split; [now apply S1|]. split; [exact S2|]. split; [now apply con_ok_iff|].
  intros G I N v env A1 A2 A3 A4 A5. rewrite <- (V1 G I N v env); try assumption. symmetry. apply comb_one.
Qed.

(** ** The interpretations of the names and of the numbers correspond *)

Theorem interp_of_names {DD TT : Type} (N : ninterp DD TT) g : tab_ok g ->
  exists (fnI : Z -> list TT -> list DD -> DD) (prI : Z -> list TT -> list DD -> Prop),
  forall ts tp tf tpi, matches (mkInterp DD TT fnI prI (ntc N) ts tp tf tpi) N g.
Proof.
  intros (_ & _ & Hinj & _).
  set (is_name := fun i s => match lookup s (idTable g) with Some j => j =? i | None => false end).
  set (name := fun i => match find (is_name i) (map fst (idTable g)) with Some s => s | None => EmptyString end).
  assert (Hname : forall s i, lookup s (idTable g) = Some i -> name i = s).
  { intros s i Hs. unfold name. destruct (find (is_name i) (map fst (idTable g))) as [s'|] eqn:E.
    - apply find_some in E. destruct E as (_ & E). unfold is_name in E.
      destruct (lookup s' (idTable g)) as [j|] eqn:Ej; [|discriminate]. apply Z.eqb_eq in E. subst j. eapply Hinj; eassumption.
    - exfalso. assert (Hin : In s (map fst (idTable g))).
      { clear - Hs. induction (idTable g) as [|[k j] r IH]; cbn in *; [discriminate|].
        destruct (String.eqb_spec s k) as [->|Hk]; [now left | right; now apply IH]. }
      apply (find_none _ _ E) in Hin. unfold is_name in Hin. rewrite Hs, Z.eqb_refl in Hin. discriminate. }
  exists (fun i => nfn N (name i)), (fun i => npr N (name i)). intros ts tp tf tpi. split.
  - intros s i Hs. cbn [fn pr]. rewrite (Hname _ _ Hs). split; intros; reflexivity.
  - reflexivity.
Qed.

Theorem names_of_interp (I : interp) g : exists N : ninterp (D I) (T I), matches I N g.
Proof.
  set (ix := fun s => match lookup s (idTable g) with Some i => i | None => 0 end).
  exists (mkN (fun s => fn I (ix s)) (fun s => pr I (ix s)) (tcon I)). split.
  - intros s i Hs. cbn. unfold ix. rewrite Hs. split; intros; reflexivity.
  - reflexivity.
Qed.

(** ** The derived connectives of the source *)

Theorem derived_connectives {DD TT : Type} (N : ninterp DD TT) tysym env l r :
  (psat N tysym (mk_previmp l r) env <-> (psat N tysym r env -> psat N tysym l env)) /\
  (psat N tysym (mk_pxor l r) env <->
     (psat N tysym l env /\ ~ psat N tysym r env) \/ (~ psat N tysym l env /\ psat N tysym r env)) /\
  (psat N tysym (mk_pnotor l r) env <-> ~ psat N tysym l env /\ ~ psat N tysym r env) /\
  (psat N tysym (mk_pnotand l r) env <-> ~ (psat N tysym l env /\ psat N tysym r env)).
Proof. cbn. tauto. Qed.

(** ** The statements of a file: declarations, then formulas *)

(** the kind of a symbol according to its last declaration *)
Definition sig_tysym (con : context) (s : string) : bool :=
  match lookup_ctx con s with Some t => ttype_head (result_type t) | None => false end.

Lemma con_ok_sig kappa con : (forall s t, In (s, t) con -> kappa s = None /\ top_type t) ->
  con_ok kappa (sig_tysym con) [] con.
Proof.
  intros H. assert (Hd : forall s t, declared con s t -> kappa s = None /\ top_type t).
  { intros s t (l1 & l2 & -> & _). apply H. apply in_or_app. right. now left. }
  split; [|split; [|split]].
  - intros x k t Hk Ht. destruct (Hd _ _ Ht). congruence.
  - intros x [].
  - intros s t Hk Ht. split; [now apply (Hd s t)|]. unfold sig_tysym. apply lookup_declared in Ht. now rewrite Ht.
  - intros s Hk Ht. unfold sig_tysym. apply lookup_undeclared in Ht. now rewrite Ht.
Qed.

Definition is_form (s : pstmt) : Prop := match s with PSForm _ _ => True | _ => False end.

(** What the elaboration of a formula statement must be. *)
Definition stmt_agrees (tysym : string -> bool) (G : gen) (s : pstmt) (s' : cstmt) : Prop :=
  match s, s' with
  | PSForm r f, CSForm r' f' =>
    r' = r /\
    forall (I : interp) (N : ninterp (D I) (T I)) (v : val I) env,
      matches I N G -> defined_untyped N -> (holds f' v <-> psat N tysym f env)
  | _, _ => False
  end.

Lemma elab_formulas fl kappa tysym l : forall con g l' b g',
  elab_stmts fl con l g = EOk (l', b, g') -> tab_ok g -> con_ok kappa tysym [] con ->
  Forall is_form l -> (forall r f, In (PSForm r f) l -> wk_form kappa tysym [] f) ->
  tab_ok g' /\ tab_ext g g' /\
  forall G, tab_ok G -> tab_ext g' G -> Forall2 (stmt_agrees tysym G) l l'.
Proof.
  induction l as [|s r IH]; intros con g l' b g'; cbn [elab_stmts]; intros H Hg Hc Hl Hw.
  - injection H as <- _ <-. split; [exact Hg|]. split; [split; easy|]. constructor.
  - ebreak H. injection H as <- _ <-. inversion Hl as [|? ? Hs Hr]; subst. destruct s as [ro f|ro n t|file]; try destruct Hs.
    cbn [elab_stmt] in E. ebreak E. injection E as <- <- <- <-.
    destruct (elab_meaning fl kappa tysym [] _ _ _ _ _ _ _ E1 Hg Hc (Hw ro f (or_introl eq_refl))) as (G1 & X1 & C1 & V1).
    destruct (IH _ _ _ _ _ E0 G1 C1 Hr (fun r0 f0 H0 => Hw r0 f0 (or_intror H0))) as (G2 & X2 & V2).
    split; [exact G2|]. split; [eapply ext_trans; eassumption|].
    intros G HG1 HG2. constructor; [|now apply V2]. cbn. split; [reflexivity|].
    intros I N v env A1 A2. apply (V1 G I N v env); try assumption; [eapply ext_trans; eassumption|]. intros x [].
Qed.

Lemma elab_declarations fl decls : forall con l g,
  (exists l' b g', elab_stmts fl con (map (fun d => PSType RType (fst d) (snd d)) decls ++ l) g = EOk (l', b, g')) ->
  tab_ok g ->
  exists g1 ds, tab_ok g1 /\ tab_ext g g1 /\ List.length ds = List.length decls /\
  forall l' b g', elab_stmts fl con (map (fun d => PSType RType (fst d) (snd d)) decls ++ l) g = EOk (l', b, g') ->
  exists l1 b1, l' = ds ++ l1 /\ elab_stmts fl (con ++ decls) l g1 = EOk (l1, b1, g').
Proof.
  induction decls as [|[n t] r IH]; intros con l g Hex Hg.
  - exists g, []. split; [exact Hg|]. split; [split; easy|]. split; [reflexivity|].
    intros l' b g' H. exists l', b. split; [reflexivity|]. now rewrite app_nil_r.
  - cbn [map app elab_stmts elab_stmt fst snd] in Hex |- *.
    destruct (maker_id n g) as [p g1] eqn:Ep. destruct (maker_id_step _ _ _ _ Ep) as ((S1 & S1') & _).
    destruct (elab_type true t g1) as [[t' g2]| | |] eqn:Et; cbn [ebind] in Hex |- *;
      try (exfalso; destruct Hex as (? & ? & ? & Hex); discriminate).
    destruct (elab_type_step _ _ _ _ _ Et) as (S2 & S2').
    destruct (IH (con ++ [(n, t)]) l g2) as (g3 & ds & G3 & X3 & Hlen & H3).
    { destruct Hex as (l' & b & g' & H). ebreak H. eauto. }
    { auto. }
    exists g3, (CSType RType p t' :: ds). split; [exact G3|]. split; [eapply ext_trans; [exact S1'|]; eapply ext_trans; eassumption|].
    split; [cbn; now f_equal|]. intros l' b g' H. ebreak H. injection H as <- _ <-.
    destruct (H3 _ _ _ eq_refl) as (l1 & b1 & -> & H1). exists l1, b1. split; [reflexivity|]. rewrite <- app_assoc in H1. exact H1.
Qed.

Theorem elab_file fl kappa decls l g l' b g' :
  to_internal_syntax fl (map (fun d => PSType RType (fst d) (snd d)) decls ++ l) g = EOk (l', b, g') ->
  tab_ok g -> Forall is_form l ->
  (forall s t, In (s, t) (initial_context ++ decls) -> kappa s = None) ->
  (forall s t, In (s, t) decls -> top_type t) ->
  (forall r f, In (PSForm r f) l -> wk_form kappa (sig_tysym (initial_context ++ decls)) [] f) ->
  tab_ok g' /\
  exists ds fs, l' = ds ++ fs /\ List.length ds = List.length decls /\
    Forall2 (stmt_agrees (sig_tysym (initial_context ++ decls)) g') l fs.
Proof.
  unfold to_internal_syntax. intros H Hg Hl Hk Ht Hw.
  destruct (elab_declarations fl decls initial_context l g (ex_intro _ _ (ex_intro _ _ (ex_intro _ _ H))) Hg)
    as (g1 & ds & G1 & _ & Hlen & Hrun).
  destruct (Hrun _ _ _ H) as (l1 & b1 & -> & H1).
  destruct (elab_formulas fl kappa (sig_tysym (initial_context ++ decls)) l _ _ _ _ _ H1 G1) as (G2 & X2 & V2); try assumption.
  { apply con_ok_sig. intros s t Hin. split; [now apply (Hk s t)|]. apply in_app_or in Hin. destruct Hin as [Hin|Hin].
    - clear - Hin. assert (Hall : Forall (fun p => top_type (snd p)) initial_context) by (repeat constructor).
      rewrite Forall_forall in Hall. apply (Hall (s, t) Hin).
    - now apply (Ht s t). }
  split; [exact G2|]. exists ds, l1. split; [reflexivity|]. split; [exact Hlen|]. apply V2; [exact G2|]. split; easy.
Qed.

(** ** The typed flag *)

Lemma elab_types_nil l g l' g' : elab_types l g = EOk (l', g') -> (l' = [] <-> l = []).
Proof.
  destruct l as [|a r]; cbn [elab_types]; intros H; [injection H as <- _; tauto|].
  ebreak H. injection H as <- _. split; discriminate.
Qed.

Definition flag_term (t : pterm) : Prop := forall con g con' t' b g',
  elab_term con t g = EOk (con', t', b, g') -> b = true -> typed_term t' = true.
Lemma args_flag args : Forall flag_term args -> forall a con b0 g c l b g0,
  elab_args con args a b0 g = EOk (c, l, b, g0) -> b = true -> b0 = true \/ existsb typed_term l = true.
Proof.
  intros IH. induction IH as [|t r Ht _ IHr]; intros a con b0 g c l b g0 H Hb.
  - cbn in H. injection H as _ _ H _. subst b. now left.
  - destruct a as [|ty a]; [cbn in H; injection H as _ _ H _; subst b; now left|]. cbn [elab_args] in H.
    destruct (is_ty_constr ty); [eapply IHr; eassumption|]. ebreak H. injection H as _ <- H _. subst b2.
    destruct (IHr _ _ _ _ _ _ _ _ E0 Hb) as [Hb'|Hb'].
    + apply orb_true_iff in Hb'. destruct Hb' as [Hb'|Hb']; [now left|]. right. cbn. now rewrite (Ht _ _ _ _ _ _ E Hb').
    + right. cbn. rewrite Hb'. apply orb_true_r.
Qed.

Lemma elab_term_flag t : flag_term t.
Proof.
  induction t as [x|s args def IH] using pterm_ind'; intros con g con' t' b g' H Hb.
  - cbn in H. destruct (maker_var x g). injection H as _ _ H _. subst b. discriminate.
  - rewrite elab_term_fun in H. ebreak H. cbv zeta in H. ebreak H. injection H as _ <- H _. rewrite Hb in H.
    cbn [typed_term]. destruct l1 as [|ty1 tys1]; [|reflexivity].
    assert (l0 = []) as -> by (eapply elab_types_nil; eauto). rewrite orb_false_r in H. subst b1. cbn [orb].
    destruct (is_defined s) eqn:Ed.
    + ebreak E1. injection E1 as -> ->. destruct (args_flag _ IH _ _ _ _ _ _ _ _ E0 eq_refl) as [Hf|Hf]; [discriminate | exact Hf].
    + injection E1 as E1 E1'. destruct (split_types args a); discriminate.
Qed.

Lemma defined_spec s : is_defined s = existsb (String.eqb s) tptp_defined.
Proof.
  destruct (existsb (String.eqb s) tptp_defined) eqn:E.
  - apply existsb_exists in E. destruct E as (x & Hx & E). apply String.eqb_eq in E. subst x.
    unfold tptp_defined in Hx. repeat (destruct Hx as [<-|Hx]; [reflexivity|]). destruct Hx.
  - destruct (is_defined s) eqn:Ed; [|reflexivity]. apply is_defined_in in Ed.
    assert (Ht : existsb (String.eqb s) tptp_defined = true); [|congruence].
    apply existsb_exists. exists s. split; [exact Ed | apply String.eqb_refl].
Qed.

Lemma elab_pred_flag con s args g con' f' b g' : elab_pred con s args g = EOk (con', f', b, g') ->
  (b = true -> typed_form f' = true) /\ (typed_pred f' = true -> b = true).
Proof.
  unfold elab_pred. intros H. ebreak H. cbv zeta in H. ebreak H. injection H as _ <- Hb _. subst b1.
  destruct (mk_indexed_step _ _ _ _ E4) as (_ & j & ->). destruct (maker_id_step _ _ _ _ E2) as (_ & _ & Hn).
  cbn [typed_form typed_pred]. rewrite Hn, <- defined_spec. destruct (is_defined s) eqn:Ed; cbn [negb andb].
  - split; [|discriminate]. ebreak E1. injection E1 as _ ->. intros Hb.
    destruct (args_flag args) with (2 := E0) as [Hf|Hf]; try assumption.
    + rewrite Forall_forall. intros t _. apply elab_term_flag.
    + discriminate.
    + rewrite Hf. apply orb_true_r.
  - injection E1 as <- <-. pose proof (elab_types_nil _ _ _ _ E3) as Hnil. split.
    + destruct (split_types args a); [discriminate|]. intros _. destruct l1; [|reflexivity]. destruct Hnil as (Hnil & _). discriminate (Hnil eq_refl).
    + destruct l1; [discriminate|]. intros _. destruct (split_types args a); [|reflexivity]. destruct Hnil as (_ & Hnil). discriminate (Hnil eq_refl).
Qed.

Lemma elab_gen_flag fl f : forall mode con g con' fs b g', elab_gen fl f mode con g = EOk (con', fs, b, g') ->
  (b = true -> existsb typed_form fs = true) /\ (existsb typed_pred fs = true -> b = true).
Proof.
  induction f as [| |s args|h IH|op l IHl r IHr|q vs h IH]; intros mode con g con' fs b g' H.
  - assert (H' : (let '(f, g) := mk_indexed Top g in EOk (con, [f], false, g)) = EOk (con', fs, b, g')) by (destruct mode; exact H).
    cbn in H'. injection H' as _ <- <- _. cbn. split; discriminate.
  - assert (H' : (let '(f, g) := mk_indexed Bot g in EOk (con, [f], false, g)) = EOk (con', fs, b, g')) by (destruct mode; exact H).
    cbn in H'. injection H' as _ <- <- _. cbn. split; discriminate.
  - assert (H' : (edo (con, f, b, g) <- elab_pred con s args g; EOk (con, [f], b, g)) = EOk (con', fs, b, g')) by (destruct mode; exact H).
    clear H. ebreak H'. injection H' as _ <- <- _. cbn [existsb]. rewrite !orb_false_r. eapply elab_pred_flag. eassumption.
  - assert (H' : (edo (con, hs, b, g) <- elab_gen fl h None con g;
                  let '(f, g) := mk_indexed (fun i => Not i (hd (Bot 0) hs)) g in EOk (con, [f], b, g)) = EOk (con', fs, b, g'))
      by (destruct mode; exact H).
    clear H. ebreak H'. injection H' as _ <- <- _. destruct (mk_indexed_step _ _ _ _ E0) as (_ & i & ->).
    destruct (elab_gen_one _ _ _ _ _ _ _ _ E) as (h' & ->). apply IH in E. exact E.
  - assert (Two : forall o con g con' fs b g',
      (edo (con, fl1, b1, g) <- elab_gen fl l o con g;
       edo (con, fl2, b2, g) <- elab_gen fl r o con g;
       EOk (con, fl1 ++ fl2, b1 || b2, g)) = EOk (con', fs, b, g') ->
      (b = true -> existsb typed_form fs = true) /\ (existsb typed_pred fs = true -> b = true)).
    { intros o con0 g0 con1 fs0 b0 g1 H0. ebreak H0. injection H0 as _ <- <- _. apply IHl in E. apply IHr in E0.
      rewrite !existsb_app, !orb_true_iff. tauto. }
    assert (One : forall fs b,
      (if is_assoc op
       then
         edo (con, fs, b, g) <-
           (edo (con, fl1, b1, g) <- elab_gen fl l (if fl then Some op else None) con g;
            edo (con, fl2, b2, g) <- elab_gen fl r (if fl then Some op else None) con g;
            EOk (con, fl1 ++ fl2, b1 || b2, g));
         let '(f, g) := mk_indexed (assoc_maker op fs) g in EOk (con, [f], b, g)
       else
         edo (con, fs, b, g) <-
           (edo (con, fl1, b1, g) <- elab_gen fl l None con g;
            edo (con, fl2, b2, g) <- elab_gen fl r None con g;
            EOk (con, fl1 ++ fl2, b1 || b2, g));
         let '(f, g) := mk_indexed (fun i => match op with
                                             | PBinaryImp => Imp i (hd (Bot 0) fs) (hd (Bot 0) (tl fs))
                                             | _ => Equ i (hd (Bot 0) fs) (hd (Bot 0) (tl fs))
                                             end) g in EOk (con, [f], b, g)) = EOk (con', fs, b, g') ->
      (b = true -> existsb typed_form fs = true) /\ (existsb typed_pred fs = true -> b = true)).
    { clear H fs b. intros fs b. destruct (is_assoc op) eqn:Ea; intros H.
      - destruct (edo (con, fl1, b1, g) <- elab_gen fl l (if fl then Some op else None) con g;
                  edo (con, fl2, b2, g) <- elab_gen fl r (if fl then Some op else None) con g;
                  EOk (con, fl1 ++ fl2, b1 || b2, g)) as [[[[con1 fs1] b1] g1]| | |] eqn:E; cbn [ebind] in H; try discriminate H.
        apply Two in E. destruct (mk_indexed _ g1) as [h g2] eqn:E2. injection H as _ <- <- _.
        destruct (mk_indexed_step _ _ _ _ E2) as (_ & i & ->). cbn [existsb]. rewrite !orb_false_r.
        destruct op; try discriminate Ea; exact E.
      - destruct (edo (con, fl1, b1, g) <- elab_gen fl l None con g;
                  edo (con, fl2, b2, g) <- elab_gen fl r None con g;
                  EOk (con, fl1 ++ fl2, b1 || b2, g)) as [[[[con1 fs1] b1] g1]| | |] eqn:E; cbn [ebind] in H; try discriminate H.
        pose proof E as E'. apply Two in E. destruct (mk_indexed _ g1) as [h g2] eqn:E2. injection H as _ <- <- _.
        destruct (mk_indexed_step _ _ _ _ E2) as (_ & i & ->). cbn [existsb]. rewrite !orb_false_r.
        assert (Hl : exists h1 h2, fs1 = [h1; h2]).
        { ebreak E'. injection E' as _ <- _ _. destruct (elab_gen_one _ _ _ _ _ _ _ _ E0) as (h1 & ->).
          destruct (elab_gen_one _ _ _ _ _ _ _ _ E1) as (h2 & ->). exists h1, h2. reflexivity. }
        destruct Hl as (h1 & h2 & ->). cbn [existsb] in E. rewrite !orb_false_r in E.
        destruct op; try discriminate Ea; exact E. }
    destruct mode as [o|]; [|exact (One fs b H)].
    cbn [elab_gen] in H. destruct (pbinop_eqb op o) eqn:Eo; [|exact (One fs b H)]. exact (Two _ _ _ _ _ _ _ H).
  - assert (H' : (edo (vs', g) <- pretype_vars vs g;
      if match q with PQuantEx => existsb (fun v => is_ttype (tv_ty v)) vs' | PQuantAll => false end
      then EAnomaly
      else
        edo (con, hs, b, g) <- elab_gen fl h None (con ++ vs) g;
        match vs' with
        | [] => EOk (con, hs, b, g)
        | _ => let '(f, g) := mk_indexed (fun i => match q with
                                                | PQuantAll => All i vs' (hd (Bot 0) hs)
                                                | PQuantEx => Ex i vs' (hd (Bot 0) hs)
                                                end) g in EOk (con, [f], b, g)
        end) = EOk (con', fs, b, g')) by (destruct mode; exact H).
    clear H. destruct (pretype_vars vs g) as [[vs' g1]| | |] eqn:Ev; cbn [ebind] in H'; try discriminate H'.
    match type of H' with (if ?c then _ else _) = _ => destruct c; [discriminate|] end.
    destruct (elab_gen fl h None (con ++ vs) g1) as [[[[con1 hs] b1] g2]| | |] eqn:Eh; cbn [ebind] in H'; try discriminate H'.
    destruct (elab_gen_one _ _ _ _ _ _ _ _ Eh) as (h' & ->). apply IH in Eh.
    destruct vs' as [|v1 vs1]; [injection H' as _ <- <- _; exact Eh|].
    destruct (mk_indexed _ g2) as [f1 g3] eqn:E3. injection H' as _ <- <- _.
    destruct (mk_indexed_step _ _ _ _ E3) as (_ & i & ->). destruct q; exact Eh.
Qed.

Theorem elab_flag fl con f g con' f' b g' : elab_form fl con f g = EOk (con', f', b, g') ->
  (b = true -> typed_form f' = true) /\ (typed_pred f' = true -> b = true).
Proof.
  unfold elab_form. intros H. ebreak H. injection H as _ <- <- _.
  destruct (elab_gen_one _ _ _ _ _ _ _ _ E) as (h & ->). apply elab_gen_flag in E. cbn [existsb hd] in *.
  now rewrite !orb_false_r in E.
Qed.

(** The flag of a file: the disjunction of the flags of its statements. *)
Definition stmt_typed (s : cstmt) : bool := match s with CSForm _ f => typed_form f | CSType _ _ _ => true | CSInclude _ => false end.
Definition stmt_typed_pred (s : cstmt) : bool := match s with CSForm _ f => typed_pred f | CSType _ _ _ => true | CSInclude _ => false end.
Theorem file_flag fl l : forall con g l' b g', elab_stmts fl con l g = EOk (l', b, g') ->
  (b = true -> existsb stmt_typed l' = true) /\ (existsb stmt_typed_pred l' = true -> b = true).
Proof.
  induction l as [|s r IH]; intros con g l' b g' H; cbn [elab_stmts] in H.
  - injection H as <- <- _. now split.
  - ebreak H. injection H as <- <- _. apply IH in E0. destruct s as [ro f|ro n t|file]; cbn [elab_stmt] in E.
    + ebreak E. injection E as _ <- <- _. apply elab_flag in E1. cbn [existsb stmt_typed stmt_typed_pred].
      rewrite !orb_true_iff. tauto.
    + ebreak E. injection E as _ <- <- _. cbn. auto.
    + injection E as _ <- <- _. cbn [existsb stmt_typed stmt_typed_pred orb]. exact E0.
Qed.
