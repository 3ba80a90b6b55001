(** The elaboration of a statement depends only on the declarations of the names it contains. *)
From Coq Require Import ZArith List Bool String Lia.
From Verif Require Import Ast_Model Elab_Model Elab_Spec Elab_Proofs.
Import ListNotations.
Open Scope Z_scope.

Definition agree (names : list string) (c1 c2 : context) : Prop :=
  forall s, In s names -> lookup_ctx c1 s = lookup_ctx c2 s.

Definition same_res {A} (names : list string) (r1 r2 : eres (context * A * bool * gen)) : Prop :=
  match r1, r2 with
  | EOk (c1, a1, b1, g1), EOk (c2, a2, b2, g2) => agree names c1 c2 /\ a1 = a2 /\ b1 = b2 /\ g1 = g2
  | EFatal, EFatal | EAnomaly, EAnomaly | EPanic, EPanic => True
  | _, _ => False
  end.

Lemma agree_app names c1 c2 c : agree names c1 c2 -> agree names (c1 ++ c) (c2 ++ c).
Proof. intros H s Hs. rewrite !lookup_app. destruct (lookup_ctx c s); [reflexivity | now apply H]. Qed.
Lemma agree_incl names names' c1 c2 : incl names' names -> agree names c1 c2 -> agree names' c1 c2.
Proof. intros Hi H s Hs. now apply H, Hi. Qed.

Lemma same_bind {A B} names (r1 r2 : eres (context * A * bool * gen)) (k1 k2 : context * A * bool * gen -> eres (context * B * bool * gen)) :
  same_res names r1 r2 ->
  (forall c1 c2 a b g, agree names c1 c2 -> same_res names (k1 (c1, a, b, g)) (k2 (c2, a, b, g))) ->
  same_res names (ebind r1 k1) (ebind r2 k2).
Proof.
  destruct r1 as [[[[c1 a1] b1] g1]| | |], r2 as [[[[c2 a2] b2] g2]| | |]; cbn [same_res ebind]; try easy.
  intros (Hc & <- & <- & <-) H. now apply H.
Qed.
Lemma same_bind_eq {A B} names (r : eres A) (k1 k2 : A -> eres (context * B * bool * gen)) :
  (forall a, same_res names (k1 a) (k2 a)) -> same_res names (ebind r k1) (ebind r k2).
Proof. intros H. destruct r; cbn; [apply H | exact Logic.I..]. Qed.

Lemma pretype_agree names c1 c2 l : agree names c1 c2 -> incl (flat_map pterm_names l) names -> pretype c1 l = pretype c2 l.
Proof.
  intros H. induction l as [|t r IH]; intros Hi; [reflexivity|]. cbn [pretype flat_map] in *.
  apply incl_app_inv in Hi. destruct Hi as (Ht & Hr). rewrite (IH Hr). f_equal.
  unfold pretype1. destruct t as [x|s args d]; cbn [pterm_names] in Ht; rewrite H; try reflexivity; apply Ht; now left.
Qed.

Definition head_in (names : list string) (t : term) : Prop :=
  match t with Var _ n => In n names | Fun p _ _ => In (id_name p) names | _ => True end.

Lemma elab_term_head con t g c t' b g' : elab_term con t g = EOk (c, t', b, g') -> head_in (pterm_names t) t'.
Proof.
  destruct t as [x|s args def].
  - cbn. destruct (maker_var x g). intros [= _ <- _ _]. cbn. now left.
  - rewrite elab_term_fun. intros H. ebreak H. cbv zeta in H. ebreak H. injection H as _ <- _ _.
    destruct (maker_id_step _ _ _ _ E2) as (_ & _ & Hn). cbn. left. now rewrite Hn.
Qed.

Lemma elab_args_head con l : forall tys b g c l' b' g', elab_args con l tys b g = EOk (c, l', b', g') ->
  Forall (head_in (flat_map pterm_names l)) l'.
Proof.
  revert con. induction l as [|t r IH]; intros con tys b g c l' b' g' H.
  - cbn in H. injection H as _ <- _ _. constructor.
  - destruct tys as [|ty tys]; [cbn in H; injection H as _ <- _ _; constructor|]. cbn [elab_args] in H.
    assert (Himp : forall x, head_in (flat_map pterm_names r) x -> head_in (flat_map pterm_names (t :: r)) x).
    { intros x. destruct x; cbn; try easy; intros Hx; apply in_or_app; now right. }
    destruct (is_ty_constr ty); [eapply Forall_impl; [exact Himp | eapply IH; eassumption]|].
    ebreak H. injection H as _ <- _ _. constructor.
    + apply elab_term_head in E. destruct t0; cbn in *; try easy; apply in_or_app; now left.
    + eapply Forall_impl; [exact Himp | eapply IH; eassumption].
Qed.

Lemma defined_arg_types_agree names c1 c2 args : agree names c1 c2 -> Forall (head_in names) args ->
  forall inferred, defined_arg_types c1 args inferred = defined_arg_types c2 args inferred.
Proof.
  intros H Ha. induction Ha as [|a r Ha _ IH]; intros inferred; [reflexivity|]. cbn. rewrite IH.
  assert (Hd : defined_arg_type c1 a (hd_error inferred) = defined_arg_type c2 a (hd_error inferred)); [|now rewrite Hd].
  unfold defined_arg_type. destruct a as [i|p tys args|i n|m]; cbn in Ha |- *; try reflexivity.
  - destruct (tyargs_to_terms tys); cbn; try reflexivity. now rewrite H.
  - now rewrite H.
Qed.
Lemma elab_defined_agree names c1 c2 s inferred args : agree names c1 c2 -> Forall (head_in names) args ->
  elab_defined c1 s inferred args = elab_defined c2 s inferred args.
Proof.
  intros H Ha. unfold elab_defined. destruct (assoc s defined_table) as [[[len ?] ?]|]; [|reflexivity].
  destruct (negb (Nat.eqb (List.length args) len)); [reflexivity|]. now rewrite (defined_arg_types_agree names c1 c2).
Qed.

Definition term_same (t : pterm) : Prop := forall names c1 c2 g, agree names c1 c2 -> incl (pterm_names t) names ->
  same_res names (elab_term c1 t g) (elab_term c2 t g).

Lemma elab_args_same l : Forall term_same l -> forall names tys c1 c2 b g, agree names c1 c2 -> incl (flat_map pterm_names l) names ->
  same_res names (elab_args c1 l tys b g) (elab_args c2 l tys b g).
Proof.
  intros IH. induction IH as [|t r Ht _ IHr]; intros names tys c1 c2 b g H Hi.
  - cbn. auto.
  - destruct tys as [|ty tys]; [cbn; auto|]. cbn [elab_args]. cbn [flat_map] in Hi. apply incl_app_inv in Hi. destruct Hi as (Hi1 & Hi2).
    destruct (is_ty_constr ty); [now apply IHr|].
    apply same_bind; [now apply Ht|]. intros d1 d2 a b1 g1 Hd.
    apply same_bind; [now apply IHr|]. intros e1 e2 a' b2 g2 He. cbn. auto.
Qed.

Lemma app_same l s names (Hl : Forall term_same l) c1 c2 g {B} (k1 k2 : context -> list term -> list ptype -> bool -> gen -> eres (context * B * bool * gen)) :
  agree names c1 c2 -> incl (flat_map pterm_names l) names ->
  (forall d1 d2 args ta b g, agree names d1 d2 -> same_res names (k1 d1 args ta b g) (k2 d2 args ta b g)) ->
  same_res names
    (edo tys <- pretype c1 l;
     let typed_args := split_types l tys in
     edo (con, args', b, g) <- elab_args c1 l tys false g;
     edo (typed_args, b) <-
       (if is_defined s
        then edo ta <- elab_defined con s (skipn (List.length typed_args) tys) args'; EOk (ta, b)
        else EOk (typed_args, match typed_args with [] => false | _ => true end));
     k1 con args' typed_args b g)
    (edo tys <- pretype c2 l;
     let typed_args := split_types l tys in
     edo (con, args', b, g) <- elab_args c2 l tys false g;
     edo (typed_args, b) <-
       (if is_defined s
        then edo ta <- elab_defined con s (skipn (List.length typed_args) tys) args'; EOk (ta, b)
        else EOk (typed_args, match typed_args with [] => false | _ => true end));
     k2 con args' typed_args b g).
Proof.
  intros H Hi Hk. rewrite (pretype_agree names c1 c2) by assumption. apply same_bind_eq. intros tys. cbv zeta.
  pose proof (elab_args_same l Hl names tys c1 c2 false g H Hi) as Hs.
  destruct (elab_args c1 l tys false g) as [[[[d1 args] b] g1]| | |] eqn:E1;
    destruct (elab_args c2 l tys false g) as [[[[d2 args2] b2] g2]| | |] eqn:E2; cbn [same_res] in Hs; try easy.
  destruct Hs as (Hd & <- & <- & <-). cbn [ebind].
  assert (Hh : Forall (head_in names) args).
  { eapply Forall_impl; [|eapply elab_args_head; exact E1]. intros x. destruct x; cbn; try easy; intros Hx; now apply Hi. }
  destruct (is_defined s).
  - rewrite (elab_defined_agree names d1 d2) by assumption. destruct (elab_defined d2 s _ args); cbn [ebind same_res]; try exact Logic.I. now apply Hk.
  - cbn [ebind]. now apply Hk.
Qed.

Lemma elab_term_same t : term_same t.
Proof.
  induction t as [x|s args def IH] using pterm_ind'; intros names c1 c2 g H Hi.
  - cbn. destruct (maker_var x g). cbn. auto.
  - rewrite !elab_term_fun. cbn [pterm_names] in Hi. apply incl_cons_inv in Hi. destruct Hi as (Hs & Hi).
    apply (app_same args s names IH c1 c2 g (fun con args' typed_args b g =>
      let '(p, g) := maker_id s g in
      edo (tys', g) <- elab_types typed_args g;
      edo (con, g) <- match def with
                      | Some d => edo (_, g) <- elab_type false d g; EOk (con ++ [(s, d)], g)
                      | None => EOk (con, g)
                      end;
      EOk (con, Fun p tys' args', b || match typed_args with [] => false | _ => true end, g))
      (fun con args' typed_args b g =>
      let '(p, g) := maker_id s g in
      edo (tys', g) <- elab_types typed_args g;
      edo (con, g) <- match def with
                      | Some d => edo (_, g) <- elab_type false d g; EOk (con ++ [(s, d)], g)
                      | None => EOk (con, g)
                      end;
      EOk (con, Fun p tys' args', b || match typed_args with [] => false | _ => true end, g)) H Hi).
    clear c1 c2 H. intros c1 c2 args' ta b g1 H. destruct (maker_id s g1) as [p g2]. apply same_bind_eq. intros [tys' g3].
    destruct def as [d|]; [|cbn; auto].
    destruct (elab_type false d g3) as [[t' g4]| | |]; cbn; try exact Logic.I.
    split; [now apply agree_app | auto].
Qed.

Lemma elab_pred_same s args names c1 c2 g : agree names c1 c2 -> incl (flat_map pterm_names args) names ->
  same_res names (elab_pred c1 s args g) (elab_pred c2 s args g).
Proof.
  intros H Hi. unfold elab_pred.
  assert (Hl : Forall term_same args) by (apply Forall_forall; intros t _; apply elab_term_same).
  set (k := fun (con : context) args' typed_args (b : bool) g =>
      let '(p, g) := maker_id s g in
      edo (tys', g) <- elab_types typed_args g;
      let '(f, g) := mk_indexed (fun i => Pred i p tys' args') g in
      EOk (con, f, b, g)).
  apply (app_same args s names Hl c1 c2 g k k H Hi).
  intros d1 d2 a ta b g1 Hd. unfold k. destruct (maker_id s g1) as [p g2]. apply same_bind_eq. intros [tys' g3].
  cbn. auto.
Qed.

Lemma elab_gen_same fl f : forall mode names c1 c2 g, agree names c1 c2 -> incl (pform_names f) names ->
  same_res names (elab_gen fl f mode c1 g) (elab_gen fl f mode c2 g).
Proof.
  induction f as [| |s args|h IH|op l IHl r IHr|q vs h IH]; intros mode names c1 c2 g H Hi; cbn [pform_names] in Hi.
  - assert (E : forall c, elab_gen fl PTop mode c g = let '(f, g) := mk_indexed Top g in EOk (c, [f], false, g)) by (intros c; destruct mode; reflexivity).
    rewrite !E. cbn. auto.
  - assert (E : forall c, elab_gen fl PBot mode c g = let '(f, g) := mk_indexed Bot g in EOk (c, [f], false, g)) by (intros c; destruct mode; reflexivity).
    rewrite !E. cbn. auto.
  - assert (E : forall c, elab_gen fl (PPred s args) mode c g = edo (con, f, b, g) <- elab_pred c s args g; EOk (con, [f], b, g)) by (intros c; destruct mode; reflexivity).
    rewrite !E. apply same_bind; [now apply elab_pred_same|]. intros d1 d2 a b g1 Hd. cbn. auto.
  - assert (E : forall c, elab_gen fl (PNeg h) mode c g =
                  edo (con, hs, b, g) <- elab_gen fl h None c g;
                  let '(f, g) := mk_indexed (fun i => Not i (hd (Bot 0) hs)) g in EOk (con, [f], b, g)) by (intros c; destruct mode; reflexivity).
    rewrite !E. apply same_bind; [now apply IH|]. intros d1 d2 a b g1 Hd. cbn. auto.
  - apply incl_app_inv in Hi. destruct Hi as (Hl & Hr).
    assert (Two : forall o c1 c2 g, agree names c1 c2 ->
      same_res names
      (edo (con, fl1, b1, g) <- elab_gen fl l o c1 g;
       edo (con, fl2, b2, g) <- elab_gen fl r o con g;
       EOk (con, fl1 ++ fl2, b1 || b2, g))
      (edo (con, fl1, b1, g) <- elab_gen fl l o c2 g;
       edo (con, fl2, b2, g) <- elab_gen fl r o con g;
       EOk (con, fl1 ++ fl2, b1 || b2, g))).
    { intros o e1 e2 g0 He. apply same_bind; [now apply IHl|]. intros d1 d2 a b g1 Hd.
      apply same_bind; [now apply IHr|]. intros d3 d4 a' b' g2 Hd'. cbn. auto. }
    assert (One : same_res names
      (if is_assoc op
       then
         edo (con, fs, b, g) <-
           (edo (con, fl1, b1, g) <- elab_gen fl l (if fl then Some op else None) c1 g;
            edo (con, fl2, b2, g) <- elab_gen fl r (if fl then Some op else None) con g;
            EOk (con, fl1 ++ fl2, b1 || b2, g));
         let '(f, g) := mk_indexed (assoc_maker op fs) g in EOk (con, [f], b, g)
       else
         edo (con, fs, b, g) <-
           (edo (con, fl1, b1, g) <- elab_gen fl l None c1 g;
            edo (con, fl2, b2, g) <- elab_gen fl r None con g;
            EOk (con, fl1 ++ fl2, b1 || b2, g));
         let '(f, g) := mk_indexed (fun i => match op with
                                             | PBinaryImp => Imp i (hd (Bot 0) fs) (hd (Bot 0) (tl fs))
                                             | _ => Equ i (hd (Bot 0) fs) (hd (Bot 0) (tl fs))
                                             end) g in EOk (con, [f], b, g))
      (if is_assoc op
       then
         edo (con, fs, b, g) <-
           (edo (con, fl1, b1, g) <- elab_gen fl l (if fl then Some op else None) c2 g;
            edo (con, fl2, b2, g) <- elab_gen fl r (if fl then Some op else None) con g;
            EOk (con, fl1 ++ fl2, b1 || b2, g));
         let '(f, g) := mk_indexed (assoc_maker op fs) g in EOk (con, [f], b, g)
       else
         edo (con, fs, b, g) <-
           (edo (con, fl1, b1, g) <- elab_gen fl l None c2 g;
            edo (con, fl2, b2, g) <- elab_gen fl r None con g;
            EOk (con, fl1 ++ fl2, b1 || b2, g));
         let '(f, g) := mk_indexed (fun i => match op with
                                             | PBinaryImp => Imp i (hd (Bot 0) fs) (hd (Bot 0) (tl fs))
                                             | _ => Equ i (hd (Bot 0) fs) (hd (Bot 0) (tl fs))
                                             end) g in EOk (con, [f], b, g))).
    { destruct (is_assoc op); (apply same_bind; [now apply Two|]); intros d1 d2 a b g1 Hd; cbn; auto. }
    destruct mode as [o|]; [|exact One]. cbn [elab_gen]. destruct (pbinop_eqb op o); [now apply Two | exact One].
  - assert (E : forall c, elab_gen fl (PQuant q vs h) mode c g =
      edo (vs', g) <- pretype_vars vs g;
      if match q with PQuantEx => existsb (fun v => is_ttype (tv_ty v)) vs' | PQuantAll => false end
      then EAnomaly
      else
        edo (con, hs, b, g) <- elab_gen fl h None (c ++ vs) g;
        match vs' with
        | [] => EOk (con, hs, b, g)
        | _ => let '(f, g) := mk_indexed (fun i => match q with
                                                | PQuantAll => All i vs' (hd (Bot 0) hs)
                                                | PQuantEx => Ex i vs' (hd (Bot 0) hs)
                                                end) g in EOk (con, [f], b, g)
        end) by (intros c; destruct mode; reflexivity).
    rewrite !E. clear E. apply same_bind_eq. intros [vs' g1].
    match goal with |- context [if ?c then _ else _] => destruct c; [exact Logic.I|] end.
    apply same_bind; [apply IH; [now apply agree_app | exact Hi]|]. intros d1 d2 a b g2 Hd. destruct vs'; cbn; auto.
Qed.

Lemma elab_form_same fl f names c1 c2 g : agree names c1 c2 -> incl (pform_names f) names ->
  same_res names (elab_form fl c1 f g) (elab_form fl c2 f g).
Proof.
  intros H Hi. unfold elab_form. apply same_bind; [now apply elab_gen_same|]. intros d1 d2 a b g1 Hd. cbn. auto.
Qed.

Lemma elab_stmts_same fl l : forall names c1 c2 g, agree names c1 c2 -> incl (flat_map pstmt_names l) names ->
  elab_stmts fl c1 l g = elab_stmts fl c2 l g.
Proof.
  induction l as [|s r IH]; intros names c1 c2 g H Hi; [reflexivity|]. cbn [elab_stmts flat_map] in *.
  apply incl_app_inv in Hi. destruct Hi as (Hs & Hr).
  destruct s as [ro f|ro n t|file]; cbn [elab_stmt pstmt_names] in *.
  - pose proof (elab_form_same fl f names c1 c2 g H Hs) as Hf.
    destruct (elab_form fl c1 f g) as [[[[d1 f1] b1] g1]| | |];
      destruct (elab_form fl c2 f g) as [[[[d2 f2] b2] g2]| | |]; cbn [same_res] in Hf; try easy.
    destruct Hf as (Hd & <- & <- & <-). cbn [ebind]. now rewrite (IH names d1 d2).
  - destruct (maker_id n g) as [p g1]. destruct (elab_type true t g1) as [[t' g2]| | |]; cbn [ebind]; try reflexivity.
    rewrite (IH names (c1 ++ [(n, t)]) (c2 ++ [(n, t)])); [reflexivity | now apply agree_app | exact Hr].
  - cbn [ebind]. now rewrite (IH names c1 c2).
Qed.

Theorem elab_unrelated fl decls l g : (forall s t, In (s, t) decls -> ~ In s (flat_map pstmt_names l)) ->
  elab_stmts fl (initial_context ++ decls) l g = to_internal_syntax fl l g.
Proof.
  intros H. unfold to_internal_syntax. apply (elab_stmts_same fl l (flat_map pstmt_names l)); [|apply incl_refl].
  intros s Hs. rewrite lookup_app. destruct (lookup_ctx decls s) as [t|] eqn:E; [|reflexivity]. exfalso.
  apply lookup_declared in E. destruct E as (l1 & l2 & -> & _). apply (H s t); [apply in_or_app; right; now left | exact Hs].
Qed.
