(** What the elaboration produces, for the later stages. *)
From Coq Require Import ZArith List Bool String Lia.
From Verif Require Import Ast_Model Sem_Spec Occ_Spec Free_Spec Skolem_Spec Rename_Spec Ast_Proofs Elab_Model Elab_Spec Elab_Proofs
  E2e_Model E2e_Spec.
Import ListNotations.
Open Scope Z_scope.

(** ** Types *)
Lemma flatten_prod_vars t : flat_map ty_tyvars (flatten_prod t) = ty_tyvars t.
Proof.
  induction t using ty_ind'; cbn [flatten_prod ty_tyvars flat_map]; rewrite ?app_nil_r; auto.
  induction H as [|a r Ha _ IH]; cbn; [reflexivity|]. rewrite flat_map_app, Ha. f_equal. exact IH.
Qed.
Lemma flatten_prod_metas t : flat_map ty_tymetas (flatten_prod t) = ty_tymetas t.
Proof.
  induction t using ty_ind'; cbn [flatten_prod ty_tymetas flat_map]; rewrite ?app_nil_r; auto.
  induction H as [|a r Ha _ IH]; cbn; [reflexivity|]. rewrite flat_map_app, Ha. f_equal. exact IH.
Qed.

Lemma elab_type_plain t : forall g t' g', elab_type false t g = EOk (t', g') ->
  ty_tyvars t' = ptyvars t /\ ty_tymetas t' = [] /\ (ptyvars t = [] -> g' = g).
Proof.
  induction t as [n|s args IH|o l r IHl IHr|vs b IHb] using ptype_ind'; intros g t' g'; cbn [elab_type].
  - destruct (maker_var n g) as [i g1] eqn:E. intros [= <- <-]. cbn. repeat split; auto. discriminate.
  - intros H. ebreak H. injection H as <- <-. cbn [ty_tyvars ty_tymetas ptyvars].
    revert g l E. induction IH as [|a r Ha _ IHr]; intros g l E.
    + injection E as <- <-. repeat split; auto.
    + ebreak E. injection E as <- <-. destruct (Ha _ _ _ E0) as (A1 & A2 & A3). destruct (IHr _ _ E1) as (B1 & B2 & B3).
      cbn. rewrite A1, A2, B1, B2. repeat split; auto. intros X. apply app_eq_nil in X as (X1 & X2). rewrite B3, A3; auto.
  - destruct (forbidden l || forbidden r); [discriminate|]. intros H. ebreak H. destruct o; ebreak H; injection H as <- <-.
    + destruct (IHl _ _ _ E) as (A1 & A2 & A3). destruct (IHr _ _ _ E0) as (B1 & B2 & B3).
      cbn [ty_tyvars ty_tymetas ptyvars]. rewrite !flat_map_app, !flatten_prod_vars, !flatten_prod_metas, A1, A2, B1, B2.
      repeat split; auto. intros X. apply app_eq_nil in X as (X1 & X2). rewrite B3, A3; auto.
    + destruct (IHl _ _ _ E) as (A1 & A2 & A3). destruct (IHr _ _ _ E0) as (B1 & B2 & B3).
      destruct (IHl _ _ _ E1) as (A1' & A2' & A3'). destruct (IHr _ _ _ E2) as (B1' & B2' & B3').
      cbn [ty_tyvars ty_tymetas ptyvars]. rewrite A1', A2', B1', B2'.
      repeat split; auto. intros X. apply app_eq_nil in X as (X1 & X2). rewrite B3', A3', B3, A3; auto.
  - intros H. ebreak H. destruct (IHb _ _ _ E) as (A1 & A2 & A3).
    destruct t; try discriminate; injection H as <- <-; cbn [ptyvars ty_tyvars ty_tymetas] in *; auto.
Qed.
Lemma elab_types_plain l : forall g l' g', elab_types l g = EOk (l', g') -> flat_map ty_tyvars l' = [] ->
  flat_map ty_tymetas l' = [] /\ g' = g.
Proof.
  induction l as [|a r IH]; intros g l' g'; cbn [elab_types]; intros H V.
  - injection H as <- <-. auto.
  - ebreak H. injection H as <- <-. cbn in V |- *. apply app_eq_nil in V as (V1 & V2).
    destruct (elab_type_plain _ _ _ _ E) as (A1 & A2 & A3). destruct (IH _ _ _ E0 V2) as (B1 & B2).
    rewrite A2, B1, B2, A3; auto. congruence.
Qed.
(** at top level no variable is drawn *)
Lemma elab_type_top t : forall g t' g', elab_type true t g = EOk (t', g') -> g' = g.
Proof.
  induction t as [n|s args IH|o l r IHl IHr|vs b IHb] using ptype_ind'; intros g t' g'; cbn [elab_type].
  - now intros [= _ <-].
  - intros H. ebreak H. injection H as _ <-. revert g l E. induction IH as [|a r Ha _ IHr]; intros g l E.
    + now injection E as _ <-.
    + ebreak E. injection E as _ <-. rewrite (IHr _ _ E1). eapply Ha; eauto.
  - destruct (forbidden l || forbidden r); [discriminate|]. intros H. ebreak H. destruct o; ebreak H; injection H as _ <-.
    + rewrite (IHr _ _ _ E0). eauto.
    + rewrite (IHr _ _ _ E2), (IHl _ _ _ E1), (IHr _ _ _ E0). eauto.
  - intros H. ebreak H. destruct t; try discriminate; injection H as _ <-; eauto.
Qed.

(** ** Tables *)
Definition tabs (g : gen) : Prop := tab_ok g /\ Rename_Spec.clean g /\ apart g.

Lemma maker_id_tabs s g p g' : maker_id s g = (p, g') -> tabs g -> tabs g'.
Proof.
  intros E (T1 & T2 & T3). destruct (maker_id_step _ _ _ _ E) as ((S1 & _) & _). split; [auto|].
  unfold maker_id in E. destruct (lookup s (idTable g)) as [j|] eqn:L; injection E as <- <-; [auto|].
  destruct T2 as (C0 & C1). split.
  - split; cbn; [lia|]. intros x Hx. destruct (C1 x Hx) as [?|(y & k & ? & ? & ?)]; auto. right. exists y, k. repeat split; auto; lia.
  - intros a b i. cbn. destruct (String.eqb a s); [|apply T3]. intros [= <-] X. destruct T1 as (_ & B & _). apply B in X. lia.
Qed.
Lemma maker_var_tabs s g i g' : ends_digit s = false -> maker_var s g = (i, g') -> tabs g -> tabs g'.
Proof.
  intros D E (T1 & T2 & T3). destruct (maker_var_step _ _ _ _ E) as ((S1 & _) & _). split; [auto|].
  unfold maker_var in E. destruct (lookup s (idVar g)) as [j|] eqn:L; injection E as <- <-; [auto|].
  destruct T2 as (C0 & C1). split.
  - split; cbn; [lia|]. intros x (j & Hx). cbn in Hx. destruct (String.eqb_spec x s) as [->|Ne]; [auto|].
    destruct (C1 x (ex_intro _ j Hx)) as [?|(y & k & ? & ? & ?)]; auto. right. exists y, k. repeat split; auto; lia.
  - intros a b k. cbn. destruct (String.eqb b s); [|apply T3]. intros X [= <-]. destruct T1 as (B & _). apply B in X. lia.
Qed.
Lemma mk_indexed_tabs k g f g' : mk_indexed k g = (f, g') -> tabs g -> tabs g'.
Proof. unfold mk_indexed, maker_index_formula. intros [= _ <-] (A & B & C). split; [exact A|]. split; [exact B|exact C]. Qed.

(** ** Terms *)
Section Plain.
Variables (kappa : string -> option bool) (tysym : string -> bool).
Hypothesis PN : plain_names kappa.

Definition in_scope (scope : list string) (g : gen) (i : Z) : Prop := exists x, In x scope /\ lookup x (idVar g) = Some i.
Definition is_symbol (g : gen) (i : Z) : Prop := exists s, lookup s (idTable g) = Some i.
Record term_good (scope : list string) (g : gen) (t : term) : Prop := {
  tg_noid : t_noid t = true;
  tg_metas : t_metas t = [];
  tg_tymetas : t_tymetas t = [];
  tg_vars : forall i, In i (t_vars t) -> in_scope scope g i;
  tg_funs : forall i, In i (t_funs t) -> is_symbol g i }.

Lemma term_good_ext scope g g' t : tab_ext g g' -> term_good scope g t -> term_good scope g' t.
Proof.
  intros (X1 & X2) [A B C D E]. split; auto.
  - intros i Hi. destruct (D i Hi) as (x & Hx & L). exists x. split; auto.
  - intros i Hi. destruct (E i Hi) as (x & L). exists x. auto.
Qed.

Definition term_plain scope (t : pterm) : Prop :=
  forall con g con' t' b g', elab_term con t g = EOk (con', t', b, g') -> wk_term kappa tysym scope t -> t_tyvars t' = [] -> tabs g ->
  tabs g' /\ tab_ext g g' /\ term_good scope g' t'.

Lemma ext_refl g : tab_ext g g.
Proof. split; auto. Qed.

Lemma args_plain scope l : Forall (term_plain scope) l -> forall tys con b0 g con' l' b g',
  elab_args con l tys b0 g = EOk (con', l', b, g') -> Forall (wk_term kappa tysym scope) l -> flat_map t_tyvars l' = [] -> tabs g ->
  tabs g' /\ tab_ext g g' /\ Forall (term_good scope g') l'.
Proof.
  intros Hl. induction Hl as [|a r Ha _ IH]; intros tys con b0 g con' l' b g'; cbn [elab_args]; intros H W V T.
  - injection H as <- <- _ <-. split; auto. split; [apply ext_refl|constructor].
  - inversion W as [|? ? Wa Wr]; subst. destruct tys as [|ty tys].
    { injection H as <- <- _ <-. split; auto. split; [apply ext_refl|constructor]. }
    destruct (is_ty_constr ty); [eapply IH; eassumption|].
    ebreak H. injection H as <- <- _ <-. cbn in V. apply app_eq_nil in V as (V1 & V2).
    destruct (Ha _ _ _ _ _ _ E Wa V1 T) as (T1 & X1 & G1). destruct (IH _ _ _ _ _ _ _ _ E0 Wr V2 T1) as (T2 & X2 & G2).
    split; auto. split; [eapply ext_trans; eassumption|]. constructor; auto. eapply term_good_ext; eassumption.
Qed.

Lemma fun_good scope g p tys args : is_symbol g (id_index p) -> flat_map ty_tymetas tys = [] -> Forall (term_good scope g) args ->
  term_good scope g (Fun p tys args).
Proof.
  intros S M F. rewrite Forall_forall in F. split; cbn.
  - apply forallb_forall. intros a Ha. now apply (F a Ha).
  - induction args as [|a r IH]; cbn; auto. rewrite (tg_metas _ _ _ (F a (or_introl eq_refl))). apply IH. intros x Hx. apply F. now right.
  - rewrite M. cbn. clear S M. induction args as [|a r IH]; cbn; auto. rewrite (tg_tymetas _ _ _ (F a (or_introl eq_refl))). apply IH. intros x Hx. apply F. now right.
  - intros i Hi. apply in_flat_map in Hi as (a & Ha & Hi). exact (tg_vars _ _ _ (F a Ha) i Hi).
  - intros i [<-|Hi]; auto. apply in_flat_map in Hi as (a & Ha & Hi). exact (tg_funs _ _ _ (F a Ha) i Hi).
Qed.

Lemma elab_term_plain scope t : term_plain scope t.
Proof.
  induction t as [x|s args def IH] using pterm_ind'; intros con g con' t' b g' H Hw V T.
  - cbn [elab_term] in H. destruct (maker_var x g) as [i g1] eqn:E. injection H as <- <- _ <-.
    destruct (maker_var_step _ _ _ _ E) as (S1 & L1). destruct Hw as (Hx & Hn). destruct (PN x Hn) as (_ & D).
    split; [eapply maker_var_tabs; eassumption|]. split; [exact (proj2 S1)|].
    split; cbn; auto; [|intros j []]. intros j [<-|[]]. exists x. auto.
  - rewrite elab_term_fun in H. ebreak H. cbv zeta in H. ebreak H. injection H as <- <- _ <-.
    cbn [wk_term] in Hw. destruct Hw as (Hs & Hne & Hargs & Hty & Hd). apply wk_args_forall in Hargs.
    cbn [t_tyvars] in V. apply app_eq_nil in V as (V1 & V2).
    destruct (args_plain _ _ IH _ _ _ _ _ _ _ _ E0 Hargs V2 T) as (T1 & X1 & G1).
    destruct (maker_id_step _ _ _ _ E2) as (S2 & L2 & _). pose proof (maker_id_tabs _ _ _ _ E2 T1) as T2.
    destruct (elab_types_plain _ _ _ _ E3 V1) as (M3 & ->).
    assert (g3 = g1) as ->.
    { destruct def as [d|].
      - ebreak E4. injection E4 as _ <-. destruct Hd as (_ & n & -> & _). cbn in E5. now injection E5 as _ <-.
      - now injection E4 as _ <-. }
    split; auto. split; [eapply ext_trans; [exact X1|exact (proj2 S2)]|].
    apply fun_good; [exists s; auto|auto|]. rewrite Forall_forall in *. intros a0 Ha. eapply term_good_ext; [exact (proj2 S2)|auto].
Qed.

(** ** Formulas *)
Record form_good (scope : list string) (g : gen) (f : form) : Prop := {
  fg_noid : f_noid f;
  fg_metas : f_metas f = [];
  fg_tymetas : f_tymetas f = [];
  fg_tyb : no_ty_binders f;
  fg_sorted : sorted_use f;
  fg_vars : forall i, In i (f_vars f) -> exists x, lookup x (idVar g) = Some i;
  fg_funs : forall i, In i (f_funs f) -> is_symbol g i;
  fg_binders : forall x, In x (f_binders f) -> lookup (tv_name x) (idVar g) = Some (tv_index x) /\ ends_digit (tv_name x) = false;
  fg_fv : forall i, In i (fv f) -> in_scope scope g i }.

Lemma form_good_ext scope g g' f : tab_ext g g' -> form_good scope g f -> form_good scope g' f.
Proof.
  intros (X1 & X2) [A1 A2 A3 A4 A5 A6 A7 A8 A9]. split; auto.
  - intros i Hi. destruct (A6 i Hi) as (x & L). eauto.
  - intros i Hi. destruct (A7 i Hi) as (x & L). exists x. auto.
  - intros x Hx. destruct (A8 x Hx). auto.
  - intros i Hi. destruct (A9 i Hi) as (x & Hx & L). exists x. auto.
Qed.

Lemma good_list {A} (c : ident -> list ty -> list term -> list A) fs : Forall (fun f => f_collect c f = []) fs -> flat_map (f_collect c) fs = [].
Proof. induction 1; cbn; auto. now rewrite H. Qed.
Lemma good_assoc scope g op fs i : Forall (form_good scope g) fs -> is_assoc op = true -> form_good scope g (assoc_maker op fs i).
Proof.
  intros F E. assert (Q : forall f', (f' = Or i fs \/ f' = And i fs) -> form_good scope g f').
  { rewrite Forall_forall in F. intros f' H. split.
    - intros b Hb. assert (In b (flat_map (f_collect (fun _ _ args => map t_noid args)) fs)) as Hb' by (destruct H; subst; exact Hb).
      apply in_flat_map in Hb' as (f & Hf & Hb'). exact (fg_noid _ _ _ (F f Hf) b Hb').
    - assert (X : f_metas f' = flat_map f_metas fs) by (destruct H; subst; reflexivity). rewrite X. apply good_list.
      apply Forall_forall. intros f Hf. exact (fg_metas _ _ _ (F f Hf)).
    - assert (X : f_tymetas f' = flat_map f_tymetas fs) by (destruct H; subst; reflexivity). rewrite X. apply good_list.
      apply Forall_forall. intros f Hf. exact (fg_tymetas _ _ _ (F f Hf)).
    - intros x Hx. assert (In x (flat_map f_binders fs)) as Hx' by (destruct H; subst; exact Hx).
      apply in_flat_map in Hx' as (f & Hf & Hx'). exact (fg_tyb _ _ _ (F f Hf) x Hx').
    - assert (X : fold_right (fun g P => sorted_use g /\ P) True fs).
      { clear H E. induction fs as [|a r IH]; cbn; auto. split; [exact (fg_sorted _ _ _ (F a (or_introl eq_refl)))|].
        apply IH. intros y Hy. apply F. now right. }
      destruct H; subst; exact X.
    - intros j Hj. assert (In j (flat_map f_vars fs)) as Hj' by (destruct H; subst; exact Hj).
      apply in_flat_map in Hj' as (f & Hf & Hj'). exact (fg_vars _ _ _ (F f Hf) j Hj').
    - intros j Hj. assert (In j (flat_map f_funs fs)) as Hj' by (destruct H; subst; exact Hj).
      apply in_flat_map in Hj' as (f & Hf & Hj'). exact (fg_funs _ _ _ (F f Hf) j Hj').
    - intros x Hx. assert (In x (flat_map f_binders fs)) as Hx' by (destruct H; subst; exact Hx).
      apply in_flat_map in Hx' as (f & Hf & Hx'). exact (fg_binders _ _ _ (F f Hf) x Hx').
    - intros j Hj. assert (In j (flat_map fv fs)) as Hj' by (destruct H; subst; exact Hj).
      apply in_flat_map in Hj' as (f & Hf & Hj'). exact (fg_fv _ _ _ (F f Hf) j Hj'). }
  apply Q. destruct op; try discriminate E; cbn; auto.
Qed.
Lemma good_two scope g a b i f' : form_good scope g a -> form_good scope g b -> f' = Imp i a b \/ f' = Equ i a b -> form_good scope g f'.
Proof.
  intros [A1 A2 A3 A4 A5 A6 A7 A8 A9] [B1 B2 B3 B4 B5 B6 B7 B8 B9] H. split.
  - intros x Hx. assert (In x (f_collect (fun _ _ args => map t_noid args) a ++ f_collect (fun _ _ args => map t_noid args) b)) as Hx'
      by (destruct H; subst; exact Hx). apply in_app_iff in Hx' as [?|?]; auto.
  - assert (X : f_metas f' = f_metas a ++ f_metas b) by (destruct H; subst; reflexivity). now rewrite X, A2, B2.
  - assert (X : f_tymetas f' = f_tymetas a ++ f_tymetas b) by (destruct H; subst; reflexivity). now rewrite X, A3, B3.
  - intros x Hx. assert (In x (f_binders a ++ f_binders b)) as Hx' by (destruct H; subst; exact Hx). apply in_app_iff in Hx' as [?|?]; auto.
  - destruct H; subst; split; auto.
  - intros x Hx. assert (In x (f_vars a ++ f_vars b)) as Hx' by (destruct H; subst; exact Hx). apply in_app_iff in Hx' as [?|?]; auto.
  - intros x Hx. assert (In x (f_funs a ++ f_funs b)) as Hx' by (destruct H; subst; exact Hx). apply in_app_iff in Hx' as [?|?]; auto.
  - intros x Hx. assert (In x (f_binders a ++ f_binders b)) as Hx' by (destruct H; subst; exact Hx). apply in_app_iff in Hx' as [?|?]; auto.
  - intros x Hx. assert (In x (fv a ++ fv b)) as Hx' by (destruct H; subst; exact Hx). apply in_app_iff in Hx' as [?|?]; auto.
Qed.

Lemma elab_pred_plain scope con s args g con' f' b g' : elab_pred con s args g = EOk (con', f', b, g') ->
  Forall (wk_term kappa tysym scope) args -> f_tyvars f' = [] -> tabs g -> tabs g' /\ tab_ext g g' /\ form_good scope g' f'.
Proof.
  unfold elab_pred. intros H W V T. ebreak H. cbv zeta in H. ebreak H. injection H as <- <- _ <-.
  pose proof E4 as E4'. apply mk_indexed_step in E4' as (S4 & j & ->). cbn in V. apply app_eq_nil in V as (V1 & V2).
  destruct (args_plain scope args) with (2 := E0) (3 := W) (4 := V2) (5 := T) as (T1 & X1 & G1); [apply Forall_forall; intros; apply elab_term_plain|].
  destruct (maker_id_step _ _ _ _ E2) as (S2 & L2 & _). pose proof (maker_id_tabs _ _ _ _ E2 T1) as T2.
  destruct (elab_types_plain _ _ _ _ E3 V1) as (M3 & ->).
  split; [eapply mk_indexed_tabs; eassumption|].
  assert (X : tab_ext g0 g3) by (eapply ext_trans; [exact (proj2 S2)|exact (proj2 S4)]).
  split; [eapply ext_trans; [exact X1|exact X]|].
  assert (G : forall a, In a l -> term_good scope g3 a).
  { rewrite Forall_forall in G1. intros a0 Ha. eapply term_good_ext; eauto. }
  assert (TL : forall {B} (p : term -> list B), (forall a, In a l -> p a = []) -> flat_map p l = []).
  { intros B p Hp. clear - Hp. induction l as [|y r IH]; cbn; auto. rewrite (Hp y (or_introl eq_refl)). apply IH. intros z Hz. apply Hp. now right. }
  split; cbn.
  - intros x Hx. cbn in Hx. apply in_map_iff in Hx as (a0 & <- & Ha). apply (G a0 Ha).
  - apply TL. intros a0 Ha. apply (G a0 Ha).
  - unfold f_tymetas. cbn. rewrite M3. cbn. apply TL. intros a0 Ha. apply (G a0 Ha).
  - intros x [].
  - exact Logic.I.
  - intros i0 Hi. apply in_flat_map in Hi as (a0 & Ha & Hi). destruct (tg_vars _ _ _ (G a0 Ha) i0 Hi) as (x & _ & L). eauto.
  - intros i0 Hi. apply in_flat_map in Hi as (a0 & Ha & Hi). exact (tg_funs _ _ _ (G a0 Ha) i0 Hi).
  - intros x [].
  - intros i0 Hi. apply in_flat_map in Hi as (a0 & Ha & Hi). exact (tg_vars _ _ _ (G a0 Ha) i0 Hi).
Qed.

Lemma pretype_vars_plain vs : wk_vars kappa vs -> Forall (fun v => ptyvars (snd v) = []) vs -> forall g vs' g',
  pretype_vars vs g = EOk (vs', g') -> tabs g -> tabs g'.
Proof.
  intros W. induction W as [|[x t] r (A1 & A2 & A3) _ IH]; intros P g vs' g' H T; cbn [pretype_vars] in H.
  - now injection H as _ <-.
  - inversion P as [|? ? P1 P2]; subst. ebreak H. injection H as _ <-.
    destruct (elab_type_plain _ _ _ _ E) as (_ & _ & Q). rewrite (Q P1) in E0.
    destruct (PN x) as (_ & D); [cbn in A3; congruence|]. eapply IH; eauto. eapply maker_var_tabs; eauto.
Qed.

Lemma in_unbind vs A i : In i (fold_right unbind A vs) -> In i A /\ forall x, In x vs -> is_ttype (tv_ty x) = false -> tv_index x <> i.
Proof.
  induction vs as [|y r IH]; cbn; [intros H; split; auto; intros ? []|]. unfold unbind at 1.
  destruct (is_ttype (tv_ty y)) eqn:E; intros H.
  - destruct (IH H) as (B1 & B2). split; auto. intros x [<-|Hx] Hy; [congruence|auto].
  - apply filter_In in H as (H & Ne). destruct (IH H) as (B1 & B2). split; auto. intros x [<-|Hx] Hy; auto.
    intros Eq. rewrite Eq, Z.eqb_refl in Ne. discriminate.
Qed.

Lemma good_quant scope g q vs vs' h i f' : wk_vars kappa vs -> NoDup (map fst vs) -> tab_ok g -> f_tyvars h = [] ->
  Forall2 (fun v v' => tv_name v' = fst v /\ is_ttype (tv_ty v') = is_the_type (snd v) /\ lookup (fst v) (idVar g) = Some (tv_index v')) vs vs' ->
  form_good (map fst vs ++ scope) g h -> f' = (match q with PQuantAll => All i vs' h | PQuantEx => Ex i vs' h end) -> form_good scope g f'.
Proof.
  intros W ND T V F [A1 A2 A3 A4 A5 A6 A7 A8 A9] ->.
  assert (K : forall v', In v' vs' -> exists v, In v vs /\ tv_name v' = fst v /\ is_ttype (tv_ty v') = false /\
            lookup (tv_name v') (idVar g) = Some (tv_index v') /\ ends_digit (tv_name v') = false).
  { unfold wk_vars in W. rewrite Forall_forall in W. clear - W F PN. induction F as [|v v' l l' (B1 & B2 & B3) _ IH]; [intros ? []|].
    intros y [<-|Hy].
    - exists v. destruct (W v (or_introl eq_refl)) as (C1 & C2 & C3). destruct (PN (fst v)) as (D1 & D2); [congruence|].
      rewrite B1. repeat split; auto; [now left|]. rewrite B2. congruence.
    - destruct IH with (v' := y) as (z & Hz & R); auto; [intros; apply W; now right|]. exists z. split; auto. now right. }
  assert (KN : map tv_name vs' = map fst vs).
  { clear - F. induction F as [|v v' l l' (B1 & _) _ IH]; cbn; congruence. }
  assert (KI : NoDup (map tv_index vs')).
  { rewrite <- KN in ND. clear - ND K T. induction vs' as [|y r IH]; cbn in *; constructor.
    - intros H. apply in_map_iff in H as (z & E & Hz). inversion ND; subst. apply H1. apply in_map_iff. exists z. split; auto.
      destruct (K z (or_intror Hz)) as (_ & _ & _ & _ & L1 & _). destruct (K y (or_introl eq_refl)) as (_ & _ & _ & _ & L2 & _).
      rewrite E in L1. destruct T as (_ & _ & _ & J). exact (J _ _ _ L1 L2).
    - inversion ND; subst. apply IH; auto. }
  assert (S : sorted_use (All i vs' h)).
  { cbn. split; auto. split; [congruence|]. split; auto. intros x Hx. destruct (K x Hx) as (_ & _ & _ & -> & _). rewrite V. intros []. }
  assert (B : forall x, In x (vs' ++ f_binders h) -> is_ttype (tv_ty x) = false /\ lookup (tv_name x) (idVar g) = Some (tv_index x) /\ ends_digit (tv_name x) = false).
  { intros x Hx. apply in_app_iff in Hx as [Hx|Hx]; [destruct (K x Hx) as (_ & _ & _ & X & Y & Z); auto|].
    split; [exact (A4 x Hx)|]. exact (A8 x Hx). }
  assert (FV : forall j, In j (fold_right unbind (fv h) vs') -> in_scope scope g j).
  { intros j Hj. apply in_unbind in Hj as (H1 & H2). destruct (A9 j H1) as (x & Hx & L). apply in_app_iff in Hx as [Hx|Hx]; [|exists x; auto].
    exfalso. rewrite <- KN in Hx. apply in_map_iff in Hx as (y & <- & Hy). destruct (K y Hy) as (_ & _ & _ & Ty & L' & _).
    apply (H2 y Hy Ty). congruence. }
  destruct q; split; auto; try (intros x Hx; apply B, Hx).
Qed.

Definition gen_plain fl (f : pform) : Prop := forall scope mode con g con' fs b g',
  elab_gen fl f mode con g = EOk (con', fs, b, g') -> wk_form kappa tysym scope f -> plain_form f -> flat_map f_tyvars fs = [] -> tabs g ->
  tabs g' /\ tab_ext g g' /\ Forall (form_good scope g') fs.

Lemma one_good scope g f : form_good scope g f -> Forall (form_good scope g) [f].
Proof. constructor; auto. Qed.

Theorem elab_gen_plain fl f : gen_plain fl f.
Proof.
  induction f as [| |s args|h IH|op l IHl r IHr|q vs h IH]; intros scope mode con g con' fs b g' H Hw Hp V T.
  - assert (H' : (let '(f, g) := mk_indexed Top g in EOk (con, [f], false, g)) = EOk (con', fs, b, g')) by (destruct mode; exact H).
    ebreak H'. injection H' as <- <- _ <-. pose proof (mk_indexed_tabs _ _ _ _ E T) as T1.
    destruct (mk_indexed_step _ _ _ _ E) as (S1 & i & ->). split; auto. split; [exact (proj2 S1)|]. apply one_good.
    split; cbn; auto; try easy; intros x [].
  - assert (H' : (let '(f, g) := mk_indexed Bot g in EOk (con, [f], false, g)) = EOk (con', fs, b, g')) by (destruct mode; exact H).
    ebreak H'. injection H' as <- <- _ <-. pose proof (mk_indexed_tabs _ _ _ _ E T) as T1.
    destruct (mk_indexed_step _ _ _ _ E) as (S1 & i & ->). split; auto. split; [exact (proj2 S1)|]. apply one_good.
    split; cbn; auto; try easy; intros x [].
  - assert (H' : (edo (con, f, b, g) <- elab_pred con s args g; EOk (con, [f], b, g)) = EOk (con', fs, b, g')) by (destruct mode; exact H).
    clear H. ebreak H'. injection H' as <- <- _ <-. cbn [wk_form] in Hw. apply wk_args_forall in Hw. cbn in V. rewrite app_nil_r in V.
    destruct (elab_pred_plain _ _ _ _ _ _ _ _ _ E Hw V T) as (T1 & X1 & G1). auto using one_good.
  - assert (H' : (edo (con, hs, b, g) <- elab_gen fl h None con g;
                  let '(f, g) := mk_indexed (fun i => Not i (hd (Bot 0) hs)) g in EOk (con, [f], b, g)) = EOk (con', fs, b, g'))
      by (destruct mode; exact H).
    clear H. ebreak H'. injection H' as <- <- _ <-. destruct (elab_gen_one _ _ _ _ _ _ _ _ E) as (h' & ->).
    pose proof (mk_indexed_tabs _ _ _ _ E0) as Q. destruct (mk_indexed_step _ _ _ _ E0) as (S2 & i & ->).
    destruct (IH scope None _ _ _ _ _ _ E Hw Hp V T) as (T1 & X1 & G1). inversion G1; subst.
    split; auto. split; [eapply ext_trans; [exact X1|exact (proj2 S2)]|]. apply one_good.
    apply (form_good_ext _ _ _ _ (proj2 S2)) in H1. destruct H1 as [A1 A2 A3 A4 A5 A6 A7 A8 A9]. split; auto.
  - cbn [wk_form plain_form] in Hw, Hp. destruct Hw as (Hwl & Hwr). destruct Hp as (Hpl & Hpr).
    assert (Two : forall o con g con' fs b g',
      (edo (con, fl1, b1, g) <- elab_gen fl l o con g;
       edo (con, fl2, b2, g) <- elab_gen fl r o con g;
       EOk (con, fl1 ++ fl2, b1 || b2, g)) = EOk (con', fs, b, g') -> flat_map f_tyvars fs = [] -> tabs g ->
      tabs g' /\ tab_ext g g' /\ Forall (form_good scope g') fs /\ (o = None -> exists h1 h2, fs = [h1; h2])).
    { intros o con0 g0 con1 fs0 b0 g1 H0 V0 T0. ebreak H0. injection H0 as <- <- _ <-. rewrite flat_map_app in V0.
      apply app_eq_nil in V0 as (V1 & V2).
      destruct (IHl scope o _ _ _ _ _ _ E Hwl Hpl V1 T0) as (T1 & X1 & G1).
      destruct (IHr scope o _ _ _ _ _ _ E0 Hwr Hpr V2 T1) as (T2 & X2 & G2).
      split; auto. split; [eapply ext_trans; eassumption|]. split.
      - apply Forall_app. split; auto. rewrite Forall_forall in *. intros x Hx. eapply form_good_ext; eauto.
      - intros ->. destruct (elab_gen_one _ _ _ _ _ _ _ _ E) as (h1 & ->). destruct (elab_gen_one _ _ _ _ _ _ _ _ E0) as (h2 & ->). cbn. eauto. }
    assert (One : forall fs b,
      (if is_assoc op
       then
         edo (con, fs, b, g) <-
           (edo (con, fl1, b1, g) <- elab_gen fl l (if fl then Some op else None) con g;
            edo (con, fl2, b2, g) <- elab_gen fl r (if fl then Some op else None) con g;
            EOk (con, fl1 ++ fl2, b1 || b2, g));
         let '(f, g) := mk_indexed (assoc_maker op fs) g in EOk (con, [f], b, g)
       else
         edo (con, fs, b, g) <-
           (edo (con, fl1, b1, g) <- elab_gen fl l None con g;
            edo (con, fl2, b2, g) <- elab_gen fl r None con g;
            EOk (con, fl1 ++ fl2, b1 || b2, g));
         let '(f, g) := mk_indexed (fun i => match op with
                                             | PBinaryImp => Imp i (hd (Bot 0) fs) (hd (Bot 0) (tl fs))
                                             | _ => Equ i (hd (Bot 0) fs) (hd (Bot 0) (tl fs))
                                             end) g in EOk (con, [f], b, g)) = EOk (con', fs, b, g') -> flat_map f_tyvars fs = [] ->
      tabs g' /\ tab_ext g g' /\ Forall (form_good scope g') fs).
    { clear H fs b V. intros fs b. destruct (is_assoc op) eqn:Ea; intros H V.
      - destruct (edo (con, fl1, b1, g) <- elab_gen fl l (if fl then Some op else None) con g;
                  edo (con, fl2, b2, g) <- elab_gen fl r (if fl then Some op else None) con g;
                  EOk (con, fl1 ++ fl2, b1 || b2, g)) as [[[[con1 fs1] b1] g1]| | |] eqn:E; cbn [ebind] in H; try discriminate H.
        destruct (mk_indexed _ g1) as [h g2] eqn:E2. injection H as <- <- _ <-.
        pose proof (mk_indexed_tabs _ _ _ _ E2) as Q. destruct (mk_indexed_step _ _ _ _ E2) as (S2 & i & ->).
        assert (V' : flat_map f_tyvars fs1 = []).
        { cbn in V. rewrite app_nil_r in V. destruct op; try discriminate Ea; exact V. }
        destruct (Two _ _ _ _ _ _ _ E V' T) as (T1 & X1 & G1 & _).
        split; auto. split; [eapply ext_trans; [exact X1|exact (proj2 S2)]|]. apply one_good, good_assoc; auto.
        rewrite Forall_forall in *. intros x Hx. eapply form_good_ext; [exact (proj2 S2)|auto].
      - destruct (edo (con, fl1, b1, g) <- elab_gen fl l None con g;
                  edo (con, fl2, b2, g) <- elab_gen fl r None con g;
                  EOk (con, fl1 ++ fl2, b1 || b2, g)) as [[[[con1 fs1] b1] g1]| | |] eqn:E; cbn [ebind] in H; try discriminate H.
        destruct (mk_indexed _ g1) as [h g2] eqn:E2. injection H as <- <- _ <-.
        pose proof (mk_indexed_tabs _ _ _ _ E2) as Q. destruct (mk_indexed_step _ _ _ _ E2) as (S2 & i & ->).
        assert (exists h1 h2, fs1 = [h1; h2]) as (h1 & h2 & ->).
        { ebreak E. injection E as _ <- _ _. destruct (elab_gen_one _ _ _ _ _ _ _ _ E0) as (x1 & ->). destruct (elab_gen_one _ _ _ _ _ _ _ _ E1) as (x2 & ->). cbn. eauto. }
        assert (V' : flat_map f_tyvars [h1; h2] = []).
        { cbn in V |- *. rewrite !app_nil_r in *. destruct op; try discriminate Ea; exact V. }
        destruct (Two _ _ _ _ _ _ _ E V' T) as (T1 & X1 & G1 & _).
        split; auto. split; [eapply ext_trans; [exact X1|exact (proj2 S2)]|]. apply one_good. cbn [hd tl].
        inversion G1 as [|? ? Ga Gr]; subst. inversion Gr as [|? ? Gb _]; subst.
        apply (good_two _ _ h1 h2 i); [eapply form_good_ext; [exact (proj2 S2)|auto]..|].
        destruct op; try discriminate Ea; auto. }
    destruct mode as [o|]; [|exact (One fs b H V)].
    cbn [elab_gen] in H. destruct (pbinop_eqb op o) eqn:Eo; [|exact (One fs b H V)].
    destruct (Two (Some o) _ _ _ _ _ _ H V T) as (T1 & X1 & G1 & _). auto.
  - assert (H' : (edo (vs', g) <- pretype_vars vs g;
      if match q with PQuantEx => existsb (fun v => is_ttype (tv_ty v)) vs' | PQuantAll => false end
      then EAnomaly
      else
        edo (con, hs, b, g) <- elab_gen fl h None (con ++ vs) g;
        match vs' with
        | [] => EOk (con, hs, b, g)
        | _ => let '(f, g) := mk_indexed (fun i => match q with
                                                | PQuantAll => All i vs' (hd (Bot 0) hs)
                                                | PQuantEx => Ex i vs' (hd (Bot 0) hs)
                                                end) g in EOk (con, [f], b, g)
        end) = EOk (con', fs, b, g')) by (destruct mode; exact H).
    clear H. cbn [wk_form plain_form] in Hw, Hp. destruct Hw as (Hwv & Hwh). destruct Hp as (ND & PT & Hp).
    destruct (pretype_vars vs g) as [[vs' g1]| | |] eqn:Ev; cbn [ebind] in H'; try discriminate H'.
    destruct (pretype_vars_ok kappa vs Hwv _ _ _ Ev) as (S1 & F1). pose proof (pretype_vars_plain vs Hwv PT _ _ _ Ev T) as T1.
    match type of H' with (if ?c then _ else _) = _ => destruct c; [discriminate|] end.
    destruct (elab_gen fl h None (con ++ vs) g1) as [[[[con1 hs] b1] g2]| | |] eqn:Eh; cbn [ebind] in H'; try discriminate H'.
    destruct (elab_gen_one _ _ _ _ _ _ _ _ Eh) as (h' & ->).
    destruct vs' as [|v1 vs1].
    + injection H' as <- <- _ <-. inversion F1; subst.
      destruct (IH _ None _ _ _ _ _ _ Eh Hwh Hp V T1) as (T2 & X2 & G2). split; auto. split; auto. eapply ext_trans; [exact (proj2 S1)|exact X2].
    + destruct (mk_indexed _ g2) as [f1 g3] eqn:E3. injection H' as <- <- _ <-.
      pose proof (mk_indexed_tabs _ _ _ _ E3) as Q. destruct (mk_indexed_step _ _ _ _ E3) as (S3 & i & ->).
      assert (V' : f_tyvars h' = []).
      { cbn in V. rewrite app_nil_r in V. destruct q; exact V. }
      destruct (IH _ None _ _ _ _ _ _ Eh Hwh Hp) as (T2 & X2 & G2); [cbn; now rewrite V'|auto|]. inversion G2; subst.
      split; auto. split; [eapply ext_trans; [exact (proj2 S1)|]; eapply ext_trans; [exact X2|exact (proj2 S3)]|]. apply one_good.
      eapply (good_quant scope g3 q vs (v1 :: vs1) h' i); eauto.
      * exact (proj1 (Q T2)).
      * clear - F1 X2 S3. induction F1 as [|a b0 l l' (B1 & B2 & B3) _ IHF]; constructor; auto.
        split; auto. split; auto. apply (proj2 (proj2 S3)), (proj2 X2), B3.
      * eapply form_good_ext; [exact (proj2 S3)|auto].
Qed.
End Plain.
