(** Elaboration preserves the meaning of well-kinded formulas. *)
From Coq Require Import ZArith List Bool String Lia.
From Verif Require Import Ast_Model Sem_Spec Elab_Model Elab_Spec.
Import ListNotations.
Open Scope Z_scope.

Lemma ptype_ind' (P : ptype -> Prop) :
  (forall n, P (PTyVar n)) ->
  (forall s args, Forall P args -> P (PTyFun s args)) ->
  (forall o l r, P l -> P r -> P (PTyBin o l r)) ->
  (forall vs b, P b -> P (PTyQuant vs b)) ->
  forall t, P t.
Proof.
  intros H1 H2 H3 H4. fix IH 1. destruct t as [n|s args|o l r|vs b].
  - apply H1.
  - apply H2. induction args as [|a r IHr]; constructor; [apply IH | exact IHr].
  - apply H3; apply IH.
  - apply H4; apply IH.
Qed.

Lemma pterm_ind' (P : pterm -> Prop) :
  (forall n, P (PVar n)) ->
  (forall s args d, Forall P args -> P (PFun s args d)) ->
  forall t, P t.
Proof.
  intros H1 H2. fix IH 1. destruct t as [n|s args d].
  - apply H1.
  - apply H2. induction args as [|a r IHr]; constructor; [apply IH | exact IHr].
Qed.

Ltac ebreak H :=
  repeat match type of H with
         | ebind ?x _ = EOk _ => let E := fresh "E" in destruct x as [?| | |] eqn:E; cbn [ebind] in H; [|discriminate..]
         | (let '(_, _) := ?p in _) = EOk _ => tryif is_var p then destruct p else (let E := fresh "E" in destruct p eqn:E)
         end.

(** ** Contexts *)

Lemma assoc_none {A} s (l : list (string * A)) : assoc s l = None <-> ~ In s (map fst l).
Proof.
  induction l as [|[k a] r IH]; cbn; [tauto|]. destruct (String.eqb_spec k s) as [->|Hk].
  - split; [discriminate|]. intros H. exfalso. apply H. now left.
  - rewrite IH. split; intros H; [intros [E|E]; [now apply Hk | now apply H] | tauto].
Qed.
Lemma assoc_some {A} s (t : A) l : assoc s l = Some t <-> exists l1 l2, l = l1 ++ (s, t) :: l2 /\ ~ In s (map fst l1).
Proof.
  induction l as [|[k a] r IH]; cbn.
  - split; [discriminate|]. intros (l1 & l2 & E & _). destruct l1; discriminate.
  - destruct (String.eqb_spec k s) as [->|Hk].
    + split.
      * intros [= ->]. exists [], r. split; [reflexivity | intros []].
      * intros (l1 & l2 & E & Hn). destruct l1 as [|[k' a'] l1]; cbn in E; injection E.
        -- intros _ ->. reflexivity.
        -- intros _ _ ->. exfalso. apply Hn. now left.
    + rewrite IH. split.
      * intros (l1 & l2 & -> & Hn). exists ((k, a) :: l1), l2. split; [reflexivity|]. intros [E|E]; [now apply Hk | now apply Hn].
      * intros (l1 & l2 & E & Hn). destruct l1 as [|[k' a'] l1]; cbn in E; injection E.
        -- intros _ _ ->. now exfalso.
        -- intros -> _ _. exists l1, l2. split; [reflexivity|]. intros Hi. apply Hn. now right.
Qed.
Lemma lookup_declared con s t : lookup_ctx con s = Some t <-> declared con s t.
Proof.
  unfold lookup_ctx, declared. rewrite assoc_some. split.
  - intros (l1 & l2 & E & Hn). exists (rev l2), (rev l1). split.
    + rewrite <- (rev_involutive con), E, rev_app_distr. cbn. now rewrite <- app_assoc.
    + rewrite map_rev, <- in_rev. exact Hn.
  - intros (l1 & l2 & -> & Hn). exists (rev l2), (rev l1). split.
    + rewrite rev_app_distr. cbn. now rewrite <- app_assoc.
    + rewrite map_rev, <- in_rev. exact Hn.
Qed.
Lemma lookup_undeclared con s : lookup_ctx con s = None <-> forall t, ~ declared con s t.
Proof.
  destruct (lookup_ctx con s) as [t|] eqn:E.
  - split; [discriminate|]. intros H. apply lookup_declared in E. now apply H in E.
  - split; [|easy]. intros _ t Ht. apply lookup_declared in Ht. congruence.
Qed.
Lemma lookup_app con con' s :
  lookup_ctx (con ++ con') s = match lookup_ctx con' s with Some t => Some t | None => lookup_ctx con s end.
Proof.
  unfold lookup_ctx. rewrite rev_app_distr. induction (rev con') as [|[k a] r IH]; cbn; [reflexivity|].
  destruct (String.eqb k s); [reflexivity | exact IH].
Qed.

(** the same with [lookup_ctx] *)
Definition con_ok' (kappa : string -> option bool) (tysym : string -> bool) (scope : list string) (con : context) : Prop :=
  (forall x k t, kappa x = Some k -> lookup_ctx con x = Some t -> is_atomic_ptype t = true /\ ttype_head t = k) /\
  (forall x, In x scope -> lookup_ctx con x <> None) /\
  (forall s t, kappa s = None -> lookup_ctx con s = Some t -> top_type t /\ tysym s = ttype_head (result_type t)) /\
  (forall s, kappa s = None -> lookup_ctx con s = None -> tysym s = false).
Lemma con_ok_iff kappa tysym scope con : con_ok kappa tysym scope con <-> con_ok' kappa tysym scope con.
Proof.
  unfold con_ok, con_ok'. split; intros (H1 & H2 & H3 & H4); repeat split.
  - apply lookup_declared in H0. now apply (H1 x k t).
  - apply lookup_declared in H0. now apply (H1 x k t).
  - intros x Hx E. destruct (H2 x Hx) as (t & Ht). apply lookup_declared in Ht. congruence.
  - apply lookup_declared in H0. now apply (H3 s t).
  - apply lookup_declared in H0. now apply (H3 s t).
  - intros s Hs Hn. apply H4; [exact Hs|]. now apply lookup_undeclared.
  - apply lookup_declared in H0. now apply (H1 x k t).
  - apply lookup_declared in H0. now apply (H1 x k t).
  - intros x Hx. destruct (lookup_ctx con x) as [t|] eqn:E; [|now apply H2 in E].
    exists t. now apply lookup_declared.
  - apply lookup_declared in H0. now apply (H3 s t).
  - apply lookup_declared in H0. now apply (H3 s t).
  - intros s Hs Hn. apply H4; [exact Hs|]. now apply lookup_undeclared.
Qed.

(** ** Tables *)

Definition step (g g' : gen) : Prop := (tab_ok g -> tab_ok g') /\ tab_ext g g'.

Lemma step_refl g : step g g.
Proof. split; [easy|]. split; easy. Qed.
Lemma step_trans a b c : step a b -> step b c -> step a c.
Proof. intros (H1 & H2 & H3) (H4 & H5 & H6). split; [tauto|]. split; intros s i H; auto. Qed.
Lemma ext_trans a b c : tab_ext a b -> tab_ext b c -> tab_ext a c.
Proof. intros (H1 & H2) (H3 & H4). split; auto. Qed.

Lemma maker_var_step s g i g' : maker_var s g = (i, g') -> step g g' /\ lookup s (idVar g') = Some i.
Proof.
  unfold maker_var, maker_new_var. destruct (lookup s (idVar g)) as [j|] eqn:E.
  - intros [= <- <-]. split; [apply step_refl | exact E].
  - intros [= <- <-]. cbn [idVar]. split; [|cbn; now rewrite String.eqb_refl].
    split.
    + intros (H1 & H2 & H3 & H4). unfold tab_ok. cbn [idTable idVar cpt_term lookup]. repeat split.
      * intros s' i H. apply H1 in H. lia.
      * intros s' i. destruct (String.eqb s' s); [intros [= <-]; lia|]. intros H. apply H2 in H. lia.
      * exact H3.
      * intros a b i. destruct (String.eqb_spec a s) as [->|Ha], (String.eqb_spec b s) as [->|Hb].
        -- reflexivity.
        -- intros [= <-] H. apply H2 in H. lia.
        -- intros H [= <-]. apply H2 in H. lia.
        -- apply H4.
    + split; cbn [idTable idVar lookup]; [easy|]. intros s' i H.
      destruct (String.eqb_spec s' s) as [->|Hs]; [congruence | exact H].
Qed.
Lemma maker_id_step s g p g' : maker_id s g = (p, g') -> step g g' /\ lookup s (idTable g') = Some (id_index p) /\ id_name p = s.
Proof.
  unfold maker_id, maker_new_id. destruct (lookup s (idTable g)) as [j|] eqn:E.
  - intros [= <- <-]. split; [apply step_refl | now split].
  - intros [= <- <-]. cbn [idTable id_index id_name]. split; [|cbn; now rewrite String.eqb_refl].
    split.
    + intros (H1 & H2 & H3 & H4). unfold tab_ok. cbn [idTable idVar cpt_term lookup]. repeat split.
      * intros s' i. destruct (String.eqb s' s); [intros [= <-]; lia|]. intros H. apply H1 in H. lia.
      * intros s' i H. apply H2 in H. lia.
      * intros a b i. destruct (String.eqb_spec a s) as [->|Ha], (String.eqb_spec b s) as [->|Hb].
        -- reflexivity.
        -- intros [= <-] H. apply H1 in H. lia.
        -- intros H [= <-]. apply H1 in H. lia.
        -- apply H3.
      * exact H4.
    + split; cbn [idTable idVar lookup]; [|easy]. intros s' i H.
      destruct (String.eqb_spec s' s) as [->|Hs]; [congruence | exact H].
Qed.
Lemma mk_indexed_step k g f g' : mk_indexed k g = (f, g') -> step g g' /\ exists i, f = k i.
Proof.
  unfold mk_indexed, maker_index_formula. intros [= <- <-]. split; [|now eexists]. split.
  - intros H. exact H.
  - split; easy.
Qed.

Lemma elab_type_step top t : forall g t' g', elab_type top t g = EOk (t', g') -> step g g'.
Proof.
  induction t as [n|s args IH|o l r IHl IHr|vs b IHb] using ptype_ind'; intros g t' g'; cbn [elab_type].
  - destruct top; [intros [= _ <-]; apply step_refl|].
    destruct (maker_var n g) as [i g1] eqn:E. intros [= _ <-]. now apply maker_var_step in E.
  - intros H. ebreak H. injection H as _ <-.
    revert g l E. clear t'. rename g0 into g'.
    induction IH as [|a r Ha _ IHr]; intros g l E.
    + injection E as _ <-. apply step_refl.
    + ebreak E. injection E as _ <-. eapply step_trans; [eapply Ha; eassumption | eapply IHr; eassumption].
  - destruct (forbidden l || forbidden r); [discriminate|]. intros H. ebreak H.
    destruct o; ebreak H.
    + injection H as _ <-. eapply step_trans; [eapply IHl; eassumption | eapply IHr; eassumption].
    + injection H as _ <-.
      eapply step_trans; [eapply IHl; eassumption|]. eapply step_trans; [eapply IHr; eassumption|].
      eapply step_trans; [eapply IHl; eassumption | eapply IHr; eassumption].
  - intros H. ebreak H. destruct t; try discriminate; injection H as _ <-; eapply IHb; eassumption.
Qed.
Lemma elab_types_step l : forall g l' g', elab_types l g = EOk (l', g') -> step g g'.
Proof.
  induction l as [|a r IH]; intros g l' g'; cbn [elab_types]; intros H.
  - injection H as _ <-. apply step_refl.
  - ebreak H. injection H as _ <-. eapply step_trans; [eapply elab_type_step; eassumption | eapply IH; eassumption].
Qed.

(** ** Pretyping *)

Lemma ttype_head_eq t : is_ty_constr t = ttype_head t.
Proof. reflexivity. Qed.

Lemma wk_args_forall kappa tysym scope args :
  fold_right (fun a P => wk_term kappa tysym scope a /\ P) True args <-> Forall (wk_term kappa tysym scope) args.
Proof.
  induction args as [|a r IH]; cbn; [split; [constructor | easy]|].
  rewrite IH. split; [intros (H1 & H2); now constructor | intros H; inversion H; now split].
Qed.

Lemma term_to_type_not_ttype kappa tysym scope t : wk_term kappa tysym scope t -> ttype_head (term_to_type t) = false.
Proof.
  destruct t as [n|s args d]; cbn; [easy|]. intros (_ & Hs & _). now apply String.eqb_neq.
Qed.

Lemma type_args_in vs : forall args inst inst', type_args vs args inst = EOk inst' ->
  forall n t, In (n, t) inst' -> In (n, t) inst \/ exists a, In a args /\ t = term_to_type a.
Proof.
  induction vs as [|[x ty] vs IH]; intros args inst inst'; cbn.
  - destruct args; intros [= <-]; auto.
  - destruct args as [|a args]; [discriminate|]. intros H n t Hi.
    destruct (IH _ _ _ H _ _ Hi) as [[E|Hin]|(b & Hb & ->)].
    + injection E as <- <-. right. exists a. split; [now left | reflexivity].
    + now left.
    + right. exists b. split; [now right | reflexivity].
Qed.

Lemma instantiate_rec_head inst : (forall n t, In (n, t) inst -> ttype_head t = false) ->
  forall t t', top_type t -> instantiate_rec t inst = EOk t' -> ttype_head t' = ttype_head (result_type t).
Proof.
  intros Hi.
  assert (Hat : forall t t', is_atomic_ptype t = true -> instantiate_rec t inst = EOk t' -> ttype_head t' = ttype_head t).
  { intros [n|s args|o l r|vs b] t' Ha; try discriminate Ha; cbn [instantiate_rec].
    - destruct (assoc n inst) as [v|] eqn:E; [|discriminate]. intros [= <-].
      apply assoc_some in E. destruct E as (l1 & l2 & -> & _). cbn. apply (Hi n). apply in_or_app. right. now left.
    - intros H. ebreak H. now injection H as <-. }
  intros [n|s args|o l r|vs b] t' Ht.
  - now apply Hat.
  - now apply Hat.
  - destruct o; [destruct Ht|]. cbn in Ht. cbn [instantiate_rec]. intros H. ebreak H. injection H as <-. cbn.
    now apply Hat.
  - discriminate.
Qed.

Lemma pretype1_kind kappa tysym scope con t ty :
  con_ok' kappa tysym scope con -> wk_term kappa tysym scope t -> pretype1 con t = EOk ty ->
  is_ty_constr ty = kind kappa tysym t.
Proof.
  intros (H1 & H2 & H3 & H4) Hw. unfold pretype1. rewrite ttype_head_eq. destruct t as [x|s args def].
  - destruct Hw as (Hx & Hk). destruct (lookup_ctx con x) as [t|] eqn:E; [|now apply H2 in E].
    cbn [kind]. destruct (kappa x) as [k|] eqn:Ek; [|now exfalso].
    destruct (H1 _ _ _ Ek E) as (Ha & Hh). intros H.
    destruct t as [n|s args|o l r|vs b]; try discriminate Ha; cbn in H; injection H as <-; rewrite Hh; now destruct k.
  - cbn [wk_term] in Hw. destruct Hw as (Hs & Hn & Hargs & _ & Hd). apply wk_args_forall in Hargs. cbn [kind].
    destruct (lookup_ctx con s) as [t|] eqn:E.
    + destruct (H3 _ _ Hs E) as (Ht & ->). intros H.
      destruct t as [n|s' args'|o l r|vs b]; cbn [instantiate_type] in H.
      * destruct args; [|discriminate]. now injection H as <-.
      * destruct args; [|discriminate]. now injection H as <-.
      * destruct o; [discriminate|]. now injection H as <-.
      * ebreak H. cbn [result_type]. eapply instantiate_rec_head; [|exact Ht|exact H].
        intros n t Hin. destruct (type_args_in _ _ _ _ E0 _ _ Hin) as [[]|(a' & Ha' & ->)].
        rewrite Forall_forall in Hargs. eapply term_to_type_not_ttype. apply Hargs. exact Ha'.
    + rewrite (H4 _ Hs E). destruct def as [d|].
      * destruct Hd as (_ & n & -> & Hne). intros [= <-]. cbn. now apply String.eqb_neq.
      * now intros [= <-].
Qed.

Lemma pretype_kind kappa tysym scope con args : con_ok' kappa tysym scope con ->
  Forall (wk_term kappa tysym scope) args -> forall tys, pretype con args = EOk tys ->
  map is_ty_constr tys = map (kind kappa tysym) args.
Proof.
  intros Hc Hw. induction Hw as [|a r Ha _ IH]; intros tys; cbn [pretype]; intros H.
  - now injection H as <-.
  - ebreak H. injection H as <-. cbn. f_equal; [eapply pretype1_kind; eassumption | now apply IH].
Qed.

Lemma split_types_filter (k : pterm -> bool) args : forall tys,
  map is_ty_constr tys = map k args -> split_types args tys = map term_to_type (filter k args).
Proof.
  induction args as [|a r IH]; intros [|ty tys]; cbn; try discriminate; [reflexivity|].
  intros [= E1 E2]. rewrite E1. destruct (k a); cbn; now rewrite IH.
Qed.

(** the loop over the arguments, without the types *)
Fixpoint elab_terms (con : context) (l : list pterm) (b : bool) (g : gen) : eres (context * list term * bool * gen) :=
  match l with
  | [] => EOk (con, [], b, g)
  | t :: r => edo (con, t', b1, g) <- elab_term con t g;
              edo (con, r', b, g) <- elab_terms con r (b || b1) g;
              EOk (con, t' :: r', b, g)
  end.
Lemma elab_args_filter (k : pterm -> bool) args : forall tys con b g,
  map is_ty_constr tys = map k args ->
  elab_args con args tys b g = elab_terms con (filter (fun a => negb (k a)) args) b g.
Proof.
  induction args as [|a r IH]; intros [|ty tys] con b g; cbn; try discriminate; [reflexivity|].
  intros [= E1 E2]. rewrite E1. destruct (k a); cbn; [now apply IH|].
  destruct (elab_term con a g) as [[[[con1 t1] b1] g1]| | |]; cbn; try reflexivity. now rewrite IH.
Qed.

(** the inner loop of [elab_term] is [elab_args] *)
Lemma elab_term_fun con s args def g :
  elab_term con (PFun s args def) g =
    edo tys <- pretype con args;
    let typed_args := split_types args tys in
    edo (con, args', b, g) <- elab_args con args tys false g;
    edo (typed_args, b) <-
      (if is_defined s
       then edo ta <- elab_defined con s (skipn (List.length typed_args) tys) args'; EOk (ta, b)
       else EOk (typed_args, match typed_args with [] => false | _ => true end));
    let '(p, g) := maker_id s g in
    edo (tys', g) <- elab_types typed_args g;
    edo (con, g) <- match def with
                    | Some d => edo (_, g) <- elab_type false d g; EOk (con ++ [(s, d)], g)
                    | None => EOk (con, g)
                    end;
    EOk (con, Fun p tys' args', b || match typed_args with [] => false | _ => true end, g).
Proof. reflexivity. Qed.

(** ** Types *)

Section Sem.
Variables (kappa : string -> option bool) (tysym : string -> bool).

(** a term whose kind is type denotes a type value *)
Lemma pval_type {I : interp} (N : ninterp (D I) (T I)) scope G env (v : val I) t :
  val_ok kappa scope G env v -> wk_term kappa tysym scope t -> kind kappa tysym t = true ->
  exists a, pval N tysym env t = inr a.
Proof.
  intros Hv Hw. destruct t as [x|s args d]; cbn [pval kind].
  - destruct Hw as (Hx & Hk). specialize (Hv x Hx). destruct (kappa x) as [[|]|]; try discriminate. eauto.
  - intros ->. eauto.
Qed.

Lemma elab_type_term {I : interp} (N : ninterp (D I) (T I)) scope G env (v : val I) :
  val_ok kappa scope G env v -> (forall s ts, tcon I s ts = ntc N s ts) ->
  forall t, wk_term kappa tysym scope t -> kind kappa tysym t = true ->
  forall g t' g', elab_type false (term_to_type t) g = EOk (t', g') -> pval N tysym env t = inr (evty v t').
Proof.
  intros Hv Ht. induction t as [x|s args d IH] using pterm_ind'; intros Hw Hk g t' g'; cbn [term_to_type elab_type].
  - destruct (maker_var x g) as [i g1]. intros [= <- _]. cbn. destruct Hw as (Hx & _). specialize (Hv x Hx).
    cbn in Hk. destruct (kappa x) as [[|]|]; try discriminate. exact Hv.
  - intros H. ebreak H. injection H as <- _. cbn [wk_term] in Hw. destruct Hw as (_ & _ & Hargs & Hty & _).
    apply wk_args_forall in Hargs. cbn [kind] in Hk. specialize (Hty Hk).
    cbn [pval evty]. rewrite Hk, Ht. f_equal. f_equal.
    clear Hk. revert g g0 l E. induction IH as [|a r Ha _ IHr]; intros g g0 l E; cbn in E.
    + injection E as <- _. reflexivity.
    + ebreak E. injection E as <- _. inversion Hargs; subst. inversion Hty; subst. cbn.
      rewrite (Ha H1 H3 _ _ _ E0). cbn. f_equal. eapply IHr; eassumption.
Qed.

Lemma elab_types_terms {I : interp} (N : ninterp (D I) (T I)) scope G env (v : val I) :
  val_ok kappa scope G env v -> (forall s ts, tcon I s ts = ntc N s ts) ->
  forall l, Forall (wk_term kappa tysym scope) l -> Forall (fun t => kind kappa tysym t = true) l ->
  forall g l' g', elab_types (map term_to_type l) g = EOk (l', g') ->
  map (pval N tysym env) l = map inr (map (evty v) l').
Proof.
  intros Hv Ht. induction l as [|a r IH]; intros Hw Hk g l' g'; cbn [map elab_types]; intros H.
  - now injection H as <- _.
  - ebreak H. injection H as <- _. inversion Hw; subst. inversion Hk; subst. cbn. f_equal.
    + eapply elab_type_term; eassumption.
    + eapply IH; eassumption.
Qed.

Lemma rights_inr {A B} (l : list B) : rights (map (@inr A B) l) = l.
Proof. induction l; cbn; congruence. Qed.
Lemma lefts_inl {A B} (l : list A) : lefts (map (@inl A B) l) = l.
Proof. induction l; cbn; congruence. Qed.

Lemma lefts_filter {A B E} (f : E -> A + B) (k : E -> bool) l ls :
  (forall a, In a l -> k a = true -> exists b, f a = inr b) ->
  map f (filter (fun a => negb (k a)) l) = map inl ls -> lefts (map f l) = ls.
Proof.
  revert ls. induction l as [|a r IH]; intros ls Hk H; cbn in *.
  - destruct ls; [reflexivity | discriminate].
  - destruct (k a) eqn:E1; cbn in H.
    + destruct (Hk a (or_introl eq_refl) E1) as (b & ->). apply IH; [|exact H]. intros; apply Hk; auto.
    + destruct ls as [|x ls]; [discriminate|]. cbn in H. injection H as -> H. f_equal. apply IH; [|exact H]. intros; apply Hk; auto.
Qed.
Lemma rights_filter {A B E} (f : E -> A + B) (k : E -> bool) l ls rs :
  map f (filter (fun a => negb (k a)) l) = map inl ls ->
  map f (filter k l) = map inr rs -> rights (map f l) = rs.
Proof.
  revert ls rs. induction l as [|a r IH]; intros ls rs H1 H2; cbn in *.
  - destruct rs; [reflexivity | discriminate].
  - destruct (k a) eqn:E1; cbn in H1, H2.
    + destruct rs as [|x rs]; [discriminate|]. cbn in H2. injection H2 as -> H2. f_equal. eapply IH; eassumption.
    + destruct ls as [|x ls]; [discriminate|]. cbn in H1. injection H1 as -> H1. eapply IH; eassumption.
Qed.

Lemma is_defined_in s : is_defined s = true -> In s tptp_defined.
Proof.
  unfold is_defined. destruct (assoc s defined_table) as [e|] eqn:E; [|discriminate]. intros _.
  assert (H : In s (map fst defined_table)).
  { apply assoc_some in E. destruct E as (l1 & l2 & -> & _). rewrite map_app. apply in_or_app. right. now left. }
  exact H.
Qed.

(** the context after a number *)
Lemma con_ok_number scope con s n : con_ok' kappa tysym scope con -> kappa s = None -> tysym s = false -> n <> "$tType"%string ->
  con_ok' kappa tysym scope (con ++ [(s, PTyFun n [])]).
Proof.
  intros (H1 & H2 & H3 & H4) Hs Ht Hn.
  assert (E : forall x, lookup_ctx (con ++ [(s, PTyFun n [])]) x = if String.eqb s x then Some (PTyFun n []) else lookup_ctx con x).
  { intros x. rewrite lookup_app. unfold lookup_ctx at 1. cbn. now destruct (String.eqb s x). }
  repeat split.
  - rewrite E in H0. destruct (String.eqb_spec s x) as [->|Hx]; [congruence|]. now apply (H1 x k t).
  - rewrite E in H0. destruct (String.eqb_spec s x) as [->|Hx]; [congruence|]. now apply (H1 x k t).
  - intros x Hx. rewrite E. destruct (String.eqb s x); [discriminate | now apply H2].
  - rewrite E in H0. destruct (String.eqb_spec s s0) as [->|Hx]; [injection H0 as <-; exact Logic.I|]. now apply (H3 s0 t).
  - rewrite E in H0. destruct (String.eqb_spec s s0) as [->|Hx].
    + injection H0 as <-. rewrite Ht. cbn. symmetry. now apply String.eqb_neq.
    + now apply (H3 s0 t).
  - intros x Hx. rewrite E. destruct (String.eqb_spec s x) as [->|Hne]; [discriminate | now apply H4].
Qed.

Definition term_ok scope (t : pterm) : Prop :=
  forall con g con' t' b g', elab_term con t g = EOk (con', t', b, g') ->
  con_ok' kappa tysym scope con -> wk_term kappa tysym scope t ->
  step g g' /\ con_ok' kappa tysym scope con' /\
  (kind kappa tysym t = false ->
   forall G (I : interp) (N : ninterp (D I) (T I)) (v : val I) env,
     tab_ext g' G -> matches I N G -> defined_untyped N -> val_ok kappa scope G env v ->
     pval N tysym env t = inl (ev v t')).

Lemma terms_ok scope l : Forall (term_ok scope) l ->
  forall con b0 g con' l' b g', elab_terms con l b0 g = EOk (con', l', b, g') ->
  con_ok' kappa tysym scope con -> Forall (wk_term kappa tysym scope) l ->
  step g g' /\ con_ok' kappa tysym scope con' /\
  (Forall (fun t => kind kappa tysym t = false) l ->
   forall G (I : interp) (N : ninterp (D I) (T I)) (v : val I) env,
     tab_ext g' G -> matches I N G -> defined_untyped N -> val_ok kappa scope G env v ->
     map (pval N tysym env) l = map inl (map (ev v) l')).
Proof.
  intros Hl. induction Hl as [|a r Ha _ IH]; intros con b0 g con' l' b g'; cbn [elab_terms]; intros H Hc Hw.
  - injection H as <- <- _ <-. split; [apply step_refl|]. split; [exact Hc|]. reflexivity.
  - ebreak H. injection H as <- <- _ <-. inversion Hw as [|? ? Hwa Hwr]; subst.
    destruct (Ha _ _ _ _ _ _ E Hc Hwa) as (S1 & C1 & V1).
    destruct (IH _ _ _ _ _ _ _ E0 C1 Hwr) as (S2 & C2 & V2).
    split; [eapply step_trans; eassumption|]. split; [exact C2|].
    intros Hk G I N v env HG HM HD HV. inversion Hk; subst. cbn. f_equal.
    + apply (V1 H1 G I N v env); try assumption. eapply ext_trans; [exact (proj2 S2) | exact HG].
    + now apply (V2 H2 G).
Qed.

(** the arguments of a symbol: types and terms *)
Lemma args_ok scope s args : Forall (term_ok scope) args -> Forall (wk_term kappa tysym scope) args ->
  forall con g tys con1 args' b1 g1 typed_args p g2 tys' g3,
  con_ok' kappa tysym scope con -> pretype con args = EOk tys ->
  elab_args con args tys false g = EOk (con1, args', b1, g1) ->
  (is_defined s = false -> typed_args = split_types args tys) ->
  maker_id s g1 = (p, g2) -> elab_types typed_args g2 = EOk (tys', g3) ->
  step g g3 /\ con_ok' kappa tysym scope con1 /\
  (forall G (I : interp) (N : ninterp (D I) (T I)) (v : val I) env,
     tab_ext g3 G -> matches I N G -> defined_untyped N -> val_ok kappa scope G env v ->
     let vs := map (pval N tysym env) args in
     nfn N s (rights vs) (lefts vs) = fn I (id_index p) (map (evty v) tys') (map (ev v) args') /\
     (npr N s (rights vs) (lefts vs) <-> pr I (id_index p) (map (evty v) tys') (map (ev v) args'))).
Proof.
  intros Hok Hw con g tys con1 args' b1 g1 typed_args p g2 tys' g3 Hc Hp He Hta Hid Hty.
  pose proof (pretype_kind _ _ _ _ _ Hc Hw _ Hp) as Hk.
  rewrite (elab_args_filter _ _ _ _ _ _ Hk) in He.
  assert (Hsub : Forall (term_ok scope) (filter (fun a => negb (kind kappa tysym a)) args)).
  { rewrite Forall_forall in *. intros a Ha. apply filter_In in Ha. now apply Hok. }
  assert (Hwk : Forall (wk_term kappa tysym scope) (filter (fun a => negb (kind kappa tysym a)) args)).
  { rewrite Forall_forall in *. intros a Ha. apply filter_In in Ha. now apply Hw. }
  destruct (terms_ok scope _ Hsub _ _ _ _ _ _ _ He Hc Hwk) as (S1 & C1 & V1).
  destruct (maker_id_step _ _ _ _ Hid) as (S2 & L2 & _).
  pose proof (elab_types_step _ _ _ _ Hty) as S3.
  split; [eapply step_trans; [exact S1|]; eapply step_trans; eassumption|]. split; [exact C1|].
  intros G I N v env HG HM HD HV vs.
  assert (V : map (pval N tysym env) (filter (fun a => negb (kind kappa tysym a)) args) = map inl (map (ev v) args')).
  { apply (V1) with (G := G); try assumption.
    - rewrite Forall_forall. intros a Ha. apply filter_In in Ha. now apply negb_true_iff.
    - eapply ext_trans; [exact (proj2 S2)|]. eapply ext_trans; [exact (proj2 S3)|exact HG]. }
  assert (HL : lefts vs = map (ev v) args').
  { eapply lefts_filter; [|exact V]. intros a Ha Hka. eapply pval_type; try eassumption.
    rewrite Forall_forall in Hw. now apply Hw. }
  assert (Hi : lookup s (idTable G) = Some (id_index p)).
  { apply (proj1 HG), (proj1 (proj2 S3)). exact L2. }
  destruct HM as (HM1 & HM2). destruct (HM1 _ _ Hi) as (Hf & Hpr). rewrite HL.
  destruct (is_defined s) eqn:Ed.
  - destruct (HD s (is_defined_in _ Ed)) as (Df & Dp).
    rewrite Hf, (Df (rights vs)), (Df (map (evty v) tys')). split; [reflexivity|].
    rewrite Hpr, (Dp (rights vs)), (Dp (map (evty v) tys')). reflexivity.
  - assert (HR : rights vs = map (evty v) tys').
    { eapply rights_filter; [exact V|]. rewrite (Hta eq_refl), (split_types_filter _ _ _ Hk) in Hty.
      eapply elab_types_terms; try eassumption.
      - rewrite Forall_forall in *. intros a Ha. apply filter_In in Ha. now apply Hw.
      - rewrite Forall_forall. intros a Ha. now apply filter_In in Ha. }
    rewrite HR, Hf, Hpr. split; reflexivity.
Qed.

Lemma elab_term_ok scope t : term_ok scope t.
Proof.
  induction t as [x|s args def IH] using pterm_ind'; intros con g con' t' b g' H Hc Hw.
  - cbn [elab_term] in H. destruct (maker_var x g) as [i g1] eqn:E. injection H as <- <- _ <-.
    destruct (maker_var_step _ _ _ _ E) as (S1 & L1). split; [exact S1|]. split; [exact Hc|].
    intros Hk G I N v env HG HM HD HV. cbn. destruct Hw as (Hx & Hn). specialize (HV x Hx). cbn in Hk.
    destruct (kappa x) as [[|]|]; [discriminate| |now exfalso]. apply HV. now apply (proj2 HG).
  - rewrite elab_term_fun in H. ebreak H. cbv zeta in H. ebreak H. injection H as <- <- _ <-.
    cbn [wk_term] in Hw. destruct Hw as (Hs & Hne & Hargs & Hty & Hd). apply wk_args_forall in Hargs.
    destruct (args_ok scope s args IH Hargs con g a c l b0 g0 l0 i g1 l1 g2 Hc E E0) as (S1 & C1 & V1); try assumption.
    { intros Ed. rewrite Ed in E1. injection E1 as <- _. reflexivity. }
    assert (Hend : step g2 g3 /\ con_ok' kappa tysym scope l2).
    { destruct def as [d|].
      - ebreak E4. injection E4 as <- <-. destruct Hd as (Hts & n & -> & Hn).
        split; [eapply elab_type_step; eassumption | now apply con_ok_number].
      - injection E4 as <- <-. split; [apply step_refl | exact C1]. }
    destruct Hend as (S2 & C2). split; [eapply step_trans; eassumption|]. split; [exact C2|].
    intros Hk G I N v env HG HM HD HV. cbn [kind] in Hk. cbn [pval ev]. rewrite Hk. f_equal.
    apply (V1 G I N v env); try assumption. eapply ext_trans; [exact (proj2 S2) | exact HG].
Qed.

Lemma elab_pred_ok scope con s args g con' f' b g' :
  elab_pred con s args g = EOk (con', f', b, g') -> con_ok' kappa tysym scope con ->
  Forall (wk_term kappa tysym scope) args ->
  step g g' /\ con_ok' kappa tysym scope con' /\
  (forall G (I : interp) (N : ninterp (D I) (T I)) (v : val I) env,
     tab_ext g' G -> matches I N G -> defined_untyped N -> val_ok kappa scope G env v ->
     (holds f' v <-> psat N tysym (PPred s args) env)).
Proof.
  unfold elab_pred. intros H Hc Hw. ebreak H. cbv zeta in H. ebreak H. injection H as <- <- _ <-.
  destruct (mk_indexed_step _ _ _ _ E4) as (S2 & j & ->).
  destruct (args_ok scope s args) with (con := con) (g := g) (tys := a) (con1 := c) (args' := l) (b1 := b0) (g1 := g0)
    (typed_args := l0) (p := i) (g2 := g1) (tys' := l1) (g3 := g2) as (S1 & C1 & V1); try assumption.
  { rewrite Forall_forall. intros t _. apply elab_term_ok. }
  { intros Ed. rewrite Ed in E1. injection E1 as <- _. reflexivity. }
  split; [eapply step_trans; eassumption|]. split; [exact C1|].
  intros G I N v env HG HM HD HV. cbn [holds psat]. symmetry.
  apply (V1 G I N v env); try assumption. eapply ext_trans; [exact (proj2 S2) | exact HG].
Qed.

(** ** Formulas *)

(** quantified variables *)
Lemma elab_type_the_type t g t' g' : is_atomic_ptype t = true -> elab_type false t g = EOk (t', g') ->
  is_ttype t' = is_the_type t.
Proof.
  destruct t as [n|s args|o l r|vs b]; try discriminate; intros _; cbn [elab_type].
  - destruct (maker_var n g). now intros [= <- _].
  - intros H. ebreak H. injection H as <- _. unfold is_ttype, tType. cbn. destruct args as [|a r].
    + cbn in E. injection E as <- _. cbn. now rewrite andb_true_r.
    + ebreak E. injection E as <- _. cbn. apply andb_false_r.
Qed.

Lemma pretype_vars_ok vs : wk_vars kappa vs -> forall g vs' g', pretype_vars vs g = EOk (vs', g') ->
  step g g' /\
  Forall2 (fun v v' => tv_name v' = fst v /\ is_ttype (tv_ty v') = is_the_type (snd v) /\
                       lookup (fst v) (idVar g') = Some (tv_index v')) vs vs'.
Proof.
  intros Hw. induction Hw as [|[x t] r (Ha & _ & _) _ IH]; intros g vs' g'; cbn [pretype_vars]; intros H.
  - injection H as <- <-. split; [apply step_refl | constructor].
  - ebreak H. injection H as <- <-. destruct (IH _ _ _ E1) as (S2 & F2).
    destruct (maker_var_step _ _ _ _ E0) as (S1 & L1).
    split; [eapply step_trans; [eapply elab_type_step; eassumption|]; eapply step_trans; eassumption|].
    constructor; [|exact F2]. cbn. split; [reflexivity|]. split.
    + eapply elab_type_the_type; eassumption.
    + now apply (proj2 S2).
Qed.

Lemma con_ok_vars scope con vs : con_ok' kappa tysym scope con -> wk_vars kappa vs ->
  con_ok' kappa tysym (map fst vs ++ scope) (con ++ vs).
Proof.
  intros (H1 & H2 & H3 & H4) Hw.
  assert (Hin : forall x t, lookup_ctx vs x = Some t ->
            is_atomic_ptype t = true /\ is_the_type t = ttype_head t /\ kappa x = Some (is_the_type t)).
  { intros x t E. apply lookup_declared in E. destruct E as (l1 & l2 & -> & _).
    unfold wk_vars in Hw. rewrite Forall_forall in Hw. apply (Hw (x, t)). apply in_or_app. right. now left. }
  assert (Hx : forall x k t, kappa x = Some k -> lookup_ctx (con ++ vs) x = Some t -> is_atomic_ptype t = true /\ ttype_head t = k).
  { intros x k t Hk. rewrite lookup_app. destruct (lookup_ctx vs x) as [t'|] eqn:E; [|now apply H1].
    intros [= ->]. destruct (Hin _ _ E) as (A1 & A2 & A3). split; [exact A1|]. rewrite Hk in A3. congruence. }
  assert (Hs : forall s, kappa s = None -> lookup_ctx (con ++ vs) s = lookup_ctx con s).
  { intros s Hk. rewrite lookup_app. destruct (lookup_ctx vs s) as [t'|] eqn:E; [|reflexivity].
    destruct (Hin _ _ E) as (_ & _ & A3). congruence. }
  split; [exact Hx|]. split; [|split].
  - intros x Hi. rewrite lookup_app. destruct (lookup_ctx vs x) as [t'|] eqn:E; [discriminate|].
    apply in_app_or in Hi. destruct Hi as [Hi|Hi]; [|now apply H2].
    exfalso. unfold lookup_ctx in E. apply assoc_none in E. apply E. rewrite map_rev, <- in_rev. exact Hi.
  - intros s t Hk. rewrite (Hs s Hk). now apply H3.
  - intros s Hk. rewrite (Hs s Hk). now apply H4.
Qed.
Lemma con_ok_less scope scope' con : (forall x, In x scope -> In x scope') ->
  con_ok' kappa tysym scope' con -> con_ok' kappa tysym scope con.
Proof. intros Hi (H1 & H2 & H3 & H4). split; [exact H1|]. split; [auto|]. now split. Qed.

(** binding a variable on both sides *)
Lemma val_ok_type scope G {I : interp} env (v : val I) x (a : T I) :
  val_ok kappa scope G env v -> kappa x = Some true ->
  val_ok kappa (x :: scope) G (nupd env x (inr a)) (set_tbv v x a).
Proof.
  intros H Hx y Hy. unfold nupd, set_tbv, upds. cbn [bv tbv]. destruct (String.eqb_spec y x) as [->|Hne].
  - rewrite Hx. reflexivity.
  - destruct Hy as [E|Hy]; [congruence|]. exact (H y Hy).
Qed.
Lemma val_ok_term scope G {I : interp} env (v : val I) x i (d : D I) :
  tab_ok G -> val_ok kappa scope G env v -> kappa x = Some false -> lookup x (idVar G) = Some i ->
  val_ok kappa (x :: scope) G (nupd env x (inl d)) (set_bv v i d).
Proof.
  intros (_ & _ & _ & HG) H Hx Hi y Hy. unfold nupd, set_bv, upd. cbn [bv tbv]. destruct (String.eqb_spec y x) as [->|Hne].
  - rewrite Hx. intros j Hj. rewrite Hi in Hj. injection Hj as <-. now rewrite Z.eqb_refl.
  - destruct Hy as [E|Hy]; [congruence|]. specialize (H y Hy). destruct (kappa y) as [[|]|]; try exact H.
    intros j Hj. destruct (Z.eqb_spec j i) as [->|Hji]; [|now apply H].
    exfalso. apply Hne. eapply HG; eassumption.
Qed.
Lemma val_ok_perm scope scope' G {I : interp} env (v : val I) : (forall x, In x scope' -> In x scope) ->
  val_ok kappa scope G env v -> val_ok kappa scope' G env v.
Proof. intros Hi H x Hx. apply H. auto. Qed.

Lemma quant_ok G {I : interp} (k : val I -> Prop) (k' : (string -> D I + T I) -> Prop) vs vs' :
  tab_ok G -> wk_vars kappa vs ->
  Forall2 (fun v v' => tv_name v' = fst v /\ is_ttype (tv_ty v') = is_the_type (snd v) /\
                       lookup (fst v) (idVar G) = Some (tv_index v')) vs vs' ->
  forall scope, (forall v env, val_ok kappa (map fst vs ++ scope) G env v -> (k v <-> k' env)) ->
  forall v env, val_ok kappa scope G env v ->
  (forall_vars vs' k v <-> pforall vs k' env) /\ (exists_vars vs' k v <-> pexists vs k' env).
Proof.
  intros HG Hw HF. induction HF as [|[x t] v' r r' (Hn & Ht & Hl) _ IH]; intros scope Hk v env Hv.
  - cbn. split; now apply Hk.
  - inversion Hw as [|? ? (A1 & A2 & A3) Hwr]; subst. cbn [fst snd] in *. cbn [forall_vars exists_vars pforall pexists].
    rewrite Ht, Hn.
    assert (Hk' : forall v0 env0, val_ok kappa (map fst r ++ x :: scope) G env0 v0 -> (k v0 <-> k' env0)).
    { intros v0 env0 H0. apply Hk. eapply val_ok_perm; [|exact H0]. cbn. intros y Hy.
      destruct Hy as [Hy|Hy]; [subst; apply in_or_app; right; now left|].
      apply in_app_or in Hy. apply in_or_app. destruct Hy; [now left | right; now right]. }
    destruct (is_the_type t) eqn:E.
    + assert (Ha : forall a, (forall_vars r' k (set_tbv v x a) <-> pforall r k' (nupd env x (inr a))) /\
                             (exists_vars r' k (set_tbv v x a) <-> pexists r k' (nupd env x (inr a)))).
      { intros a. apply (IH Hwr (x :: scope) Hk'). now apply val_ok_type. }
      split; (split; [intros H | intros H]).
      * intros a. now apply Ha.
      * intros a. now apply Ha.
      * destruct H as (a & H). exists a. now apply Ha.
      * destruct H as (a & H). exists a. now apply Ha.
    + assert (Ha : forall a, (forall_vars r' k (set_bv v (tv_index v') a) <-> pforall r k' (nupd env x (inl a))) /\
                             (exists_vars r' k (set_bv v (tv_index v') a) <-> pexists r k' (nupd env x (inl a)))).
      { intros a. apply (IH Hwr (x :: scope) Hk'). now apply val_ok_term. }
      split; (split; [intros H | intros H]).
      * intros a. now apply Ha.
      * intros a. now apply Ha.
      * destruct H as (a & H). exists a. now apply Ha.
      * destruct H as (a & H). exists a. now apply Ha.
Qed.

(** the formulas elaborated for a mode together *)
Definition comb {I} (mode : option pbinop) (fs : list form) (v : val I) : Prop :=
  match mode with
  | Some PBinaryOr => fold_right (fun h P => holds h v \/ P) False fs
  | _ => fold_right (fun h P => holds h v /\ P) True fs
  end.
Lemma comb_one {I} mode h (v : val I) : comb mode [h] v <-> holds h v.
Proof. destruct mode as [[]|]; cbn; tauto. Qed.
Lemma comb_app {I} mode l1 l2 (v : val I) :
  comb mode (l1 ++ l2) v <-> match mode with Some PBinaryOr => comb mode l1 v \/ comb mode l2 v | _ => comb mode l1 v /\ comb mode l2 v end.
Proof.
  destruct mode as [[]|]; cbn [comb]; induction l1 as [|a r IH]; cbn; tauto.
Qed.

Definition mode_ok (mode : option pbinop) : Prop := mode = None \/ mode = Some PBinaryOr \/ mode = Some PBinaryAnd.

Definition elab_good scope (f : pform) (mode : option pbinop) (g : gen) (con' : context) (fs : list form) (g' : gen) : Prop :=
  step g g' /\ con_ok' kappa tysym scope con' /\ (mode = None -> exists h, fs = [h]) /\
  (forall G (I : interp) (N : ninterp (D I) (T I)) (v : val I) env,
     tab_ok G -> tab_ext g' G -> matches I N G -> defined_untyped N -> val_ok kappa scope G env v ->
     (comb mode fs v <-> psat N tysym f env)).

Lemma good_one scope f mode g con' h g' : 
  elab_good scope f None g con' [h] g' -> elab_good scope f mode g con' [h] g'.
Proof.
  intros (H1 & H2 & _ & H4). split; [exact H1|]. split; [exact H2|]. split; [eauto|].
  intros G I N v env A1 A2 A3 A4 A5. rewrite comb_one, <- (H4 G I N v env A1 A2 A3 A4 A5), comb_one. reflexivity.
Qed.

Theorem elab_gen_good fl f : forall scope mode con g con' fs b g',
  mode_ok mode -> elab_gen fl f mode con g = EOk (con', fs, b, g') ->
  con_ok' kappa tysym scope con -> wk_form kappa tysym scope f ->
  elab_good scope f mode g con' fs g'.
Proof.
  induction f as [| |s args|h IH|op l IHl r IHr|q vs h IH]; intros scope mode con g con' fs b g' Hm H Hc Hw.
  - (* true *)
    assert (H' : (let '(f, g) := mk_indexed Top g in EOk (con, [f], false, g)) = EOk (con', fs, b, g')) by (destruct mode; exact H).
    ebreak H'. injection H' as <- <- _ <-. destruct (mk_indexed_step _ _ _ _ E) as (S1 & i & ->). apply good_one.
    split; [exact S1|]. split; [exact Hc|]. split; [eauto|]. intros. cbn. tauto.
  - assert (H' : (let '(f, g) := mk_indexed Bot g in EOk (con, [f], false, g)) = EOk (con', fs, b, g')) by (destruct mode; exact H).
    ebreak H'. injection H' as <- <- _ <-. destruct (mk_indexed_step _ _ _ _ E) as (S1 & i & ->). apply good_one.
    split; [exact S1|]. split; [exact Hc|]. split; [eauto|]. intros. cbn. tauto.
  - assert (H' : (edo (con, f, b, g) <- elab_pred con s args g; EOk (con, [f], b, g)) = EOk (con', fs, b, g')) by (destruct mode; exact H).
    clear H. ebreak H'. injection H' as <- <- _ <-. cbn [wk_form] in Hw. apply wk_args_forall in Hw.
    destruct (elab_pred_ok _ _ _ _ _ _ _ _ _ E Hc Hw) as (S1 & C1 & V1). apply good_one.
    split; [exact S1|]. split; [exact C1|]. split; [eauto|].
    intros G I N v env A1 A2 A3 A4 A5. rewrite comb_one. now apply (V1 G I N v env).
  - assert (H' : (edo (con, hs, b, g) <- elab_gen fl h None con g;
                  let '(f, g) := mk_indexed (fun i => Not i (hd (Bot 0) hs)) g in EOk (con, [f], b, g)) = EOk (con', fs, b, g'))
      by (destruct mode; exact H).
    clear H. ebreak H'. injection H' as <- <- _ <-. destruct (mk_indexed_step _ _ _ _ E0) as (S2 & i & ->).
    destruct (IH scope None _ _ _ _ _ _ (or_introl eq_refl) E Hc Hw) as (S1 & C1 & (h' & ->) & V1); [reflexivity|].
    apply good_one. split; [eapply step_trans; eassumption|]. split; [exact C1|]. split; [eauto|].
    intros G I N v env A1 A2 A3 A4 A5. rewrite comb_one. cbn [hd holds psat].
    rewrite <- (V1 G I N v env), comb_one; try assumption; [reflexivity|]. eapply ext_trans; [exact (proj2 S2) | exact A2].
  - cbn [wk_form] in Hw. destruct Hw as (Hwl & Hwr).
    (* two formulas in turn *)
    assert (Two : forall o, mode_ok o -> forall con g con' fs b g',
      (edo (con, fl1, b1, g) <- elab_gen fl l o con g;
       edo (con, fl2, b2, g) <- elab_gen fl r o con g;
       EOk (con, fl1 ++ fl2, b1 || b2, g)) = EOk (con', fs, b, g') ->
      con_ok' kappa tysym scope con ->
      step g g' /\ con_ok' kappa tysym scope con' /\
      exists fs1 fs2, fs = fs1 ++ fs2 /\ (o = None -> exists h1 h2, fs1 = [h1] /\ fs2 = [h2]) /\
      (forall G (I : interp) (N : ninterp (D I) (T I)) (v : val I) env,
         tab_ok G -> tab_ext g' G -> matches I N G -> defined_untyped N -> val_ok kappa scope G env v ->
         (comb o fs1 v <-> psat N tysym l env) /\ (comb o fs2 v <-> psat N tysym r env))).
    { intros o Ho con0 g0 con1 fs0 b0 g1 H0 Hc0. ebreak H0. injection H0 as <- <- _ <-.
      destruct (IHl scope o _ _ _ _ _ _ Ho E Hc0 Hwl) as (S1 & C1 & O1 & V1).
      destruct (IHr scope o _ _ _ _ _ _ Ho E0 C1 Hwr) as (S2 & C2 & O2 & V2).
      split; [eapply step_trans; eassumption|]. split; [exact C2|]. eexists _, _. split; [reflexivity|]. split.
      - intros Hn. destruct (O1 Hn) as (h1 & ->). destruct (O2 Hn) as (h2 & ->). exists h1, h2. split; reflexivity.
      - intros G I N v env A1 A2 A3 A4 A5. split.
        + apply (V1 G I N v env); try assumption. eapply ext_trans; [exact (proj2 S2) | exact A2].
        + now apply (V2 G I N v env). }
    (* the formula itself *)
    assert (One : forall fs b,
      (if is_assoc op
       then
         edo (con, fs, b, g) <-
           (edo (con, fl1, b1, g) <- elab_gen fl l (if fl then Some op else None) con g;
            edo (con, fl2, b2, g) <- elab_gen fl r (if fl then Some op else None) con g;
            EOk (con, fl1 ++ fl2, b1 || b2, g));
         let '(f, g) := mk_indexed (assoc_maker op fs) g in EOk (con, [f], b, g)
       else
         edo (con, fs, b, g) <-
           (edo (con, fl1, b1, g) <- elab_gen fl l None con g;
            edo (con, fl2, b2, g) <- elab_gen fl r None con g;
            EOk (con, fl1 ++ fl2, b1 || b2, g));
         let '(f, g) := mk_indexed (fun i => match op with
                                             | PBinaryImp => Imp i (hd (Bot 0) fs) (hd (Bot 0) (tl fs))
                                             | _ => Equ i (hd (Bot 0) fs) (hd (Bot 0) (tl fs))
                                             end) g in EOk (con, [f], b, g)) = EOk (con', fs, b, g') ->
      elab_good scope (PBin op l r) mode g con' fs g').
    { clear H fs b. intros fs b. destruct (is_assoc op) eqn:Ea; intros H.
      - destruct (edo (con, fl1, b1, g) <- elab_gen fl l (if fl then Some op else None) con g;
                  edo (con, fl2, b2, g) <- elab_gen fl r (if fl then Some op else None) con g;
                  EOk (con, fl1 ++ fl2, b1 || b2, g)) as [[[[con1 fs1] b1] g1]| | |] eqn:E; cbn [ebind] in H; try discriminate H.
        destruct (mk_indexed _ g1) as [h g2] eqn:E2. injection H as <- <- _ <-.
        destruct (mk_indexed_step _ _ _ _ E2) as (S2 & i & ->).
        destruct (Two (if fl then Some op else None)) with (2 := E) as (S1 & C1 & fa & fb & -> & O1 & V1); [|exact Hc|].
        { destruct fl; [|now left]. destruct op; try discriminate Ea; [right; now left | right; now right]. }
        apply good_one. split; [eapply step_trans; eassumption|]. split; [exact C1|]. split; [eauto|].
        intros G I N v env A1 A2 A3 A4 A5. rewrite comb_one.
        destruct (V1 G I N v env A1) as (Va & Vb); try assumption.
        { eapply ext_trans; [exact (proj2 S2) | exact A2]. }
        assert (Hh : holds (assoc_maker op (fa ++ fb) i) v <-> comb (Some op) (fa ++ fb) v).
        { destruct op; try discriminate Ea; reflexivity. }
        rewrite Hh. destruct fl.
        + rewrite comb_app. destruct op; try discriminate Ea; cbn [psat]; rewrite Va, Vb; reflexivity.
        + destruct (O1 eq_refl) as (h1 & h2 & -> & ->). rewrite comb_one in Va, Vb. rewrite comb_app.
          destruct op; try discriminate Ea; cbn [psat]; rewrite !comb_one, Va, Vb; reflexivity.
      - destruct (edo (con, fl1, b1, g) <- elab_gen fl l None con g;
                  edo (con, fl2, b2, g) <- elab_gen fl r None con g;
                  EOk (con, fl1 ++ fl2, b1 || b2, g)) as [[[[con1 fs1] b1] g1]| | |] eqn:E; cbn [ebind] in H; try discriminate H.
        destruct (mk_indexed _ g1) as [h g2] eqn:E2. injection H as <- <- _ <-.
        destruct (mk_indexed_step _ _ _ _ E2) as (S2 & i & ->).
        destruct (Two None) with (2 := E) as (S1 & C1 & fa & fb & -> & O1 & V1); [now left|exact Hc|].
        destruct (O1 eq_refl) as (h1 & h2 & -> & ->).
        apply good_one. split; [eapply step_trans; eassumption|]. split; [exact C1|]. split; [eauto|].
        intros G I N v env A1 A2 A3 A4 A5. rewrite comb_one.
        destruct (V1 G I N v env A1) as (Va & Vb); try assumption.
        { eapply ext_trans; [exact (proj2 S2) | exact A2]. }
        rewrite comb_one in Va, Vb. destruct op; try discriminate Ea; cbn [hd tl app holds psat]; rewrite Va, Vb; reflexivity. }
    destruct mode as [o|]; [|exact (One fs b H)].
    cbn [elab_gen] in H. destruct (pbinop_eqb op o) eqn:Eo; [|exact (One fs b H)].
    assert (op = o) as -> by (destruct op, o; try discriminate Eo; reflexivity).
    destruct (Two (Some o) Hm _ _ _ _ _ _ H Hc) as (S1 & C1 & fa & fb & -> & _ & V1).
    split; [exact S1|]. split; [exact C1|]. split; [discriminate|].
    intros G I N v env A1 A2 A3 A4 A5. rewrite comb_app. destruct (V1 G I N v env A1 A2 A3 A4 A5) as (Va & Vb).
    destruct Hm as [Hm|[Hm|Hm]]; [discriminate| |]; injection Hm as ->; cbn [psat]; rewrite Va, Vb; reflexivity.
  - assert (H' : (edo (vs', g) <- pretype_vars vs g;
      if match q with PQuantEx => existsb (fun v => is_ttype (tv_ty v)) vs' | PQuantAll => false end
      then EAnomaly
      else
        edo (con, hs, b, g) <- elab_gen fl h None (con ++ vs) g;
        match vs' with
        | [] => EOk (con, hs, b, g)
        | _ => let '(f, g) := mk_indexed (fun i => match q with
                                                | PQuantAll => All i vs' (hd (Bot 0) hs)
                                                | PQuantEx => Ex i vs' (hd (Bot 0) hs)
                                                end) g in EOk (con, [f], b, g)
        end) = EOk (con', fs, b, g')) by (destruct mode; exact H).
    clear H. cbn [wk_form] in Hw. destruct Hw as (Hwv & Hwh).
    destruct (pretype_vars vs g) as [[vs' g1]| | |] eqn:Ev; cbn [ebind] in H'; try discriminate H'.
    destruct (pretype_vars_ok vs Hwv _ _ _ Ev) as (S1 & F1).
    match type of H' with (if ?c then _ else _) = _ => destruct c; [discriminate|] end.
    destruct (elab_gen fl h None (con ++ vs) g1) as [[[[con1 hs] b1] g2]| | |] eqn:Eh; cbn [ebind] in H'; try discriminate H'.
    destruct (IH (map fst vs ++ scope) None _ _ _ _ _ _ (or_introl eq_refl) Eh (con_ok_vars _ _ _ Hc Hwv) Hwh)
      as (S2 & C2 & (h' & ->) & V2); [reflexivity|].
    pose proof (con_ok_less scope _ _ (fun x Hx => in_or_app (map fst vs) scope x (or_intror Hx)) C2) as C3.
    assert (Hq : forall G (I : interp) (N : ninterp (D I) (T I)) (v : val I) env,
      tab_ok G -> tab_ext g2 G -> matches I N G -> defined_untyped N -> val_ok kappa scope G env v ->
      (forall_vars vs' (holds h') v <-> pforall vs (psat N tysym h) env) /\
      (exists_vars vs' (holds h') v <-> pexists vs (psat N tysym h) env)).
    { intros G I N v env A1 A2 A3 A4 A5. apply quant_ok with (G := G) (scope := scope); try assumption.
      - clear - F1 A2 S2. induction F1 as [|a b0 l l' (B1 & B2 & B3) _ IHF]; constructor; [|exact IHF].
        split; [exact B1|]. split; [exact B2|]. apply (proj2 A2), (proj2 (proj2 S2)). exact B3.
      - intros v0 env0 H0. rewrite <- (V2 G I N v0 env0 A1 A2 A3 A4 H0). symmetry. apply comb_one. }
    destruct vs' as [|v1 vs1].
    + injection H' as <- <- _ <-. inversion F1; subst. apply good_one.
      split; [eapply step_trans; eassumption|]. split; [exact C3|]. split; [eauto|].
      intros G I N v env A1 A2 A3 A4 A5. rewrite comb_one. destruct q; cbn [psat].
      * exact (proj1 (Hq G I N v env A1 A2 A3 A4 A5)).
      * exact (proj2 (Hq G I N v env A1 A2 A3 A4 A5)).
    + destruct (mk_indexed _ g2) as [f1 g3] eqn:E3. injection H' as <- <- _ <-.
      destruct (mk_indexed_step _ _ _ _ E3) as (S3 & i & ->). apply good_one.
      split; [eapply step_trans; [exact S1|]; eapply step_trans; eassumption|]. split; [exact C3|]. split; [eauto|].
      intros G I N v env A1 A2 A3 A4 A5. rewrite comb_one.
      assert (A2' : tab_ext g2 G) by (eapply ext_trans; [exact (proj2 S3) | exact A2]).
      destruct q; cbn [psat holds hd].
      * exact (proj1 (Hq G I N v env A1 A2' A3 A4 A5)).
      * exact (proj2 (Hq G I N v env A1 A2' A3 A4 A5)).
Qed.

End Sem.

(** ** The loop over the flattened formulas *)

Fixpoint elab_loop (fl : bool) (l : list pform) (con : context) (g : gen) : eres (context * list form * bool * gen) :=
  match l with
  | [] => EOk (con, [], false, g)
  | f :: r => edo (con, f', b1, g) <- elab_form fl con f g;
              edo (con, r', b2, g) <- elab_loop fl r con g;
              EOk (con, f' :: r', b1 || b2, g)
  end.
Lemma elab_loop_app fl l1 : forall l2 con g,
  elab_loop fl (l1 ++ l2) con g =
    edo (con, f1, b1, g) <- elab_loop fl l1 con g;
    edo (con, f2, b2, g) <- elab_loop fl l2 con g;
    EOk (con, f1 ++ f2, b1 || b2, g).
Proof.
  induction l1 as [|f r IH]; intros l2 con g.
  - cbn. now destruct (elab_loop fl l2 con g) as [[[[? ?] ?] ?]| | |].
  - cbn. destruct (elab_form fl con f g) as [[[[c f'] b1] g1]| | |]; cbn; try reflexivity.
    rewrite IH. destruct (elab_loop fl r c g1) as [[[[c2 f2] b2] g2]| | |]; cbn; try reflexivity.
    destruct (elab_loop fl l2 c2 g2) as [[[[c3 f3] b3] g3]| | |]; cbn; try reflexivity.
    now rewrite orb_assoc.
Qed.

(** a formula elaborated alone gives one formula *)
Lemma elab_gen_one fl f : forall con g con' fs b g', elab_gen fl f None con g = EOk (con', fs, b, g') -> exists h, fs = [h].
Proof.
  induction f as [| |s args|h IH|op l IHl r IHr|q vs h IH]; intros con g con' fs b g' H; cbn [elab_gen] in H.
  - cbn in H. injection H as _ <- _ _. eauto.
  - cbn in H. injection H as _ <- _ _. eauto.
  - ebreak H. injection H as _ <- _ _. eauto.
  - ebreak H. injection H as _ <- _ _. eauto.
  - destruct (is_assoc op); ebreak H; injection H as _ <- _ _; eauto.
  - ebreak H. match type of H with (if ?c then _ else _) = _ => destruct c; [discriminate|] end.
    ebreak H. destruct l; [|ebreak H; injection H as _ <- _ _; eauto]. injection H as <- <- <- <-. eapply IH. eassumption.
Qed.
Lemma elab_gen_form fl f con g : 
  elab_gen fl f None con g = edo (con, h, b, g) <- elab_form fl con f g; EOk (con, [h], b, g).
Proof.
  unfold elab_form. destruct (elab_gen fl f None con g) as [[[[c fs] b] g1]| | |] eqn:E; cbn; try reflexivity.
  destruct (elab_gen_one _ _ _ _ _ _ _ _ E) as (h & ->). reflexivity.
Qed.

(** 298-304: the loop over the formulas of [pflatten] *)
Theorem elab_gen_flatten fl op f : forall con g, elab_gen fl f (Some op) con g = elab_loop fl (pflatten f op) con g.
Proof.
  assert (One : forall f con g, elab_loop fl [f] con g = elab_gen fl f None con g).
  { intros f0 con g. rewrite elab_gen_form. cbn.
    destruct (elab_form fl con f0 g) as [[[[c h] b] g1]| | |]; cbn; try reflexivity. now rewrite orb_false_r. }
  induction f as [| |s args|h IH|o l IHl r IHr|q vs h IH]; intros con g; cbn [pflatten];
    try (rewrite One; reflexivity).
  destruct (pbinop_eqb o op) eqn:E.
  - rewrite elab_loop_app, <- IHl. cbn [elab_gen]. rewrite E.
    destruct (elab_gen fl l (Some op) con g) as [[[[c h] b] g1]| | |]; cbn [ebind]; try reflexivity. now rewrite IHr.
  - rewrite One. cbn [elab_gen]. rewrite E. reflexivity.
Qed.
