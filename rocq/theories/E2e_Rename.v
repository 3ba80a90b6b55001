(** What RenameVariables keeps: no metavariable, no type variable, no quantifier on types, free variables. *)
From Coq Require Import ZArith List Bool String Lia.
From Verif Require Import Ast_Model Sem_Spec Occ_Spec Free_Spec Skolem_Spec Rename_Spec Ast_Proofs Sem_Proofs Free_Proofs Rename_Proofs.
Import ListNotations.
Open Scope Z_scope.

Definition bare (f : form) : Prop := f_metas f = [] /\ f_tymetas f = [] /\ f_tyvars f = [] /\ no_ty_binders f.

Lemma flat_nil {A B} (p : A -> list B) l : flat_map p l = [] <-> Forall (fun a => p a = []) l.
Proof.
  split.
  - induction l as [|a r IH]; cbn; intros H; [constructor|]. apply app_eq_nil in H as (H1 & H2). constructor; auto.
  - induction 1 as [|a r H _ IH]; cbn; auto. now rewrite H.
Qed.

(** ** type variables by type variables *)
Section Ty.
Variables (n : string) (i : Z) (new : ty).
Lemma subst_ty_id t : ty_tyvars t = [] -> subst_ty (TyBound n i) new t = t.
Proof.
  induction t using ty_ind'; cbn; intros V; auto; try discriminate.
  - f_equal. rewrite flat_nil in V. induction H as [|a r Ha _ IH]; cbn; auto. inversion V; subst. now rewrite Ha, IH.
  - f_equal. rewrite flat_nil in V. induction H as [|a r Ha _ IH]; cbn; auto. inversion V; subst. now rewrite Ha, IH.
  - apply app_eq_nil in V as (V1 & V2). now rewrite IHt1, IHt2.
  - now rewrite IHt.
Qed.
Lemma subst_tys_id l : flat_map ty_tyvars l = [] -> map (subst_ty (TyBound n i) new) l = l.
Proof. rewrite flat_nil. induction 1; cbn; auto. now rewrite subst_ty_id, IHForall. Qed.
Lemma term_subst_id t : t_tyvars t = [] -> term_subst_ty (TyBound n i) new t = t.
Proof.
  induction t as [x|p tys l IH|x m|m] using term_ind'; cbn; intros V; auto.
  apply app_eq_nil in V as (V1 & V2). rewrite subst_tys_id by auto. f_equal. rewrite flat_nil in V2.
  induction IH as [|a r Ha _ IHr]; cbn; auto. inversion V2; subst. now rewrite Ha, IHr.
Qed.
Lemma terms_subst_id l : flat_map t_tyvars l = [] -> map (term_subst_ty (TyBound n i) new) l = l.
Proof. rewrite flat_nil. induction 1; cbn; auto. now rewrite term_subst_id, IHForall. Qed.

Lemma collect_subst {A} (c : ident -> list ty -> list term -> list A) f : f_tyvars f = [] ->
  f_collect c (form_subst_ty (TyBound n i) new f) = f_collect c f.
Proof.
  assert (L : forall fs, Forall (fun f => f_tyvars f = [] -> f_collect c (form_subst_ty (TyBound n i) new f) = f_collect c f) fs ->
    flat_map f_tyvars fs = [] -> flat_map (f_collect c) (map (form_subst_ty (TyBound n i) new) fs) = flat_map (f_collect c) fs).
  { induction 1 as [|a r Ha _ IH]; cbn; auto. intros V. apply app_eq_nil in V as (V1 & V2). now rewrite Ha, IH. }
  induction f using form_ind'; intros V; cbn [form_subst_ty f_collect]; auto.
  - apply app_eq_nil in V as (V1 & V2). now rewrite IHf1, IHf2.
  - apply app_eq_nil in V as (V1 & V2). now rewrite IHf1, IHf2.
  - cbn in V. apply app_eq_nil in V as (V1 & V2). now rewrite subst_tys_id, terms_subst_id.
Qed.
End Ty.

Lemma ttype_subst n i n' i' t : is_ttype (subst_ty (TyBound n i) (TyBound n' i') t) = is_ttype t.
Proof.
  destruct t; cbn; auto.
  - match goal with |- context [if ?c then _ else _] => destruct c end; reflexivity.
  - unfold is_ttype, tType. cbn. destruct args; reflexivity.
Qed.
Lemma unbind_subst n i n' i' vs A :
  fold_right unbind A (map (tvar_subst_ty (TyBound n i) (TyBound n' i')) vs) = fold_right unbind A vs.
Proof. induction vs as [|x r IH]; cbn [map fold_right]; auto. rewrite IH. unfold unbind, tvar_subst_ty. cbn [tv_ty tv_index]. now rewrite ttype_subst. Qed.
Lemma fv_subst n i n' i' f : f_tyvars f = [] -> fv (form_subst_ty (TyBound n i) (TyBound n' i') f) = fv f.
Proof.
  assert (L : forall fs, Forall (fun f => f_tyvars f = [] -> fv (form_subst_ty (TyBound n i) (TyBound n' i') f) = fv f) fs ->
    flat_map f_tyvars fs = [] -> flat_map fv (map (form_subst_ty (TyBound n i) (TyBound n' i')) fs) = flat_map fv fs).
  { induction 1 as [|a r Ha _ IH]; cbn; auto. intros V. apply app_eq_nil in V as (V1 & V2). now rewrite Ha, IH. }
  induction f using form_ind'; intros V; cbn [form_subst_ty fv]; auto.
  - now rewrite unbind_subst, IHf.
  - now rewrite unbind_subst, IHf.
  - apply app_eq_nil in V as (V1 & V2). now rewrite IHf1, IHf2.
  - apply app_eq_nil in V as (V1 & V2). now rewrite IHf1, IHf2.
  - cbn in V. apply app_eq_nil in V as (V1 & V2). now rewrite terms_subst_id.
Qed.
Lemma binders_subst n i n' i' f : f_binders (form_subst_ty (TyBound n i) (TyBound n' i') f) =
  map (tvar_subst_ty (TyBound n i) (TyBound n' i')) (f_binders f).
Proof.
  induction f using form_ind'; cbn; auto; rewrite ?map_app, ?IHf, ?IHf1, ?IHf2; auto.
  - induction H as [|a r Ha _ IH]; cbn; auto. now rewrite map_app, Ha, IH.
  - induction H as [|a r Ha _ IH]; cbn; auto. now rewrite map_app, Ha, IH.
Qed.
Lemma bare_subst n i n' i' f : bare f -> bare (form_subst_ty (TyBound n i) (TyBound n' i') f).
Proof.
  intros (A & B & C & E). split; [|split; [|split]].
  - unfold f_metas. now rewrite collect_subst.
  - unfold f_tymetas. now rewrite collect_subst.
  - unfold f_tyvars at 1. now rewrite collect_subst.
  - intros x Hx. rewrite binders_subst in Hx. apply in_map_iff in Hx as (y & <- & Hy). unfold tvar_subst_ty. cbn [tv_ty]. rewrite ttype_subst. auto.
Qed.

(** ** a variable by a variable *)
Section Rep.
Variables (i j : Z) (n m : string).
Definition rest (A A' : list Z) : Prop := forall x, In x A' -> (In x A /\ x <> i) \/ x = j.
Definition tkept (t t' : term) : Prop := rest (t_vars t) (t_vars t') /\ incl (t_metas t') (t_metas t) /\
  incl (t_tymetas t') (t_tymetas t) /\ incl (t_tyvars t') (t_tyvars t).
Lemma rest_app A A' B B' : rest A A' -> rest B B' -> rest (A ++ B) (A' ++ B').
Proof. intros H1 H2 x. rewrite !in_app_iff. intros [H|H]; [apply H1 in H|apply H2 in H]; tauto. Qed.
Lemma incl_app2 {A} (l l' r r' : list A) : incl l' l -> incl r' r -> incl (l' ++ r') (l ++ r).
Proof. intros H1 H2. apply incl_app; [now apply incl_appl|now apply incl_appr]. Qed.
Lemma tkepts l l' : Forall2 tkept l l' -> rest (flat_map t_vars l) (flat_map t_vars l') /\ incl (flat_map t_metas l') (flat_map t_metas l) /\
  incl (flat_map t_tymetas l') (flat_map t_tymetas l) /\ incl (flat_map t_tyvars l') (flat_map t_tyvars l).
Proof.
  induction 1 as [|a b l l' (A1 & A2 & A3 & A4) _ (B1 & B2 & B3 & B4)]; cbn.
  - repeat split; try apply incl_refl. intros x [].
  - split; [now apply rest_app|]. split; [|split]; now apply incl_app2.
Qed.
Lemma rep_term t : forall t' b, replace_tt (Var i n) (Var j m) t = Some (t', b) -> tkept t t'.
Proof.
  induction t as [x|p tys l IH|x k|k] using term_ind'; intros t' b E.
  - discriminate.
  - rewrite replace_tt_fun in E. cbn [term_index] in E. destruct (i =? id_index p) eqn:Ei.
    + injection E as <- _. split; [intros y [<-|[]]; now right|]. split; [|split]; intros y [].
    + destruct (replace_tt_list (Var i n) (Var j m) l) as [[l' b']|] eqn:El; [|discriminate]. injection E as <- _.
      destruct (tkepts _ _ (rep_list i n (Var j m) tkept _ _ _ IH El)) as (A1 & A2 & A3 & A4).
      split; [exact A1|]. split; [exact A2|]. cbn. split; apply incl_app2; auto; apply incl_refl.
  - cbn in E. destruct (i =? x) eqn:Ei; injection E as <- _.
    + split; [intros y [<-|[]]; now right|]. split; [|split]; intros y [].
    + apply Z.eqb_neq in Ei. split; [intros y [<-|[]]; left; split; [now left|auto]|]. split; [|split]; apply incl_refl.
  - cbn [replace_tt] in E. destruct (term_eqb (Var i n) (Var j m)); injection E as <- _.
    + split; [intros y [<-|[]]; now right|]. split; [|split]; intros y [].
    + split; [intros y []|]. split; [|split]; apply incl_refl.
Qed.
Definition fkept (f f' : form) : Prop := rest (fv f) (fv f') /\ incl (f_metas f') (f_metas f) /\
  incl (f_tymetas f') (f_tymetas f) /\ incl (f_tyvars f') (f_tyvars f) /\ f_binders f' = f_binders f.
Lemma rest_unbind vs A A' : rest A A' -> rest (fold_right unbind A vs) (fold_right unbind A' vs).
Proof.
  intros H. induction vs as [|y r IH]; cbn; auto. unfold unbind at 1 3.
  destruct (is_ttype (tv_ty y)); auto. intros x. rewrite !filter_In. intros (H1 & H2). apply IH in H1. tauto.
Qed.
Lemma rep_formula f : forall f' b, replace_term (Var i n) (Var j m) f = Some (f', b) -> fkept f f'.
Proof.
  assert (L : forall fs, Forall (fun f => forall f' b, replace_term (Var i n) (Var j m) f = Some (f', b) -> fkept f f') fs ->
    forall fs' b, (fix go (l : list form) : option (list form * bool) :=
      match l with
      | [] => Some ([], false)
      | a :: r =>
        match replace_term (Var i n) (Var j m) a, go r with
        | Some (a', b), Some (r', b') => Some (a' :: r', b || b')
        | _, _ => None
        end
      end) fs = Some (fs', b) ->
    rest (flat_map fv fs) (flat_map fv fs') /\ incl (flat_map f_metas fs') (flat_map f_metas fs) /\
    incl (flat_map f_tymetas fs') (flat_map f_tymetas fs) /\ incl (flat_map f_tyvars fs') (flat_map f_tyvars fs) /\
    flat_map f_binders fs' = flat_map f_binders fs).
  { induction 1 as [|a l Ha Hl IH]; intros fs' b E.
    - injection E as <- _. cbn. split; [intros x []|]. repeat split; apply incl_refl.
    - destruct (replace_term (Var i n) (Var j m) a) as [[a' b1]|] eqn:E1; [|discriminate].
      match type of E with match ?X with _ => _ end = _ => destruct X as [[l' b2]|] eqn:E2; [|discriminate] end.
      injection E as <- _. destruct (Ha _ _ eq_refl) as (A1 & A2 & A3 & A4 & A5). destruct (IH _ _ eq_refl) as (B1 & B2 & B3 & B4 & B5).
      cbn. split; [now apply rest_app|]. split; [now apply incl_app2|]. split; [now apply incl_app2|]. split; [now apply incl_app2|congruence]. }
  induction f using form_ind'; intros f' b E; cbn in E.
  - destruct (replace_term _ _ f) as [[g b1]|] eqn:E1; [|discriminate]. injection E as <- _.
    destruct (IHf _ _ eq_refl) as (A1 & A2 & A3 & A4 & A5). split; [now apply rest_unbind|]. repeat split; auto. cbn. congruence.
  - destruct (replace_term _ _ f) as [[g b1]|] eqn:E1; [|discriminate]. injection E as <- _.
    destruct (IHf _ _ eq_refl) as (A1 & A2 & A3 & A4 & A5). split; [now apply rest_unbind|]. repeat split; auto. cbn. congruence.
  - match type of E with match ?X with _ => _ end = _ => destruct X as [[l' b2]|] eqn:E2; [|discriminate] end.
    injection E as <- _. exact (L _ H _ _ E2).
  - match type of E with match ?X with _ => _ end = _ => destruct X as [[l' b2]|] eqn:E2; [|discriminate] end.
    injection E as <- _. exact (L _ H _ _ E2).
  - destruct (replace_term _ _ f1) as [[g1 b1]|] eqn:E1; [|discriminate].
    destruct (replace_term _ _ f2) as [[g2 b2]|] eqn:E2; [|discriminate]. injection E as <- _.
    destruct (IHf1 _ _ eq_refl) as (A1 & A2 & A3 & A4 & A5). destruct (IHf2 _ _ eq_refl) as (B1 & B2 & B3 & B4 & B5).
    split; [now apply rest_app|]. split; [now apply incl_app2|]. split; [now apply incl_app2|]. split; [now apply incl_app2|]. cbn. congruence.
  - destruct (replace_term _ _ f1) as [[g1 b1]|] eqn:E1; [|discriminate].
    destruct (replace_term _ _ f2) as [[g2 b2]|] eqn:E2; [|discriminate]. injection E as <- _.
    destruct (IHf1 _ _ eq_refl) as (A1 & A2 & A3 & A4 & A5). destruct (IHf2 _ _ eq_refl) as (B1 & B2 & B3 & B4 & B5).
    split; [now apply rest_app|]. split; [now apply incl_app2|]. split; [now apply incl_app2|]. split; [now apply incl_app2|]. cbn. congruence.
  - destruct (replace_term _ _ f) as [[g b1]|] eqn:E1; [|discriminate]. injection E as <- _. exact (IHf _ _ eq_refl).
  - destruct (replace_tt_list _ _ args) as [[l b1]|] eqn:E1; [|discriminate]. injection E as <- _.
    assert (F : Forall (fun t => forall t' b, replace_tt (Var i n) (Var j m) t = Some (t', b) -> tkept t t') args)
      by (apply Forall_forall; intros t _; apply rep_term).
    destruct (tkepts _ _ (rep_list i n (Var j m) tkept _ _ _ F E1)) as (A1 & A2 & A3 & A4).
    split; [exact A1|]. split; [exact A2|]. unfold f_tymetas, f_tyvars. cbn.
    split; [|split; [|reflexivity]]; apply incl_app2; auto; apply incl_refl.
  - injection E as <- _. split; [intros x []|]. repeat split; apply incl_refl.
  - injection E as <- _. split; [intros x []|]. repeat split; apply incl_refl.
Qed.
Lemma bare_rep f f' b : bare f -> replace_term (Var i n) (Var j m) f = Some (f', b) -> bare f'.
Proof.
  intros (A & B & C & E) R. destruct (rep_formula _ _ _ R) as (_ & R2 & R3 & R4 & R5).
  split; [|split; [|split]].
  - apply incl_l_nil. now rewrite <- A.
  - apply incl_l_nil. now rewrite <- B.
  - apply incl_l_nil. now rewrite <- C.
  - intros x Hx. rewrite R5 in Hx. auto.
Qed.
End Rep.

(** ** RenameVariables *)
Definition pairs_ok (ps : list (ty * ty)) : Prop := Forall (fun p => exists a b c d, p = (TyBound a b, TyBound c d)) ps.
Lemma pairs_subst ps : pairs_ok ps -> forall v, tv_index (tvar_subst_pairs ps v) = tv_index v /\ is_ttype (tv_ty (tvar_subst_pairs ps v)) = is_ttype (tv_ty v).
Proof.
  unfold tvar_subst_pairs. induction 1 as [|p r (a & b & c & d & ->) _ IH]; intros v; cbn; auto.
  destruct (IH (tvar_subst_ty (TyBound a b) (TyBound c d) v)) as (I1 & I2). rewrite I1, I2. unfold tvar_subst_ty. cbn [tv_ty tv_index]. now rewrite ttype_subst.
Qed.
Lemma loop_bare vs : forall nvs tys h g nvs' tys' h' g', rename_loop vs (nvs, tys, h) g = Some ((nvs', tys', h'), g') ->
  bare h -> pairs_ok tys -> (forall x, In x nvs -> is_ttype (tv_ty x) = false) -> (forall x, In x vs -> is_ttype (tv_ty x) = false) ->
  bare h' /\ pairs_ok tys' /\ (forall x, In x nvs' -> is_ttype (tv_ty x) = false) /\ incl nvs nvs' /\
  forall y, In y (fv h') -> (In y (fv h) /\ forall x, In x vs -> tv_index x <> y) \/ In y (map tv_index nvs').
Proof.
  induction vs as [|v r IH]; intros nvs tys h g nvs' tys' h' g' H B P N V; cbn [rename_loop] in H.
  - injection H as <- <- <- _. repeat split; auto; try apply B; try apply incl_refl. 
  - unfold rename_step in H.
    destruct (maker_new_var (tv_name v) g) as [k g1]. destruct (maker_var (append (tv_name v) (dec k)) g1) as [j g2].
    destruct (replace_term (Var (tv_index v) (tv_name v)) (Var j (append (tv_name v) (dec k))) h) as [[h1 b]|] eqn:R; [|discriminate].
    pose proof (bare_rep _ _ _ _ _ _ _ B R) as B1. destruct (rep_formula _ _ _ _ _ _ _ R) as (R1 & _).
    set (nv := mkTV (append (tv_name v) (dec k)) j (tv_ty v)) in *.
    assert (N1 : forall x, In x (nvs ++ [nv]) -> is_ttype (tv_ty x) = false).
    { intros x Hx. apply in_app_iff in Hx as [Hx|[<-|[]]]; auto. exact (V v (or_introl eq_refl)). }
    assert (V1 : forall x, In x r -> is_ttype (tv_ty x) = false) by (intros x Hx; apply V; now right).
    assert (K : forall h2 tys2, rename_loop r (nvs ++ [nv], tys2, h2) g2 = Some ((nvs', tys', h'), g') -> bare h2 -> pairs_ok tys2 -> fv h2 = fv h1 ->
      bare h' /\ pairs_ok tys' /\ (forall x, In x nvs' -> is_ttype (tv_ty x) = false) /\ incl nvs nvs' /\
      forall y, In y (fv h') -> (In y (fv h) /\ forall x, In x (v :: r) -> tv_index x <> y) \/ In y (map tv_index nvs')).
    { intros h2 tys2 H2 B2 P2 F2. destruct (IH _ _ _ _ _ _ _ _ H2 B2 P2 N1 V1) as (C1 & C2 & C3 & C4 & C5).
      split; auto. split; auto. split; auto. split; [intros x Hx; apply C4, in_or_app; now left|].
      intros y Hy. destruct (C5 y Hy) as [(D1 & D2)|D]; [|now right]. rewrite F2 in D1. destruct (R1 y D1) as [(D3 & D4)|D3].
      - left. split; auto. intros x [<-|Hx]; auto.
      - right. subst y. apply in_map_iff. exists nv. split; auto. apply C4, in_or_app. right. now left. }
    destruct b; cbn in H.
    + apply (K _ _ H); auto.
    + apply (K _ _ H); auto.
      * now apply bare_subst.
      * apply Forall_app. split; auto. constructor; auto. repeat eexists.
      * apply fv_subst. apply B1.
Qed.

Lemma not_unbound vs A y : In y A -> (forall x, In x vs -> tv_index x <> y) -> In y (fold_right unbind A vs).
Proof.
  intros H. induction vs as [|x r IH]; cbn; auto. intros N. unfold unbind at 1. destruct (is_ttype (tv_ty x)).
  - apply IH. intros z Hz. apply N. now right.
  - apply filter_In. split; [apply IH; intros z Hz; apply N; now right|]. apply negb_true_iff, Z.eqb_neq. intros ->. now apply (N x (or_introl eq_refl)).
Qed.
Lemma unbound vs A y : (forall x, In x vs -> is_ttype (tv_ty x) = false) -> In y (fold_right unbind A vs) -> In y A /\ ~ In y (map tv_index vs).
Proof.
  intros V. induction vs as [|x r IH]; cbn; auto. unfold unbind at 1. rewrite (V x (or_introl eq_refl)). intros H. apply filter_In in H as (H & Ne).
  destruct IH as (I1 & I2); auto; [intros z Hz; apply V; now right|]. split; auto. intros [E|E]; auto. subst. rewrite Z.eqb_refl in Ne. discriminate.
Qed.

Definition rbare (f : form) : Prop := forall g f' g', rename_variables f g = Some (f', g') -> bare f -> bare f' /\ incl (fv f') (fv f).

Lemma bare_list k i fs : k = Or \/ k = And -> (bare (k i fs) <-> Forall bare fs).
Proof.
  intros K. assert (X : bare (k i fs) <-> flat_map f_metas fs = [] /\ flat_map f_tymetas fs = [] /\ flat_map f_tyvars fs = [] /\
    forall x, In x (flat_map f_binders fs) -> is_ttype (tv_ty x) = false) by (destruct K; subst; reflexivity).
  rewrite X, !flat_nil, !Forall_forall. unfold bare, no_ty_binders. split.
  - intros (A & B & C & E) f Hf. repeat split; auto. intros x Hx. apply E, in_flat_map. eauto.
  - intros H. repeat split; try (intros f Hf; now apply H). intros x Hx. apply in_flat_map in Hx as (f & Hf & Hx). now apply (H f Hf).
Qed.
Lemma bare_two k i a b : k = Equ \/ k = Imp -> (bare (k i a b) <-> bare a /\ bare b).
Proof.
  intros K. assert (X : bare (k i a b) <-> f_metas a ++ f_metas b = [] /\ f_tymetas a ++ f_tymetas b = [] /\ f_tyvars a ++ f_tyvars b = [] /\
    forall x, In x (f_binders a ++ f_binders b) -> is_ttype (tv_ty x) = false) by (destruct K; subst; reflexivity).
  rewrite X. unfold bare, no_ty_binders. split.
  - intros (A & B & C & E). apply app_eq_nil in A as (?&?), B as (?&?), C as (?&?). repeat split; auto; intros x Hx; apply E, in_app_iff; auto.
  - intros ((->&->&->&E1)&(->&->&->&E2)). repeat split; auto. intros x Hx. apply in_app_iff in Hx as [Hx|Hx]; auto.
Qed.

Lemma rename_bare f : rbare f.
Proof.
  assert (L : forall fs, Forall rbare fs -> forall g fs' g', rn_list fs g = Some (fs', g') -> Forall bare fs -> Forall bare fs' /\ incl (flat_map fv fs') (flat_map fv fs)).
  { induction 1 as [|a r Ha _ IH]; intros g fs' g' E B; cbn in E.
    - injection E as <- _. split; [constructor|apply incl_refl].
    - destruct (rename_variables a g) as [[a' g1]|] eqn:E1; [|discriminate]. fold rn_list in E.
      destruct (rn_list r g1) as [[r' g2]|] eqn:E2; [|discriminate]. injection E as <- _. inversion B; subst.
      destruct (Ha _ _ _ E1) as (A1 & A2); auto. destruct (IH _ _ _ E2) as (B1 & B2); auto. split; [constructor; auto|]. cbn. now apply incl_app2. }
  assert (Qt : forall (k : Z -> list tvar -> form -> form) i vs h, k = All \/ k = Ex -> rbare h -> rbare (k i vs h)).
  { intros k i vs h K IHh g f' g' E B.
    assert (E' : match rename_variables h g with None => None | Some (h', g1) =>
      match rename_loop vs ([], [], h') g1 with
      | Some ((nvs, tys, h''), g2) => Some (k i (map (tvar_subst_pairs tys) nvs) h'', g2) | None => None end end = Some (f', g'))
      by (destruct K; subst; exact E). clear E.
    destruct (rename_variables h g) as [[h' g1]|] eqn:E1; [|discriminate].
    destruct (rename_loop vs ([], [], h') g1) as [[[[nvs tys] h''] g2]|] eqn:E2; [|discriminate]. injection E' as <- _.
    assert (Bh : bare h /\ forall x, In x vs -> is_ttype (tv_ty x) = false).
    { destruct K; subst; destruct B as (B1 & B2 & B3 & B4); (split; [repeat split; auto|]); intros x Hx; apply B4; cbn; apply in_app_iff; auto. }
    destruct Bh as (Bh & Bv). destruct (IHh _ _ _ E1 Bh) as (Bh' & F1).
    destruct (loop_bare _ _ _ _ _ _ _ _ _ E2 Bh') as (C1 & C2 & C3 & _ & C5); auto; [constructor|intros x []|].
    assert (V : forall x, In x (map (tvar_subst_pairs tys) nvs) -> is_ttype (tv_ty x) = false).
    { intros x Hx. apply in_map_iff in Hx as (y & <- & Hy). rewrite (proj2 (pairs_subst _ C2 y)). auto. }
    assert (MI : map tv_index (map (tvar_subst_pairs tys) nvs) = map tv_index nvs).
    { rewrite map_map. apply map_ext. intros y. apply (pairs_subst _ C2 y). }
    split.
    - assert (Bq : forall x, In x (map (tvar_subst_pairs tys) nvs ++ f_binders h'') -> is_ttype (tv_ty x) = false).
      { intros x Hx. apply in_app_iff in Hx as [Hx|Hx]; auto. now apply C1. }
      destruct K; subst; (split; [apply C1|]; split; [apply C1|]; split; [apply C1|exact Bq]).
    - assert (I : incl (fold_right unbind (fv h'') (map (tvar_subst_pairs tys) nvs)) (fold_right unbind (fv h) vs)).
      { intros y Hy. destruct (unbound _ _ _ V Hy) as (Y1 & Y2). rewrite MI in Y2. destruct (C5 y Y1) as [(Y3 & Y4)|Y3]; [|contradiction].
        apply not_unbound; auto. }
      destruct K; subst; exact I. }
  induction f using form_ind'.
  - apply Qt; auto.
  - apply Qt; auto.
  - intros g f' g' E B. cbn [rename_variables] in E. fold rn_list in E. destruct (rn_list fs g) as [[l g1]|] eqn:E1; [|discriminate].
    injection E as <- _. rewrite (bare_list Or) in B by auto. destruct (L _ H _ _ _ E1 B). split; [now apply (bare_list Or); auto|auto].
  - intros g f' g' E B. cbn [rename_variables] in E. fold rn_list in E. destruct (rn_list fs g) as [[l g1]|] eqn:E1; [|discriminate].
    injection E as <- _. rewrite (bare_list And) in B by auto. destruct (L _ H _ _ _ E1 B). split; [now apply (bare_list And); auto|auto].
  - intros g f' g' E B. cbn [rename_variables] in E. destruct (rename_variables f1 g) as [[a g1]|] eqn:E1; [|discriminate].
    destruct (rename_variables f2 g1) as [[b g2]|] eqn:E2; [|discriminate]. injection E as <- _. rewrite (bare_two Equ) in B by auto.
    destruct B as (B1 & B2). destruct (IHf1 _ _ _ E1 B1). destruct (IHf2 _ _ _ E2 B2). split; [apply (bare_two Equ); auto|]. cbn. now apply incl_app2.
  - intros g f' g' E B. cbn [rename_variables] in E. destruct (rename_variables f1 g) as [[a g1]|] eqn:E1; [|discriminate].
    destruct (rename_variables f2 g1) as [[b g2]|] eqn:E2; [|discriminate]. injection E as <- _. rewrite (bare_two Imp) in B by auto.
    destruct B as (B1 & B2). destruct (IHf1 _ _ _ E1 B1). destruct (IHf2 _ _ _ E2 B2). split; [apply (bare_two Imp); auto|]. cbn. now apply incl_app2.
  - intros g f' g' E B. cbn [rename_variables] in E. destruct (rename_variables f g) as [[a g1]|] eqn:E1; [|discriminate]. injection E as <- _.
    exact (IHf _ _ _ E1 B).
  - intros g f' g' E B. injection E as <- _. split; auto. apply incl_refl.
  - intros g f' g' E B. injection E as <- _. split; auto. apply incl_refl.
  - intros g f' g' E B. injection E as <- _. split; auto. apply incl_refl.
Qed.
