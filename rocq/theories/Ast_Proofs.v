(** Lemmas on the AST model: induction principles, C11, C12, C13, C14. *)
From Coq Require Import ZArith List Bool String Lia Classical_Prop.
From Verif Require Import LibSet_Model LibSet_Spec LibSet_Proofs Ast_Model Sem_Spec.
Import ListNotations.
Open Scope Z_scope.

(** ** Induction principles for the nested inductives *)
Section Ind.
Variable P : ty -> Prop.
Hypothesis Hvar : forall s, P (TyVar s).
Hypothesis Hbound : forall n i, P (TyBound n i).
Hypothesis Hmeta : forall n i f, P (TyMeta n i f).
Hypothesis Hcon : forall s l, Forall P l -> P (TyConstr s l).
Hypothesis Hprod : forall l, Forall P l -> P (TyProd l).
Hypothesis Hfun : forall a b, P a -> P b -> P (TyFunc a b).
Hypothesis Hpi : forall vs b, P b -> P (TyPi vs b).
Fixpoint ty_ind' (t : ty) : P t :=
  let go := fix go l : Forall P l :=
    match l with [] => Forall_nil _ | x :: r => Forall_cons _ (ty_ind' x) (go r) end in
  match t with
  | TyVar s => Hvar s
  | TyBound n i => Hbound n i
  | TyMeta n i f => Hmeta n i f
  | TyConstr s l => Hcon s l (go l)
  | TyProd l => Hprod l (go l)
  | TyFunc a b => Hfun a b (ty_ind' a) (ty_ind' b)
  | TyPi vs b => Hpi vs b (ty_ind' b)
  end.
End Ind.

Section IndT.
Variable P : term -> Prop.
Hypothesis Hid : forall i, P (TId i).
Hypothesis Hfun : forall p tys l, Forall P l -> P (Fun p tys l).
Hypothesis Hvar : forall i n, P (Var i n).
Hypothesis Hmeta : forall m, P (Meta m).
Fixpoint term_ind' (t : term) : P t :=
  match t with
  | TId i => Hid i
  | Fun p tys l => Hfun p tys l
      ((fix go l : Forall P l :=
         match l with [] => Forall_nil _ | x :: r => Forall_cons _ (term_ind' x) (go r) end) l)
  | Var i n => Hvar i n
  | Meta m => Hmeta m
  end.
End IndT.

Section IndF.
Variable P : form -> Prop.
Hypothesis Hall : forall i vs f, P f -> P (All i vs f).
Hypothesis Hex : forall i vs f, P f -> P (Ex i vs f).
Hypothesis Hor : forall i fs, Forall P fs -> P (Or i fs).
Hypothesis Hand : forall i fs, Forall P fs -> P (And i fs).
Hypothesis Hequ : forall i f g, P f -> P g -> P (Equ i f g).
Hypothesis Himp : forall i f g, P f -> P g -> P (Imp i f g).
Hypothesis Hnot : forall i f, P f -> P (Not i f).
Hypothesis Hpred : forall i p tys args, P (Pred i p tys args).
Hypothesis Htop : forall i, P (Top i).
Hypothesis Hbot : forall i, P (Bot i).
Fixpoint form_ind' (f : form) : P f :=
  let go := fix go l : Forall P l :=
    match l with [] => Forall_nil _ | x :: r => Forall_cons _ (form_ind' x) (go r) end in
  match f with
  | All i vs f => Hall i vs f (form_ind' f)
  | Ex i vs f => Hex i vs f (form_ind' f)
  | Or i fs => Hor i fs (go fs)
  | And i fs => Hand i fs (go fs)
  | Equ i f g => Hequ i f g (form_ind' f) (form_ind' g)
  | Imp i f g => Himp i f g (form_ind' f) (form_ind' g)
  | Not i f => Hnot i f (form_ind' f)
  | Pred i p tys args => Hpred i p tys args
  | Top i => Htop i
  | Bot i => Hbot i
  end.
End IndF.

(** ** C11: metavariables *)

Lemma meta_lawful : Lawful meta_eqb meta_ltb.
Proof.
  unfold meta_eqb, meta_ltb; constructor; intros; rewrite ?Z.ltb_lt, ?Z.ltb_ge, ?Z.eqb_eq in *; lia.
Qed.

Definition mok (s : mset) : Prop := ok meta_ltb s.
Definition has (s : mset) (m : meta) : Prop := InE meta_eqb m s.

Lemma mleaf_ok : mok Leaf.
Proof. split; simpl; auto. Qed.

Lemma munion_ok s s' : mok s -> mok s' ->
  exists u, mset_union s s' = Some u /\ mok u /\ forall m, has u m <-> has s m \/ has s' m.
Proof.
  intros O O'. unfold mset_union, set_union.
  destruct (set_add_ok _ _ meta_lawful (elements s') s O) as (u & E & Ou & Hu).
  exists u; split; [exact E|split; [exact Ou|]].
  intros m. unfold has. rewrite Hu. unfold InE at 3.
  split; intros [H|H]; auto; right; destruct H as (y & H1 & H2); exists y; split; auto;
    apply elements_InT; auto.
Qed.

Lemma msingleton_ok m : exists u, set_singleton meta_eqb meta_ltb m = Some u /\ mok u /\
  forall m', has u m' <-> m_index m = m_index m'.
Proof.
  exists (mkNode m). split; [reflexivity|]. split.
  - split; simpl.
    + repeat split; intros y [].
    + repeat split; lia.
  - intros m'. unfold has, InE, mkNode; simpl. unfold meta_eqb.
    split.
    + intros (y & [H|[H|H]] & E); try contradiction; subst; apply Z.eqb_eq in E; congruence.
    + intros E. exists m. split; auto. apply Z.eqb_eq; congruence.
Qed.

Lemma fold_union_ok {A} (g : A -> option mset) (Q : A -> meta -> Prop) l :
  Forall (fun a => exists s, g a = Some s /\ mok s /\ forall m, has s m <-> Q a m) l ->
  forall s0, mok s0 ->
  exists s, fold_left (fun acc a => union_opt acc (g a)) l (Some s0) = Some s /\ mok s /\
    forall m, has s m <-> has s0 m \/ exists a, In a l /\ Q a m.
Proof.
  induction 1 as [|a l (s & E & O & H) F IH]; intros s0 O0; simpl.
  - exists s0. split; [auto|]. split; [auto|]. intros m; split; auto. intros [|(a & [] & _)]; auto.
  - rewrite E. simpl. destruct (munion_ok s0 s O0 O) as (u & Eu & Ou & Hu). rewrite Eu.
    destruct (IH u Ou) as (s1 & E1 & O1 & H1). exists s1. split; [exact E1|]. split; auto.
    intros m. rewrite H1, Hu, H. split.
    + intros [[A1|A1]|(b & I & B)]; auto; right; [exists a|exists b]; auto.
    + intros [A1|(b & [->|I] & B)]; auto. right; exists b; auto.
Qed.

Lemma get_metas_fold p tys args : get_metas (Fun p tys args) =
  fold_left (fun acc a => union_opt acc (get_metas a)) args (Some Leaf).
Proof. reflexivity. Qed.

Lemma not_in_leaf m : ~ has Leaf m.
Proof. intros (y & [] & _). Qed.

Lemma get_metas_ok t : exists s, get_metas t = Some s /\ mok s /\
  forall m, has s m <-> occ_meta (m_index m) t.
Proof.
  induction t as [i|p tys l IH|i n|m] using term_ind'.
  - exists Leaf. split; [auto|]. split; [apply mleaf_ok|]. intros m; split; intros H;
      [exfalso; eapply not_in_leaf; eauto|inversion H].
  - rewrite get_metas_fold.
    destruct (fold_union_ok get_metas (fun a m => occ_meta (m_index m) a) l IH Leaf mleaf_ok)
      as (s & E & O & H).
    exists s. split; [exact E|]. split; auto. intros m. rewrite H. split.
    + intros [A|(a & I & A)]; [exfalso; eapply not_in_leaf; eauto|]. econstructor; eauto.
    + intros A; inversion A; subst. right; eauto.
  - exists Leaf. split; [auto|]. split; [apply mleaf_ok|]. intros m; split; intros H;
      [exfalso; eapply not_in_leaf; eauto|inversion H].
  - destruct (msingleton_ok m) as (u & E & O & H). exists u. split; [exact E|]. split; auto.
    intros m'. rewrite H. split; intros A; [constructor; auto|inversion A; auto].
Qed.

Lemma mcpy_ok s : mok s -> mok (nodeCpy s) /\ forall m, has (nodeCpy s) m <-> has s m.
Proof.
  intros O. destruct (nodeCpy_ok meta_ltb s O) as [O' H]. split; auto.
  intros m; unfold has, InE. split; intros (y & I & E); exists y; split; auto; apply H; auto.
Qed.

Lemma form_metas_ok f : exists s, form_metas f = Some s /\ mok s /\
  forall m, has s m <-> focc_meta (m_index m) f.
Proof.
  induction f using form_ind'; simpl.
  - destruct IHf as (s & E & O & Hs). exists s. split; [auto|]. split; [auto|]. intros m; rewrite Hs; split; intros A;
      [constructor; auto|inversion A; auto].
  - destruct IHf as (s & E & O & Hs). exists s. split; [auto|]. split; [auto|]. intros m; rewrite Hs; split; intros A;
      [constructor; auto|inversion A; auto].
  - destruct (fold_union_ok form_metas (fun a m => focc_meta (m_index m) a) fs H Leaf mleaf_ok)
      as (s & E & O & Hs).
    exists s. split; [exact E|]. split; auto. intros m. rewrite Hs. split.
    + intros [A|(a & I & A)]; [exfalso; eapply not_in_leaf; eauto|]. eapply focc_or; eauto.
    + intros A; inversion A; subst. right; eauto.
  - destruct (fold_union_ok form_metas (fun a m => focc_meta (m_index m) a) fs H Leaf mleaf_ok)
      as (s & E & O & Hs).
    exists s. split; [exact E|]. split; auto. intros m. rewrite Hs. split.
    + intros [A|(a & I & A)]; [exfalso; eapply not_in_leaf; eauto|]. eapply focc_and; eauto.
    + intros A; inversion A; subst. right; eauto.
  - destruct IHf1 as (s1 & E1 & O1 & H1), IHf2 as (s2 & E2 & O2 & H2). rewrite E1, E2. simpl.
    destruct (mcpy_ok s1 O1) as [Oc Hc].
    destruct (munion_ok (nodeCpy s1) s2 Oc O2) as (u & Eu & Ou & Hu). exists u. split; auto. split; auto.
    intros m. rewrite Hu, Hc, H1, H2. split.
    + intros [A|A]; [apply focc_equ1|apply focc_equ2]; auto.
    + intros A; inversion A; auto.
  - destruct IHf1 as (s1 & E1 & O1 & H1), IHf2 as (s2 & E2 & O2 & H2). rewrite E1, E2. simpl.
    destruct (mcpy_ok s1 O1) as [Oc Hc].
    destruct (munion_ok (nodeCpy s1) s2 Oc O2) as (u & Eu & Ou & Hu). exists u. split; auto. split; auto.
    intros m. rewrite Hu, Hc, H1, H2. split.
    + intros [A|A]; [apply focc_imp1|apply focc_imp2]; auto.
    + intros A; inversion A; auto.
  - destruct IHf as (s & E & O & Hs). exists s. split; [auto|]. split; [auto|]. intros m; rewrite Hs; split; intros A;
      [constructor; auto|inversion A; auto].
  - assert (F : Forall (fun t => exists s, get_metas t = Some s /\ mok s /\
        forall m, has s m <-> occ_meta (m_index m) t) args)
      by (apply Forall_forall; intros t _; apply get_metas_ok).
    destruct (fold_union_ok get_metas (fun a m => occ_meta (m_index m) a) args F Leaf mleaf_ok)
      as (s & E & O & Hs).
    exists s. split; [exact E|]. split; auto. intros m. rewrite Hs. split.
    + intros [A|(a & I & A)]; [exfalso; eapply not_in_leaf; eauto|]. eapply focc_pred; eauto.
    + intros A; inversion A; subst. right; eauto.
  - exists Leaf. split; [auto|]. split; [apply mleaf_ok|]. intros m; split; intros H;
      [exfalso; eapply not_in_leaf; eauto|inversion H].
  - exists Leaf. split; [auto|]. split; [apply mleaf_ok|]. intros m; split; intros H;
      [exfalso; eapply not_in_leaf; eauto|inversion H].
Qed.

Lemma has_find s m : mok s -> (find meta_eqb meta_ltb s m = true <-> has s m).
Proof. intros [B _]. apply (find_ok _ _ meta_lawful); auto. Qed.

Theorem get_metas_exact t : exists s, get_metas t = Some s /\
  forall m, find meta_eqb meta_ltb s m = true <-> occ_meta (m_index m) t.
Proof.
  destruct (get_metas_ok t) as (s & E & O & H). exists s. split; auto.
  intros m. rewrite has_find, H; auto. tauto.
Qed.
Theorem form_metas_exact f : exists s, form_metas f = Some s /\
  forall m, find meta_eqb meta_ltb s m = true <-> focc_meta (m_index m) f.
Proof.
  destruct (form_metas_ok f) as (s & E & O & H). exists s. split; auto.
  intros m. rewrite has_find, H; auto. tauto.
Qed.

(** ** C12: equality *)

Lemma list_eqb_reflect {A} (eqb : A -> A -> bool) (R : A -> A -> Prop) l1 :
  Forall (fun x => forall y, eqb x y = true <-> R x y) l1 ->
  forall l2, list_eqb eqb l1 l2 = true <-> Forall2 R l1 l2.
Proof.
  induction 1 as [|x l1 Hx F IH]; intros [|y l2]; simpl; split; intros H; try discriminate; auto;
    try (inversion H; fail).
  - apply andb_prop in H as [H1 H2]. constructor; [apply Hx|apply IH]; auto.
  - inversion H; subst. apply andb_true_intro; split; [apply Hx|apply IH]; auto.
Qed.

Lemma list_eqb_str l1 l2 : list_eqb String.eqb l1 l2 = true <-> l1 = l2.
Proof.
  rewrite (list_eqb_reflect String.eqb eq).
  - split; [induction 1; congruence|intros ->; induction l2; auto].
  - apply Forall_forall; intros; apply String.eqb_eq.
Qed.

Lemma ty_eqb_reflect a : forall b, ty_eqb a b = true <-> same_ty a b.
Proof.
  induction a using ty_ind'; intros [ | | | | | | ]; simpl; split; intros E; try discriminate;
    try (inversion E; fail); try (apply andb_prop in E as [E1 E2]).
  - apply String.eqb_eq in E; subst; constructor.
  - inversion E; apply String.eqb_refl.
  - apply String.eqb_eq in E; subst; constructor.
  - inversion E; apply String.eqb_refl.
  - apply String.eqb_eq in E1; apply Z.eqb_eq in E2; subst; constructor.
  - inversion E; rewrite String.eqb_refl, Z.eqb_refl; auto.
  - apply String.eqb_eq in E1; subst. constructor. apply (list_eqb_reflect ty_eqb same_ty l); auto.
  - inversion E; subst. rewrite String.eqb_refl; simpl. apply (list_eqb_reflect ty_eqb same_ty l); auto.
  - constructor. apply (list_eqb_reflect ty_eqb same_ty l); auto.
  - inversion E; subst. apply (list_eqb_reflect ty_eqb same_ty l); auto.
  - constructor; [apply IHa1|apply IHa2]; auto.
  - inversion E; subst. apply andb_true_intro; split; [apply IHa1|apply IHa2]; auto.
  - apply list_eqb_str in E1; subst. constructor; apply IHa; auto.
  - inversion E; subst. apply andb_true_intro; split; [apply list_eqb_str|apply IHa]; auto.
Qed.

Lemma tys_eqb_reflect l1 l2 : list_eqb ty_eqb l1 l2 = true <-> Forall2 same_ty l1 l2.
Proof. apply list_eqb_reflect. apply Forall_forall; intros; apply ty_eqb_reflect. Qed.

Theorem term_eqb_reflect a : forall b, term_eqb a b = true <-> same_term a b.
Proof.
  induction a using term_ind'; intros [ | | | ]; simpl; unfold id_eqb, meta_eqb;
    split; intros E; try discriminate; try (inversion E; fail).
  - constructor; apply Z.eqb_eq; auto.
  - inversion E; apply Z.eqb_eq; auto.
  - apply andb_prop in E as [E E3]; apply andb_prop in E as [E1 E2]. constructor.
    + apply Z.eqb_eq; auto.
    + apply tys_eqb_reflect; auto.
    + apply (list_eqb_reflect term_eqb same_term l); auto.
  - inversion E; subst. rewrite !andb_true_iff; repeat split.
    + apply Z.eqb_eq; auto.
    + apply tys_eqb_reflect; auto.
    + apply (list_eqb_reflect term_eqb same_term l); auto.
  - apply Z.eqb_eq in E; subst; constructor.
  - inversion E; apply Z.eqb_refl.
  - constructor; apply Z.eqb_eq; auto.
  - inversion E; apply Z.eqb_eq; auto.
Qed.

Lemma Forall2_refl {A} (R : A -> A -> Prop) l : Forall (fun x => R x x) l -> Forall2 R l l.
Proof. induction 1; auto. Qed.
Lemma Forall2_sym {A} (R : A -> A -> Prop) l1 : Forall (fun x => forall y, R x y -> R y x) l1 ->
  forall l2, Forall2 R l1 l2 -> Forall2 R l2 l1.
Proof. induction 1; intros l2 H1; inversion H1; subst; auto. Qed.
Lemma Forall2_trans {A} (R : A -> A -> Prop) l1 :
  Forall (fun x => forall y z, R x y -> R y z -> R x z) l1 ->
  forall l2 l3, Forall2 R l1 l2 -> Forall2 R l2 l3 -> Forall2 R l1 l3.
Proof. induction 1; intros l2 l3 H1 H2; inversion H1; subst; inversion H2; subst; eauto. Qed.

Lemma same_ty_refl t : same_ty t t.
Proof. induction t using ty_ind'; constructor; auto using Forall2_refl. Qed.
Lemma same_ty_sym t : forall u, same_ty t u -> same_ty u t.
Proof.
  induction t using ty_ind'; intros u S; inversion S; subst; constructor; eauto using Forall2_sym.
Qed.
Lemma same_ty_trans t : forall u w, same_ty t u -> same_ty u w -> same_ty t w.
Proof.
  induction t using ty_ind'; intros u w S1 S2; inversion S1; subst; inversion S2; subst; constructor;
    eauto using Forall2_trans.
Qed.
Lemma same_term_refl t : same_term t t.
Proof.
  induction t using term_ind'; constructor; auto using Forall2_refl.
  apply Forall2_refl, Forall_forall; intros; apply same_ty_refl.
Qed.
Lemma same_term_sym t : forall u, same_term t u -> same_term u t.
Proof.
  induction t using term_ind'; intros u S; inversion S; subst; constructor; auto using Forall2_sym.
  eapply Forall2_sym; eauto. apply Forall_forall; intros; apply same_ty_sym; auto.
Qed.
Lemma same_term_trans t : forall u w, same_term t u -> same_term u w -> same_term t w.
Proof.
  induction t using term_ind'; intros u w S1 S2; inversion S1; subst; inversion S2; subst; constructor;
    try congruence; eauto using Forall2_trans.
  eapply Forall2_trans; eauto. apply Forall_forall; intros; eapply same_ty_trans; eauto.
Qed.

Lemma term_eqb_refl t : term_eqb t t = true.
Proof. apply term_eqb_reflect, same_term_refl. Qed.
Lemma bool_iff a b : (a = true <-> b = true) -> a = b.
Proof. destruct a, b; intuition congruence. Qed.
Lemma term_eqb_sym t u : term_eqb t u = term_eqb u t.
Proof. apply bool_iff. rewrite !term_eqb_reflect. split; apply same_term_sym. Qed.

Theorem term_eqb_equivalence :
  (forall a, term_eqb a a = true) /\
  (forall a b, term_eqb a b = true -> term_eqb b a = true) /\
  (forall a b c, term_eqb a b = true -> term_eqb b c = true -> term_eqb a c = true) /\
  (forall a b, term_eqb a b = true <-> same_term a b).
Proof.
  repeat split; intros.
  - apply term_eqb_refl.
  - rewrite term_eqb_sym; auto.
  - rewrite term_eqb_reflect in *. eapply same_term_trans; eauto.
  - apply term_eqb_reflect; auto.
  - apply term_eqb_reflect; auto.
Qed.

(** Equal terms have the same value. *)
Lemma map_Forall2 {A B} (R : A -> A -> Prop) (g : A -> B) l1 :
  Forall (fun x => forall y, R x y -> g x = g y) l1 ->
  forall l2, Forall2 R l1 l2 -> map g l1 = map g l2.
Proof. induction 1; intros l2 S; inversion S; subst; simpl; f_equal; auto. Qed.
Lemma same_ty_ev {I} (v : val I) a : forall b, same_ty a b -> evty v a = evty v b.
Proof.
  induction a using ty_ind'; intros b S; inversion S; subst; simpl; auto; f_equal; auto;
  eapply map_Forall2; eauto.
Qed.
Lemma same_tys_ev {I} (v : val I) l1 l2 : Forall2 same_ty l1 l2 -> map (evty v) l1 = map (evty v) l2.
Proof. apply map_Forall2, Forall_forall. intros; apply same_ty_ev; auto. Qed.
Lemma same_term_ev {I} (v : val I) a : forall b, same_term a b -> ev v a = ev v b.
Proof.
  induction a using term_ind'; intros b S; inversion S; subst; simpl; try congruence.
  f_equal; auto; [apply same_tys_ev; auto|eapply map_Forall2; eauto].
Qed.

(** ** C13: negations *)

Definition unit_interp : interp :=
  mkInterp unit unit (fun _ _ _ => tt) (fun _ _ _ => True) (fun _ _ => tt) (fun _ => tt)
           (fun _ => tt) (fun _ _ => tt) (fun _ _ => tt).
Definition unit_val : val unit_interp :=
  @mkVal unit_interp (fun _ => tt) (fun _ => tt) (fun _ => tt) (fun _ _ => tt).

Lemma deep_ok f : forall b I (v : val I) g e, deep_without_not f b = (g, e) ->
  (if Bool.eqb b e then holds f v <-> holds g v else holds f v <-> ~ holds g v) /\
  (forall i h, g <> Not i h).
Proof.
  induction f using form_ind'; intros b I v g e E; simpl in E;
    try (injection E as <- <-; rewrite Bool.eqb_reflx; split; [tauto|congruence]).
  destruct (IHf (negb b) I v g e E) as [H1 H2]. split; auto.
  simpl. destruct b, e; simpl in *; rewrite H1; try tauto; split; try tauto; apply NNPP.
Qed.

Theorem simplify_negations_ok ix f :
  equiv (simplify_negations ix f) f /\
  (forall i j g, simplify_negations ix f <> Not i (Not j g)).
Proof.
  unfold simplify_negations. destruct (deep_without_not f true) as [g e] eqn:E.
  split.
  - intros I v. destruct (deep_ok f true I v g e E) as [H _]. destruct e; simpl in *; tauto.
  - destruct f; simpl in E;
    try (injection E as <- <-; intros ? ? ?; discriminate).
    assert (N : forall i h, g <> Not i h).
    { intros i h ->.
      pose proof (fun I (v : val I) => proj2 (deep_ok _ _ I v _ _ E) i h eq_refl) as K.
      apply (K unit_interp unit_val). }
    destruct e; intros i j h H; [eapply N; eauto|injection H as _ H; eapply N; eauto].
Qed.

Theorem remove_neg_ok f : (equiv (remove_neg f) f \/ (forall i, equiv (Not i (remove_neg f)) f)) /\
  (forall i g, remove_neg f <> Not i g).
Proof.
  unfold remove_neg. destruct (deep_without_not f true) as [g e] eqn:E. simpl. split.
  - destruct e; [left|right; intros i]; intros I v; destruct (deep_ok f true I v g _ E) as [H _]; simpl in *; tauto.
  - intros i h ->.
    pose proof (fun I (v : val I) => proj2 (deep_ok _ _ I v _ _ E) i h eq_refl) as K.
    apply (K unit_interp unit_val).
Qed.
