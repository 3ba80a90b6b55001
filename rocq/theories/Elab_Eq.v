(** The type at which an equality is taken. *)
From Coq Require Import ZArith String List Bool.
From Verif Require Import Ast_Model Sem_Spec Elab_Model Elab_Spec Elab_Proofs Elab_Types.
Import ListNotations.
Open Scope list_scope.

(** ** Specification *)

(** The type written [t], where the variables stand for the written types given by [sigma]. *)
Fixpoint pread (sigma : string -> ptype) (t : ptype) : ptype :=
  match t with
  | PTyVar n => sigma n
  | PTyFun s args => PTyFun s (map (pread sigma) args)
  | _ => t
  end.

(** The types of individuals: variables and applied constructors. *)
Inductive atomic : ptype -> Prop :=
| Ac_var : forall n, atomic (PTyVar n)
| Ac_fun : forall s args, Forall atomic args -> atomic (PTyFun s args).

(** A term used as a type, read as a type. *)
Fixpoint as_type (t : pterm) : ptype :=
  match t with
  | PVar n => PTyVar n
  | PFun s args _ => PTyFun s (map as_type args)
  end.

(** The type of a parsed term in a context: the declared one, for the type arguments of the term; [kd] says which
    terms are types.  The type of a number is the one written in its syntax, that of an undeclared symbol is $i. *)
Inductive typed_as (kd : pterm -> bool) (con : context) : pterm -> ptype -> Prop :=
| Ta_var : forall n t, declared con n t -> atomic t -> typed_as kd con (PVar n) t
| Ta_mono : forall s l t args out, declared con s t -> body_is [] t args out -> (args = [] -> l = []) ->
    Forall (fun a => kd a = false) l -> typed_as kd con (PFun s l None) out
| Ta_poly : forall s ts l vs b args out sigma, declared con s (PTyQuant vs b) -> body_is (map fst vs) b args out ->
    map sigma (map fst vs) = map as_type ts ->
    Forall (fun a => kd a = true) ts -> Forall (fun a => kd a = false) l ->
    typed_as kd con (PFun s (ts ++ l) None) (pread sigma out)
| Ta_number : forall s d, (forall t, declared con s t -> t = d) -> atomic d ->
    typed_as kd con (PFun s [] (Some d)) d
| Ta_default : forall s l, (forall t, ~ declared con s t) -> typed_as kd con (PFun s l None) (pty_const "$i").

(** The numbers of a term, with their types. *)
Fixpoint numbers (t : pterm) : list (string * ptype) :=
  match t with
  | PVar _ => []
  | PFun s args def => flat_map numbers args ++ match def with Some d => [(s, d)] | None => [] end
  end.
Definition head_name (t : pterm) : string := match t with PVar n => n | PFun s _ _ => s end.
Definition arguments (t : pterm) : list pterm := match t with PVar _ => [] | PFun _ l _ => l end.

(** The internal type [T] is the written type [t]. *)
Inductive written : ty -> ptype -> Prop :=
| Wr_var : forall n i, written (TyBound n i) (PTyVar n)
| Wr_fun : forall s As ts, Forall2 written As ts -> written (TyConstr s As) (PTyFun s ts).

(** a type without arguments *)
Definition flat (t : pterm) : Prop := match t with PVar _ => True | PFun _ l _ => l = [] end.

(** ** Proofs *)

Lemma atom_atomic vs t : atom_type vs t -> atomic t.
Proof.
  induction t as [n|s args IH|o l r IHl IHr|vars b IHb] using ptype_ind'; intros H; inversion H; subst; constructor.
  rewrite Forall_forall in *. auto.
Qed.
Lemma as_type_atomic t : atomic (as_type t).
Proof.
  induction t as [n|s args def IH] using pterm_ind'; constructor. rewrite Forall_map. exact IH.
Qed.
Lemma pread_atomic sigma t : atomic t -> (forall n, atomic (sigma n)) -> atomic (pread sigma t).
Proof.
  intros H Hs. induction t as [n|s args IH|o l r IHl IHr|vars b IHb] using ptype_ind'; inversion H; subst; cbn [pread]; [apply Hs|].
  constructor. rewrite Forall_map. rewrite Forall_forall in *. auto.
Qed.
Lemma elab_written t : atomic t -> forall g T g', elab_type false t g = EOk (T, g') -> written T t.
Proof.
  induction t as [n|s args IH|o l r IHl IHr|vars b IHb] using ptype_ind'; intros H g T g'; inversion H; subst; cbn [elab_type].
  - destruct (maker_var n g). intros [= <- _]. constructor.
  - intros E. ebreak E. injection E as <- _. constructor. clear H. revert g l g0 E0. induction args as [|a r IHr]; intros g l g0 E.
    + injection E as <- _. constructor.
    + inversion IH; inversion H1; subst. ebreak E. injection E as <- _. constructor; eauto.
Qed.

(** the contexts only grow, by the numbers of the term *)
Definition grows (t : pterm) : Prop := forall con g con' t' b g', elab_term con t g = EOk (con', t', b, g') ->
  exists c, con' = con ++ c /\ incl c (numbers t).
Lemma args_grow l : Forall grows l -> forall tys con b g con' l' b' g', elab_args con l tys b g = EOk (con', l', b', g') ->
  exists c, con' = con ++ c /\ incl c (flat_map numbers l).
Proof.
  induction 1 as [|a r Ha _ IH]; intros tys con b g con' l' b' g' H.
  - cbn in H. injection H as <- _ _ _. exists []. split; [now rewrite app_nil_r|apply incl_nil_l].
  - cbn [elab_args] in H. destruct tys as [|ty tys].
    + injection H as <- _ _ _. exists []. split; [now rewrite app_nil_r|apply incl_nil_l].
    + destruct (is_ty_constr ty).
      * destruct (IH _ _ _ _ _ _ _ _ H) as (c & -> & Hc). exists c. split; [reflexivity|]. cbn. now apply incl_appr.
      * ebreak H. injection H as <- _ _ _. apply Ha in E. destruct E as (c1 & -> & H1).
        match goal with E' : elab_args _ r _ _ _ = _ |- _ => apply IH in E'; destruct E' as (c2 & -> & H2) end.
        exists (c1 ++ c2). split; [now rewrite app_assoc|]. cbn. apply incl_app; [now apply incl_appl|now apply incl_appr].
Qed.
Lemma elab_term_grows t : grows t.
Proof.
  induction t as [n|s args def IH] using pterm_ind'; intros con g con' t' b g' H.
  - cbn in H. destruct (maker_var n g). injection H as <- _ _ _. exists []. split; [now rewrite app_nil_r|apply incl_nil_l].
  - rewrite elab_term_fun in H. ebreak H. cbv zeta in H. ebreak H.
    match goal with E' : elab_args _ _ _ _ _ = _ |- _ => apply (args_grow _ IH) in E'; destruct E' as (c1 & -> & H1) end.
    injection H as <- _ _ _. cbn [numbers]. destruct def as [d|].
    + match goal with E' : ebind (elab_type _ _ _) _ = _ |- _ => ebreak E'; injection E' as <- _ end.
      exists (c1 ++ [(s, d)]). split; [now rewrite app_assoc|]. apply incl_app; [now apply incl_appl|now apply incl_appr].
    + match goal with E' : EOk _ = EOk _ |- _ => injection E' as <- _ end.
      exists c1. split; [reflexivity|]. now apply incl_appl.
Qed.

Lemma assoc_type_args sigma vs : forall ts inst inst', type_args vs ts inst = EOk inst' ->
  map sigma (map fst vs) = map as_type ts -> (forall n t, assoc n inst = Some t -> t = sigma n) ->
  (forall n t, assoc n inst' = Some t -> t = sigma n) /\
  (forall n, In n (map fst vs) \/ assoc n inst <> None -> assoc n inst' <> None).
Proof.
  induction vs as [|[v k] vs IH]; intros ts inst inst' H Hs Hi.
  - injection H as <-. split; [exact Hi|]. intros n [[]|Hn]. exact Hn.
  - destruct ts as [|a ts]; [discriminate|]. cbn [map] in Hs. injection Hs as Hv Hs. cbn [type_args] in H.
    apply IH in H; [|exact Hs|].
    + destruct H as [H1 H2]. split; [exact H1|]. intros n Hn. apply H2. cbn [map fst In assoc] in *.
      destruct (String.eqb_spec v n) as [->|Hne]; [right; discriminate|]. tauto.
    + intros n t. cbn [assoc]. destruct (String.eqb_spec v n) as [->|Hne]; [|apply Hi].
      intros [= <-]. symmetry. exact Hv.
Qed.
Lemma type_args_ok vs : forall ts inst, List.length vs = List.length ts -> exists inst', type_args vs ts inst = EOk inst'.
Proof.
  induction vs as [|[v k] vs IH]; intros [|a ts] inst E; try discriminate; [now exists inst|]. cbn [type_args]. apply IH.
  now injection E.
Qed.
Lemma atomic_is t : atomic t -> is_atomic_ptype t = true.
Proof. now intros []. Qed.

Lemma instantiate_atom vs sigma inst t : atom_type vs t -> (forall n, In n vs -> assoc n inst = Some (sigma n)) ->
  (forall n, In n vs -> atomic (sigma n)) -> instantiate_rec t inst = EOk (pread sigma t) /\ atomic (pread sigma t).
Proof.
  intros H Hi Ha. induction t as [n|s args IH|o l r IHl IHr|vars b IHb] using ptype_ind'; inversion H; subst; cbn [instantiate_rec pread].
  - rewrite Hi by assumption. split; [reflexivity|now apply Ha].
  - assert (G : Forall (fun a => instantiate_rec a inst = EOk (pread sigma a) /\ atomic (pread sigma a)) args).
    { rewrite Forall_forall in *. auto. }
    split.
    + match goal with |- ebind ?x _ = _ => assert (E : x = EOk (map (pread sigma) args)) end; [|rewrite E; reflexivity].
      clear - G. induction G as [|a r [Ea Aa] _ IHr]; [reflexivity|]. rewrite Ea. cbn [ebind]. rewrite (atomic_is _ Aa), IHr. reflexivity.
    + constructor. rewrite Forall_map. rewrite Forall_forall in *. intros a Hx. now apply G.
Qed.
Lemma instantiate_product vs sigma inst t l : product vs t l -> (forall n, In n vs -> assoc n inst = Some (sigma n)) ->
  (forall n, In n vs -> atomic (sigma n)) -> exists u, instantiate_rec t inst = EOk u.
Proof.
  intros H Hi Ha. induction H as [t Ht|l r ls rs Hl [u1 E1] Hr [u2 E2]].
  - eexists. apply (instantiate_atom vs sigma); assumption.
  - cbn [instantiate_rec]. rewrite E1, E2. cbn [ebind]. now eexists.
Qed.

Lemma instantiate_poly vs b args out sigma ts : body_is (map fst vs) b args out -> map sigma (map fst vs) = map as_type ts ->
  instantiate_type (PTyQuant vs b) ts = EOk (pread sigma out) /\ atomic (pread sigma out).
Proof.
  intros Hb Hs. cbn [instantiate_type].
  assert (L : List.length vs = List.length ts). { apply (f_equal (@List.length _)) in Hs. now rewrite !map_length in Hs. }
  destruct (type_args_ok vs ts [] L) as [inst E]. rewrite E. cbn [ebind].
  destruct (assoc_type_args sigma vs ts [] inst E Hs) as [H1 H2]; [discriminate|].
  assert (Hi : forall n, In n (map fst vs) -> assoc n inst = Some (sigma n)).
  { intros n Hn. specialize (H2 n (or_introl Hn)). destruct (assoc n inst) as [t|] eqn:Q; [|congruence]. f_equal. exact (H1 n t Q). }
  assert (Ha : forall n, In n (map fst vs) -> atomic (sigma n)).
  { intros n Hn. apply (in_map sigma) in Hn. rewrite Hs in Hn. apply in_map_iff in Hn. destruct Hn as (a & <- & _). apply as_type_atomic. }
  destruct Hb as [t Ht|l as' r Hl Hr].
  - exact (instantiate_atom _ sigma inst t Ht Hi Ha).
  - destruct (instantiate_atom _ sigma inst r Hr Hi Ha) as [Er Ar]. split; [|exact Ar].
    cbn [instantiate_rec]. destruct (instantiate_product _ sigma inst l as' Hl Hi Ha) as [u Eu]. rewrite Eu, Er. reflexivity.
Qed.

Lemma elab_types_written l : forall g Ts g', Forall atomic l -> elab_types l g = EOk (Ts, g') -> Forall2 written Ts l.
Proof.
  induction l as [|a l IH]; intros g Ts g' Ha H; cbn [elab_types] in H.
  - injection H as <- _. constructor.
  - inversion Ha; subst. ebreak H. injection H as <- _. constructor; [eapply elab_written; eassumption|eapply IH; eassumption].
Qed.

Lemma back_to_terms Ts ts : Forall2 written Ts (map as_type ts) -> Forall flat ts ->
  exists ts', tyargs_to_terms Ts = EOk ts' /\ map as_type ts' = map as_type ts.
Proof.
  revert Ts. induction ts as [|a ts IH]; intros Ts H Hf; inversion H as [|T y Ts' ys HT HTs]; subst.
  - now exists [].
  - inversion Hf as [|? ? Fa Fts]; subst. destruct (IH _ HTs Fts) as (ts' & E & Em).
    destruct a as [n|s l d].
    + inversion HT; subst. exists (PVar n :: ts'). cbn. rewrite E. cbn. now rewrite Em.
    + cbn in Fa. subst l. inversion HT as [|s' As tl HAs]; subst. inversion HAs; subst.
      exists (PFun s [] None :: ts'). cbn. rewrite E. cbn. now rewrite Em.
Qed.

(** ** The type of an equality *)

Lemma filter_all {A} (k : A -> bool) l : Forall (fun a => k a = true) l -> filter k l = l.
Proof. induction 1 as [|a l E _ IH]; [reflexivity|]. cbn. now rewrite E, IH. Qed.
Lemma filter_none {A} (k : A -> bool) l : Forall (fun a => k a = false) l -> filter k l = [].
Proof. induction 1 as [|a l E _ IH]; [reflexivity|]. cbn. now rewrite E, IH. Qed.

Section Equality.
Variables (kappa : string -> option bool) (tysym : string -> bool) (scope : list string).
Notation kd := (kind kappa tysym).

(** what is left of a term that is not one of the defined symbols *)
Lemma elab_head con t g con' t' b g' : con_ok' kappa tysym scope con -> wk_term kappa tysym scope t ->
  is_defined (head_name t) = false -> elab_term con t g = EOk (con', t', b, g') ->
  match t with
  | PVar n => exists i, t' = Var i n
  | PFun s l _ => exists p Ts l', t' = Fun p Ts l' /\ id_name p = s /\ Forall2 written Ts (map as_type (filter kd l))
  end.
Proof.
  intros Hc Hw Hd H. destruct t as [n|s l def].
  - cbn in H. destruct (maker_var n g). injection H as _ <- _ _. now eexists.
  - cbn [head_name] in Hd. rewrite elab_term_fun, Hd in H. ebreak H. cbv zeta in H. ebreak H.
    injection H as _ <- _ _. do 3 eexists. split; [reflexivity|].
    match goal with E' : maker_id _ _ = _ |- _ => apply maker_id_step in E'; destruct E' as (_ & _ & ->) end. split; [reflexivity|].
    cbn [wk_term] in Hw. destruct Hw as (_ & _ & Hargs & _). apply wk_args_forall in Hargs.
    match goal with E' : pretype _ _ = _ |- _ => pose proof (pretype_kind kappa tysym scope con l Hc Hargs _ E') as Hk end.
    rewrite (split_types_filter kd l _ Hk) in *.
    eapply elab_types_written; [|eassumption]. rewrite Forall_map. apply Forall_forall. intros ? _. apply as_type_atomic.
Qed.

Lemma body_mono t args out : body_is [] t args out -> instantiate_type t [] = EOk out.
Proof. intros [u Hu|l as' r Hl Hr]; [destruct Hu; reflexivity|reflexivity]. Qed.

Lemma filter_split ts l : Forall (fun a => kd a = true) ts -> Forall (fun a => kd a = false) l -> filter kd (ts ++ l) = ts.
Proof. intros H1 H2. rewrite filter_app, (filter_all _ _ H1), (filter_none _ _ H2). apply app_nil_r. Qed.

(** the type found for the left-hand side *)
Lemma left_type con l t : typed_as kd con l t ->
  forall c l' g con1 b g1 inferred, con_ok' kappa tysym scope con -> wk_term kappa tysym scope l ->
  is_defined (head_name l) = false -> Forall (fun a => kd a = true -> flat a) (arguments l) ->
  elab_term con l g = EOk (con1, l', b, g1) -> pretype1 con l = EOk inferred ->
  (forall d, In (head_name l, d) c -> l = PFun (head_name l) [] (Some d)) ->
  (forall s d, l = PFun s [] (Some d) -> In (s, d) c) ->
  forall u, defined_arg_type (con ++ c) l' (Some inferred) = EOk u -> u = t /\ atomic t.
Proof.
  intros Ht c l' g con1 b g1 inferred Hc Hw Hd Hf E Ep Hnum Hnum' u Hu.
  pose proof (elab_head con l g con1 l' b g1 Hc Hw Hd E) as Hh. clear E.
  assert (Hno : (forall d, l <> PFun (head_name l) [] (Some d)) -> lookup_ctx c (head_name l) = None).
  { intros Hn. destruct (lookup_ctx c (head_name l)) as [d|] eqn:Q; [|reflexivity]. exfalso. apply lookup_declared in Q.
    destruct Q as (l1 & l2 & -> & _). apply (Hn d), Hnum. apply in_or_app. right. now left. }
  destruct Ht as [n t Hdec Ha|s l t args out Hdec Hb Hl Hk|s ts l vs b' args out sigma Hdec Hb Hs Hk1 Hk2|s d Hdec Ha|s l Hdec];
    cbn [head_name arguments] in *.
  - destruct Hh as [i ->]. unfold defined_arg_type in Hu. cbn [ebind] in Hu.
    rewrite lookup_app, Hno in Hu by discriminate. apply lookup_declared in Hdec. rewrite Hdec in Hu.
    split; [|exact Ha]. destruct Ha; cbn in Hu; now injection Hu as <-.
  - destruct Hh as (p & Ts & l2 & -> & En & HTs). rewrite (filter_none _ _ Hk) in HTs. inversion HTs; subst.
    unfold defined_arg_type in Hu. cbn [tyargs_to_terms ebind] in Hu. rewrite lookup_app, Hno in Hu by discriminate.
    apply lookup_declared in Hdec. rewrite Hdec in Hu. rewrite (body_mono _ _ _ Hb) in Hu. injection Hu as <-.
    split; [reflexivity|]. apply body_atoms in Hb. destruct Hb as [_ Ho]. exact (atom_atomic _ _ Ho).
  - destruct Hh as (p & Ts & l2 & -> & En & HTs). rewrite (filter_split _ _ Hk1 Hk2) in HTs.
    assert (Hft : Forall flat ts). { rewrite Forall_forall in *. intros a Ha. apply Hf; [apply in_or_app; now left|now apply Hk1]. }
    destruct (back_to_terms Ts ts HTs Hft) as (ts' & Eb & Em).
    unfold defined_arg_type in Hu. rewrite Eb in Hu. cbn [ebind] in Hu. subst s. rewrite lookup_app, Hno in Hu by discriminate.
    apply lookup_declared in Hdec. rewrite Hdec in Hu. rewrite <- Em in Hs.
    destruct (instantiate_poly vs b' args out sigma ts' Hb Hs) as [Ei Ai]. rewrite Ei in Hu. injection Hu as <-. now split.
  - destruct Hh as (p & Ts & l2 & -> & En & HTs). cbn in HTs. inversion HTs; subst. unfold defined_arg_type in Hu.
    cbn [tyargs_to_terms ebind] in Hu. rewrite lookup_app in Hu.
    assert (Q : lookup_ctx c (id_name p) = Some d).
    { specialize (Hnum' _ _ eq_refl). destruct (lookup_ctx c (id_name p)) as [d'|] eqn:Q.
      - apply lookup_declared in Q. destruct Q as (l1 & l2' & -> & _). assert (In (id_name p, d') (l1 ++ (id_name p, d') :: l2')).
        { apply in_or_app. right. now left. } apply Hnum in H. now injection H as <-.
      - unfold lookup_ctx in Q. apply assoc_none in Q. exfalso. apply Q. rewrite map_rev, <- in_rev.
        apply (in_map fst) in Hnum'. exact Hnum'. }
    rewrite Q in Hu. split; [|exact Ha]. destruct Ha; cbn in Hu; now injection Hu as <-.
  - destruct Hh as (p & Ts & l2 & -> & En & HTs). unfold defined_arg_type in Hu. ebreak Hu.
    subst s. ebreak E. injection E as <- <-. rewrite lookup_app, Hno in Hu by discriminate. apply lookup_undeclared in Hdec.
    rewrite Hdec in Hu. injection Hu as <-. unfold pretype1 in Ep. rewrite Hdec in Ep. injection Ep as <-.
    split; [reflexivity|]. constructor. constructor.
Qed.

Lemma numbers_of_number con s d g con' t' b g' : elab_term con (PFun s [] (Some d)) g = EOk (con', t', b, g') ->
  is_defined s = false -> exists c, con' = con ++ c ++ [(s, d)].
Proof.
  intros H Hd. rewrite elab_term_fun, Hd in H. cbn [pretype ebind split_types elab_args] in H. cbv zeta in H. ebreak H.
  injection H as <- _ _ _.
  match goal with E' : ebind (elab_type _ _ _) _ = _ |- _ => ebreak E'; injection E' as <- _ end. now exists [].
Qed.
End Equality.

Theorem equality_type kappa tysym scope fl con l r t g con' f b g' :
  con_ok kappa tysym scope con -> wk_term kappa tysym scope l -> wk_term kappa tysym scope r ->
  typed_as (kind kappa tysym) con l t ->
  Forall (fun a => kind kappa tysym a = true -> flat a) (arguments l) -> ~ In (head_name l) tptp_defined ->
  (forall d, In (head_name l, d) (numbers l ++ numbers r) -> l = PFun (head_name l) [] (Some d)) ->
  elab_form fl con (PPred "=" [l; r]) g = EOk (con', f, b, g') ->
  exists i p T l' r', f = Pred i p [T] [l'; r'] /\ id_name p = "="%string /\ written T t.
Proof.
  intros Hc Hl Hr Ht Hf Hd Hnum H. apply con_ok_iff in Hc.
  assert (Hd' : is_defined (head_name l) = false).
  { destruct (is_defined (head_name l)) eqn:Q; [|reflexivity]. apply is_defined_in in Q. contradiction. }
  unfold elab_form in H. cbn [elab_gen] in H. ebreak H. ebreak E. injection E as <- <- <- <-. injection H as <- <- <- <-. cbn [hd].
  rename E0 into H. unfold elab_pred in H. ebreak H. cbv zeta in H. ebreak H. injection H as <- <- <- <-.
  destruct (mk_indexed_step _ _ _ _ E4) as (_ & i0 & ->).
  destruct (maker_id_step _ _ _ _ E2) as (_ & _ & En).
  cbn [pretype] in E. ebreak E. injection E as <-. ebreak E6. injection E6 as <-. rename a into a1.
  change (is_defined "=") with true in E1. cbn iota in E1. ebreak E1. injection E1 as -> <-.
  unfold elab_defined in E6. change (assoc "="%string defined_table) with (Some (2%nat, false, bin_poly p_prop)) in E6. cbn iota in E6.
  destruct (Nat.eqb_spec (List.length l0) 2) as [L|]; [|discriminate E6]. cbn [negb] in E6. cbn iota in E6.
  cbn [elab_args split_types] in E0, E6.
  destruct (is_ty_constr a0); [exfalso; destruct (is_ty_constr a1); ebreak E0; injection E0 as _ <- _ _; discriminate L|].
  destruct (is_ty_constr a1); [exfalso; ebreak E0; injection E0 as _ <- _ _; discriminate L|].
  ebreak E0. injection E0 as <- <- <- <-. ebreak E7. injection E7 as <- <- <- <-.
  cbn [List.length skipn] in E6. ebreak E6. cbn [defined_arg_types hd_error tl] in E7. ebreak E7. injection E7 as <-.
  cbn [find] in E6. change (is_allowed "=" a2) with true in E6. cbn iota in E6.
  change (String.eqb "=" "$quotient") with false in E6. cbn iota in E6. injection E6 as <-.
  destruct (elab_term_grows _ _ _ _ _ _ _ E1) as (c1 & -> & H1). destruct (elab_term_grows _ _ _ _ _ _ _ E0) as (c2 & -> & H2).
  rewrite <- app_assoc in E8. destruct (left_type kappa tysym scope con l t Ht (c1 ++ c2) _ _ _ _ _ _ Hc Hl Hd' Hf E1 E5) with (u := a2) as [-> Ha];
    [| |exact E8|].
  - intros d Hin. apply Hnum. apply in_app_or in Hin. apply in_or_app. destruct Hin as [Hin|Hin]; [left; now apply H1|right; now apply H2].
  - intros s d El. rewrite El in E1, Hd'. destruct (numbers_of_number _ _ _ _ _ _ _ _ E1 Hd') as [c3 Ec]. apply app_inv_head in Ec. subst c1.
    apply in_or_app. left. apply in_or_app. right. now left.
  - cbn [elab_types] in E3. ebreak E3. injection E3 as <- <-. do 5 eexists. split; [reflexivity|]. split; [exact En|].
    eapply elab_written; eassumption.
Qed.
