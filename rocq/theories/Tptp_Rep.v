(** Replacing a Skolem symbol by a constant, in formulas and in proofs (C96). *)
From Coq Require Import ZArith List Bool String Lia.
From Verif Require Import Ast_Model Ast_Proofs Sem_Spec Sem_Proofs Occ_Spec Rules_Proofs Unif_Model GsTerm_Spec GsTerm_Proofs GsProof_Model GsProof_Spec GsProof_Sound Tptp_Model Tptp_Spec.
Import ListNotations.
Open Scope list_scope.
Open Scope Z_scope.

Lemma list_eqb_sym {A} (eqb : A -> A -> bool) l : Forall (fun x => forall y, eqb x y = eqb y x) l -> forall m, list_eqb eqb l m = list_eqb eqb m l.
Proof. induction 1 as [|x l Hx H IH]; intros [|y m]; cbn; auto. rewrite Hx, IH. reflexivity. Qed.
Lemma all_sym {A} (eqb : A -> A -> bool) l : (forall x y, eqb x y = eqb y x) -> Forall (fun x => forall y, eqb x y = eqb y x) l.
Proof. intros H. apply Forall_forall. auto. Qed.
Lemma ty_eqb_sym a b : ty_eqb a b = ty_eqb b a.
Proof. apply eq_true_iff_eq. rewrite !ty_eqb_reflect. split; apply same_ty_sym. Qed.
Lemma tvar_eqb_sym a b : tvar_eqb a b = tvar_eqb b a.
Proof. unfold tvar_eqb. rewrite String.eqb_sym, Z.eqb_sym, ty_eqb_sym. reflexivity. Qed.
Lemma form_eqb_sym a : forall b, form_eqb a b = form_eqb b a.
Proof.
  induction a using form_ind'; intros []; cbn; auto; try (f_equal; auto using (list_eqb_sym tvar_eqb), (list_eqb_sym ty_eqb), (list_eqb_sym term_eqb), all_sym, tvar_eqb_sym, ty_eqb_sym, term_eqb_sym; fail).
  all: try (apply list_eqb_sym; exact H).
  unfold id_eqb. rewrite Z.eqb_sym. f_equal; [f_equal|]; apply list_eqb_sym, all_sym; auto using ty_eqb_sym, term_eqb_sym.
Qed.
Lemma same_refl f : same f f. Proof. apply form_eqb_refl. Qed.
Lemma same_sym f g : same f g -> same g f. Proof. unfold same. rewrite form_eqb_sym. auto. Qed.
Lemma same_trans f g h : same f g -> same g h -> same f h. Proof. apply form_eqb_trans. Qed.

(** ** Replacement by head symbol *)
Fixpoint trep (i : Z) (c t : term) : term :=
  match t with Fun p tys l => if id_index p =? i then c else Fun p tys (map (trep i c) l) | _ => t end.
Fixpoint frep (i : Z) (c : term) (f : form) : form :=
  match f with
  | All x vs g => All x vs (frep i c g)
  | Ex x vs g => Ex x vs (frep i c g)
  | Or x fs => Or x (map (frep i c) fs)
  | And x fs => And x (map (frep i c) fs)
  | Equ x a b => Equ x (frep i c a) (frep i c b)
  | Imp x a b => Imp x (frep i c a) (frep i c b)
  | Not x g => Not x (frep i c g)
  | Pred x p tys args => Pred x p tys (map (trep i c) args)
  | Top _ | Bot _ => f
  end.

Section Rep.
Variables (i : Z) (c : term).
(** *** the code *)
Section Code.
Variable old : term.
Hypothesis Hold : term_index old = i.
Hypothesis Hne : term_eqb old c = false.
Lemma rep_tt t : t_noid t = true -> ~ In i (t_vars t) -> exists b, replace_tt old c t = Some (trep i c t, b).
Proof.
  induction t as [x|p tys l IH|x m|m] using term_ind'; intros N V; [discriminate| | |].
  - rewrite replace_tt_fun, Hold. cbn [trep]. rewrite (Z.eqb_sym i). destruct (id_index p =? i); [eauto|].
    assert (E : exists b, replace_tt_list old c l = Some (map (trep i c) l, b)).
    { cbn in N, V. clear - IH N V. induction IH as [|a l Ha Hl IHl]; cbn in *; [eauto|]. apply andb_prop in N. destruct N as [N1 N2]. rewrite in_app_iff in V.
      destruct (Ha N1 ltac:(tauto)) as [b ->]. destruct (IHl N2 ltac:(tauto)) as [b' ->]. eauto. }
    destruct E as [b ->]. eauto.
  - cbn [replace_tt trep]. rewrite Hold. destruct (Z.eqb_spec i x); [subst; cbn in V; tauto|eauto].
  - cbn [replace_tt trep]. rewrite Hne. eauto.
Qed.
Lemma rep_tts l : forallb t_noid l = true -> ~ In i (flat_map t_vars l) -> exists b, replace_tt_list old c l = Some (map (trep i c) l, b).
Proof.
  induction l as [|a l IH]; cbn; intros N V; [eauto|]. apply andb_prop in N. destruct N as [N1 N2]. rewrite in_app_iff in V.
  destruct (rep_tt a N1 ltac:(tauto)) as [b ->]. destruct (IH N2 ltac:(tauto)) as [b' ->]. eauto.
Qed.
Lemma rep_term f : f_noid f -> ~ In i (f_vars f) -> exists b, replace_term old c f = Some (frep i c f, b).
Proof.
  revert f.
  assert (L : forall fs, Forall (fun f => f_noid f -> ~ In i (f_vars f) -> exists b, replace_term old c f = Some (frep i c f, b)) fs ->
    (forall f, In f fs -> f_noid f) -> ~ In i (flat_map f_vars fs) -> exists b, (fix go (l : list form) : option (list form * bool) :=
      match l with
      | [] => Some ([], false)
      | a :: r =>
        match replace_term old c a, go r with
        | Some (a', b), Some (r', b') => Some (a' :: r', b || b')
        | _, _ => None
        end
      end) fs = Some (map (frep i c) fs, b)).
  { induction 1 as [|a l Ha Hl IH]; intros N V; [eauto|]. cbn in V. rewrite in_app_iff in V.
    destruct (Ha (N _ (or_introl eq_refl)) ltac:(tauto)) as [b ->]. destruct (IH (fun f h => N f (or_intror h)) ltac:(tauto)) as [b' ->]. cbn. eauto. }
  assert (NL : forall fs, (forall b, In b (flat_map (f_collect (fun _ _ args => map t_noid args)) fs) -> b = true) -> forall f, In f fs -> f_noid f).
  { intros fs H f Hf b Hb. apply H. apply in_flat_map. eauto. }
  intros f. induction f using form_ind'; intros N V; cbn [replace_term frep]; unfold f_vars in *; cbn [f_collect] in *; eauto.
  - destruct (IHf N V) as [b ->]. eauto.
  - destruct (IHf N V) as [b ->]. eauto.
  - destruct (L fs H (NL _ N) V) as [b ->]. eauto.
  - destruct (L fs H (NL _ N) V) as [b ->]. eauto.
  - rewrite in_app_iff in V. destruct (IHf1 (fun b h => N b (in_or_app _ _ _ (or_introl h))) ltac:(tauto)) as [b ->].
    destruct (IHf2 (fun b h => N b (in_or_app _ _ _ (or_intror h))) ltac:(tauto)) as [b' ->]. eauto.
  - rewrite in_app_iff in V. destruct (IHf1 (fun b h => N b (in_or_app _ _ _ (or_introl h))) ltac:(tauto)) as [b ->].
    destruct (IHf2 (fun b h => N b (in_or_app _ _ _ (or_intror h))) ltac:(tauto)) as [b' ->]. eauto.
  - destruct (IHf N V) as [b ->]. eauto.
  - destruct (rep_tts args) as [b ->]; eauto. apply forallb_forall. intros t It. apply N. cbn. apply in_map; auto.
Qed.
End Code.

(** *** occurrences *)
Lemma trep_in {A} (g : term -> list A) t x :
  (forall p tys l y, In y (g (Fun p tys l)) <-> In y (g (Fun p tys [])) \/ In y (flat_map g l)) ->
  In x (g (trep i c t)) -> In x (g t) \/ In x (g c).
Proof.
  intros Hg. induction t as [y|p tys l IH|y m|m] using term_ind'; cbn [trep]; auto. destruct (id_index p =? i); [auto|].
  rewrite (Hg p tys (map (trep i c) l)), (Hg p tys l). intros [H|H]; [auto|]. apply in_flat_map in H. destruct H as (a & Ha & Hx). apply in_map_iff in Ha. destruct Ha as (b & <- & Hb).
  rewrite Forall_forall in IH. destruct (IH b Hb Hx); [|auto]. left. right. apply in_flat_map. eauto.
Qed.
Lemma trep_vars t x : In x (t_vars (trep i c t)) -> In x (t_vars t) \/ In x (t_vars c).
Proof. apply trep_in. cbn. tauto. Qed.
Lemma trep_funs t x : In x (t_funs (trep i c t)) -> In x (t_funs t) \/ In x (t_funs c).
Proof. apply trep_in. cbn. tauto. Qed.
Lemma trep_syms t x : In x (t_syms (trep i c t)) -> In x (t_syms t) \/ In x (t_syms c).
Proof. apply trep_in. cbn. tauto. Qed.
Lemma trep_tyvars t x : In x (t_tyvars (trep i c t)) -> In x (t_tyvars t) \/ In x (t_tyvars c).
Proof. apply trep_in. intros. cbn. rewrite !in_app_iff. cbn. tauto. Qed.
Lemma trep_noid t : t_noid c = true -> t_noid t = true -> t_noid (trep i c t) = true.
Proof.
  intros Hc. induction t as [y|p tys l IH|y m|m] using term_ind'; cbn [trep]; auto. destruct (id_index p =? i); [auto|]. cbn. intros N.
  rewrite forallb_forall in *. intros x Hx. apply in_map_iff in Hx. destruct Hx as (b & <- & Hb). rewrite Forall_forall in IH. auto.
Qed.
Lemma trep_gone t : ~ In i (t_funs c) -> ~ In i (t_funs (trep i c t)).
Proof.
  intros Hc. induction t as [y|p tys l IH|y m|m] using term_ind'; cbn [trep]; auto. destruct (Z.eqb_spec (id_index p) i); [auto|]. cbn. intros [H|H]; [auto|].
  apply in_flat_map in H. destruct H as (a & Ha & Hx). apply in_map_iff in Ha. destruct Ha as (b & <- & Hb). rewrite Forall_forall in IH. exact (IH b Hb Hx).
Qed.
Lemma trep_id t : ~ In i (t_funs t) -> trep i c t = t.
Proof.
  induction t as [y|p tys l IH|y m|m] using term_ind'; cbn [trep]; auto. cbn. intros N. destruct (Z.eqb_spec (id_index p) i); [tauto|]. f_equal.
  rewrite <- (map_id l) at 2. apply map_ext_in. intros a Ha. rewrite Forall_forall in IH. apply IH; auto. intros K. apply N. right. apply in_flat_map. eauto.
Qed.
Lemma frep_collect {A} (g h : ident -> list ty -> list term -> list A) (Q : A -> Prop) f :
  (forall p tys l x, In x (g p tys (map (trep i c) l)) -> In x (h p tys l) \/ Q x) ->
  forall x, In x (f_collect g (frep i c f)) -> In x (f_collect h f) \/ Q x.
Proof.
  intros Hg. revert f. assert (L : forall fs, Forall (fun f => forall x, In x (f_collect g (frep i c f)) -> In x (f_collect h f) \/ Q x) fs ->
    forall x, In x (flat_map (f_collect g) (map (frep i c) fs)) -> In x (flat_map (f_collect h) fs) \/ Q x).
  { intros fs F x H. apply in_flat_map in H. destruct H as (a & Ha & Hx). apply in_map_iff in Ha. destruct Ha as (b & <- & Hb). rewrite Forall_forall in F.
    destruct (F b Hb x Hx); [left; apply in_flat_map; eauto|auto]. }
  intros f. induction f using form_ind'; cbn [frep f_collect]; intros x Hx; eauto.
  - rewrite !in_app_iff in *. destruct Hx as [Hx|Hx]; [apply IHf1 in Hx|apply IHf2 in Hx]; tauto.
  - rewrite !in_app_iff in *. destruct Hx as [Hx|Hx]; [apply IHf1 in Hx|apply IHf2 in Hx]; tauto.
Qed.
Lemma trep_flat {A} (g : term -> list A) l x : (forall t, In x (g (trep i c t)) -> In x (g t) \/ In x (g c)) ->
  In x (flat_map g (map (trep i c) l)) -> In x (flat_map g l) \/ In x (g c).
Proof.
  intros Hg H. apply in_flat_map in H. destruct H as (a & Ha & Hx). apply in_map_iff in Ha. destruct Ha as (b & <- & Hb).
  destruct (Hg b Hx); [left; apply in_flat_map; eauto|auto].
Qed.
Lemma frep_vars f x : In x (f_vars (frep i c f)) -> In x (f_vars f) \/ In x (t_vars c).
Proof. apply (frep_collect _ _ (fun x => In x (t_vars c))). intros. apply trep_flat; auto. intros t. apply trep_vars. Qed.
Lemma frep_funs f x : In x (f_funs (frep i c f)) -> In x (f_funs f) \/ In x (t_funs c).
Proof. apply (frep_collect _ _ (fun x => In x (t_funs c))). intros. apply trep_flat; auto. intros t. apply trep_funs. Qed.
Lemma frep_syms f x : In x (f_syms (frep i c f)) -> In x (f_syms f) \/ In x (t_syms c).
Proof. apply (frep_collect _ _ (fun x => In x (t_syms c))). intros. apply trep_flat; auto. intros t. apply trep_syms. Qed.
Lemma frep_noid f : t_noid c = true -> f_noid f -> f_noid (frep i c f).
Proof.
  intros Hc N b Hb.
  destruct (frep_collect (fun _ _ args => map t_noid args) (fun _ _ args => map t_noid args) (fun b => b = true) f) with (x := b) as [H|H]; auto.
  intros p tys l x Hx. apply in_map_iff in Hx. destruct Hx as (t & <- & Ht). apply in_map_iff in Ht. destruct Ht as (t' & <- & Ht').
  destruct (t_noid (trep i c t')) eqn:E; [auto|left]. apply in_map_iff. exists t'. split; auto. destruct (t_noid t') eqn:E2; [|reflexivity].
  rewrite (trep_noid t' Hc E2) in E. discriminate.
Qed.

(** *** equality up to indices, instances, components *)
Lemma list_eqb_map {A} (eqb : A -> A -> bool) (g : A -> A) l : Forall (fun x => forall y, eqb x y = true -> eqb (g x) (g y) = true) l ->
  forall m, list_eqb eqb l m = true -> list_eqb eqb (map g l) (map g m) = true.
Proof. induction 1 as [|x l Hx H IH]; intros [|y m] E; cbn in *; try discriminate; auto. apply andb_prop in E. destruct E. rewrite Hx, IH; auto. Qed.
Lemma trep_eqb t : forall u, term_eqb t u = true -> term_eqb (trep i c t) (trep i c u) = true.
Proof.
  induction t as [x|p tys l IH|x m|m] using term_ind'; intros [y|q tys' l'|y m'|m'] E; cbn [trep]; try discriminate; auto. cbn in E.
  apply andb_prop in E. destruct E as [E E3]. apply andb_prop in E. destruct E as [E1 E2]. unfold id_eqb in E1. pose proof E1 as E1'. apply Z.eqb_eq in E1'. rewrite E1'.
  destruct (id_index q =? i); [apply term_eqb_refl|]. cbn. unfold id_eqb. rewrite E1, E2. apply (list_eqb_map term_eqb); auto.
Qed.
Lemma frep_eqb f : forall g, form_eqb f g = true -> form_eqb (frep i c f) (frep i c g) = true.
Proof.
  induction f using form_ind'; intros [] E; cbn in E; try discriminate; cbn [frep form_eqb]; auto; rewrite ?andb_true_iff in *.
  - destruct E; split; auto.
  - destruct E; split; auto.
  - apply (list_eqb_map form_eqb); auto.
  - apply (list_eqb_map form_eqb); auto.
  - destruct E; split; auto.
  - destruct E; split; auto.
  - destruct E as [[E1 E2] E3]. repeat split; auto. apply (list_eqb_map term_eqb); auto. apply Forall_forall. intros x _. apply trep_eqb.
Qed.
Lemma frep_same f g : same f g -> same (frep i c f) (frep i c g). Proof. apply frep_eqb. Qed.
Lemma trep_vinst j u t : ~ In j (t_vars c) -> trep i c (vinst j u t) = vinst j (trep i c u) (trep i c t).
Proof.
  intros Hc. induction t as [x|p tys l IH|x m|m] using term_ind'; cbn [trep vinst]; auto.
  - destruct (id_index p =? i); [rewrite (vinst_notin _ _ _ Hc); reflexivity|]. cbn. f_equal. rewrite !map_map. apply map_ext_in. intros a Ha. rewrite Forall_forall in IH. auto.
  - destruct (x =? j); reflexivity.
Qed.
Lemma frep_fvinst j u f : ~ In j (t_vars c) -> frep i c (fvinst j u f) = fvinst j (trep i c u) (frep i c f).
Proof.
  intros Hc. assert (L : forall fs, Forall (fun f => frep i c (fvinst j u f) = fvinst j (trep i c u) (frep i c f)) fs ->
    map (frep i c) (map (fvinst j u) fs) = map (fvinst j (trep i c u)) (map (frep i c) fs)).
  { intros fs F. rewrite !map_map. apply map_ext_in. rewrite Forall_forall in F. auto. }
  induction f using form_ind'; cbn [frep fvinst]; auto; try (f_equal; auto).
  rewrite !map_map. apply map_ext. intros a. apply trep_vinst, Hc.
Qed.
Lemma frep_alpha r f l : alpha_of r f l -> alpha_of r (frep i c f) (map (frep i c) l).
Proof.
  intros []; cbn [frep map]; try constructor. rewrite map_map. change (fun x => frep i c (neg x)) with (fun x => neg (frep i c x)).
  rewrite <- (map_map (frep i c) neg). constructor.
Qed.
Lemma frep_beta r f ls : beta_of r f ls -> beta_of r (frep i c f) (map (map (frep i c)) ls).
Proof.
  intros []; cbn [frep map]; try constructor; rewrite map_map; cbn [map frep neg].
  - rewrite <- (map_map (frep i c) (fun x => [x])). constructor.
  - rewrite <- (map_map (frep i c) (fun x => [neg x])). constructor.
Qed.
Lemma frep_gamma r f v b u x : t_vars c = [] -> gamma_by r f v b u x -> gamma_by r (frep i c f) v (frep i c b) (trep i c u) (frep i c x).
Proof.
  intros Hc. assert (N : forall j, ~ In j (t_vars c)) by (intros j; rewrite Hc; auto).
  intros [i0 vs g v0 b0 u0 x0 H|i0 j0 vs g v0 b0 u0 x0 H]; cbn [frep]; constructor;
    (destruct H as [(? & E & ->)|[(? & j1 & w & rest & E & ->)|[(? & ? & k & E & ->)|(? & ? & k & l & w & rest & E & ->)]]]; try discriminate; injection E; intros; subst);
    cbn [frep]; rewrite frep_fvinst by apply N; unfold gamma_instance.
  - left. eauto.
  - right. left. eauto 10.
  - right. right. left. eauto 10.
  - right. right. right. eauto 12.
Qed.
Lemma frep_delta r f v b u x : t_vars c = [] -> delta_by r f v b u x -> delta_by r (frep i c f) v (frep i c b) (trep i c u) (frep i c x).
Proof.
  intros Hc. assert (N : forall j, ~ In j (t_vars c)) by (intros j; rewrite Hc; auto).
  intros [i0 vs g v0 b0 u0 x0 H|i0 j0 vs g v0 b0 u0 x0 H]; cbn [frep]; constructor;
    (destruct H as [(? & E & ->)|[(? & j1 & w & rest & E & ->)|[(? & ? & k & E & ->)|(? & ? & k & l & w & rest & E & ->)]]]; try discriminate; injection E; intros; subst);
    cbn [frep]; rewrite frep_fvinst by apply N; unfold delta_instance.
  - left. eauto.
  - right. left. eauto 10.
  - right. right. left. eauto 10.
  - right. right. right. eauto 12.
Qed.
Lemma frep_among fs l : among fs l -> among (map (frep i c) fs) (map (frep i c) l).
Proof.
  intros H f Hf. apply in_map_iff in Hf. destruct Hf as (g & <- & Hg). destruct (H g Hg) as (h & Hh & S). exists (frep i c h). split; [apply in_map, Hh|apply frep_same, S].
Qed.
Lemma frep_available G f : available G f -> available (map (frep i c) G) (frep i c f).
Proof. intros (h & Hh & S). exists (frep i c h). split; [apply in_map, Hh|apply frep_same, S]. Qed.
Lemma frep_binders f : f_binders (frep i c f) = f_binders f.
Proof.
  assert (L : forall fs, Forall (fun f => f_binders (frep i c f) = f_binders f) fs -> flat_map f_binders (map (frep i c) fs) = flat_map f_binders fs).
  { induction 1 as [|a l Ha Hl IH]; cbn; [reflexivity|]. rewrite Ha, IH. reflexivity. }
  induction f using form_ind'; cbn [frep f_binders]; auto; congruence.
Qed.
Lemma frep_rest f : rest_vars (frep i c f) = rest_vars f.
Proof. destruct f as [| | | | | |? f'| | |]; try reflexivity. destruct f'; reflexivity. Qed.
Lemma frep_positive f : positive f -> positive (frep i c f). Proof. destruct f; auto. Qed.

(** *** the generated terms *)
Definition is_fun (t : term) : Prop := match t with Fun _ _ _ => True | _ => False end.
Lemma funs_eqb t : forall u, term_eqb t u = true -> t_funs t = t_funs u.
Proof.
  induction t as [x|p tys l IH|x m|m] using term_ind'; intros [y|q tys' l'|y m'|m'] E; try discriminate; auto. cbn in E |- *.
  apply andb_prop in E. destruct E as [E E3]. apply andb_prop in E. destruct E as [E1 E2]. unfold id_eqb in E1. apply Z.eqb_eq in E1. f_equal; auto.
  clear - IH E3. revert l' E3. induction IH as [|a l Ha Hl IHl]; intros [|b m] E; cbn in *; try discriminate; auto. apply andb_prop in E. destruct E as [Ea El].
  rewrite (Ha _ Ea), (IHl _ El). reflexivity.
Qed.
Lemma not_sub u t : is_fun u -> ~ In (term_index u) (t_funs t) -> term_eqb t u = false.
Proof.
  intros F N. destruct (term_eqb t u) eqn:E; [|reflexivity]. exfalso. apply N. rewrite (funs_eqb _ _ E). destruct u; cbn in *; try contradiction. auto.
Qed.
Fixpoint sub_list (old new : term) (updated : bool) (l : list term) : list term :=
  match l with
  | [] => []
  | a :: r => let m := replace_sub old new a in if negb (term_eqb a m) && negb updated then m :: sub_list old new true r else a :: sub_list old new updated r
  end.
Lemma replace_sub_fun old new p tys l : replace_sub old new (Fun p tys l) = if term_eqb (Fun p tys l) old then new else Fun p tys (sub_list old new false l).
Proof.
  cbn [replace_sub]. destruct (term_eqb (Fun p tys l) old); [reflexivity|]. f_equal. generalize false. induction l as [|a l IH]; intros b; cbn; [reflexivity|].
  destruct (negb (term_eqb a (replace_sub old new a)) && negb b); rewrite IH; reflexivity.
Qed.
Lemma sub_none u d t : is_fun u -> ~ In (term_index u) (t_funs t) -> replace_sub u d t = t.
Proof.
  intros F. induction t as [x|p tys l IH|x m|m] using term_ind'; intros N.
  - cbn [replace_sub]. rewrite (not_sub u _ F N). reflexivity.
  - rewrite replace_sub_fun, (not_sub u _ F N). f_equal. cbn in N. assert (N' : ~ In (term_index u) (flat_map t_funs l)) by tauto. clear N.
    generalize false. induction IH as [|a l Ha Hl IHl]; intros b; cbn in *; [reflexivity|]. rewrite in_app_iff in N'. rewrite Ha by tauto. rewrite term_eqb_refl. cbn. f_equal. apply IHl. tauto.
  - cbn [replace_sub]. rewrite (not_sub u _ F N). reflexivity.
  - cbn [replace_sub]. rewrite (not_sub u _ F N). reflexivity.
Qed.
Lemma sub_lists u d l b : is_fun u -> ~ In (term_index u) (flat_map t_funs l) -> sub_list u d b l = l.
Proof.
  intros F. revert b. induction l as [|a l IH]; intros b N; cbn in *; [reflexivity|]. rewrite in_app_iff in N. rewrite sub_none, term_eqb_refl by tauto. cbn. f_equal. apply IH. tauto.
Qed.
Lemma sub_app u d l a r : is_fun u -> ~ In (term_index u) (flat_map t_funs l) -> sub_list u d false (l ++ a :: r) = l ++ sub_list u d false (a :: r).
Proof.
  intros F. induction l as [|x l IH]; intros N; [reflexivity|]. cbn in N. rewrite in_app_iff in N. cbn [app sub_list]. rewrite sub_none, term_eqb_refl by tauto. cbn [negb andb].
  rewrite IH by tauto. reflexivity.
Qed.
Lemma map_trep_id l : ~ In i (flat_map t_funs l) -> map (trep i c) l = l.
Proof. intros N. rewrite <- (map_id l) at 2. apply map_ext_in. intros a Ha. apply trep_id. intros K. apply N. apply in_flat_map. eauto. Qed.
Lemma once_sub u t : is_fun u -> term_index u = i -> ~ In i (t_funs c) -> once u t -> replace_sub u c t = trep i c t.
Proof.
  intros F E Hc. induction 1 as [t N| |p tys l a r Hp Hl Hr H IH]; [|destruct u as [|p tys l| |]; try contradiction; rewrite replace_sub_fun, term_eqb_refl; cbn [trep]; cbn in E; rewrite E, Z.eqb_refl; reflexivity|].
  - rewrite sub_none by auto. rewrite trep_id; [reflexivity|congruence].
  - rewrite replace_sub_fun. assert (N : term_eqb (Fun p tys (l ++ a :: r)) u = false).
    { destruct u; try contradiction. cbn. unfold id_eqb. cbn in Hp. apply Z.eqb_neq in Hp. rewrite Hp. reflexivity. }
    rewrite N. cbn [trep]. destruct (Z.eqb_spec (id_index p) i); [congruence|]. f_equal. rewrite sub_app by auto. rewrite map_app. cbn [map]. rewrite E in *.
    rewrite (map_trep_id l), (map_trep_id r) by auto. f_equal. cbn [sub_list]. rewrite IH. destruct (term_eqb a (trep i c a)) eqn:Ea; cbn [negb andb].
    + assert (Ni : ~ In i (t_funs a)) by (rewrite (funs_eqb _ _ Ea); apply trep_gone, Hc). rewrite trep_id by auto. f_equal. apply sub_lists; congruence.
    + f_equal. apply sub_lists; congruence.
Qed.
Lemma trep_head u : is_fun u -> term_index u <> i -> is_fun (trep i c u) /\ term_index (trep i c u) = term_index u.
Proof. destruct u; cbn; try contradiction. intros _ N. destruct (Z.eqb_spec (id_index p) i); [contradiction|]. cbn. auto. Qed.
Lemma trep_notin j t : j <> i -> ~ In j (t_funs c) -> ~ In j (t_funs t) -> ~ In j (t_funs (trep i c t)).
Proof. intros _ H1 H2 H. apply trep_funs in H. tauto. Qed.
Lemma once_rep u t : is_fun u -> term_index u <> i -> ~ In (term_index u) (t_funs c) -> once u t -> once (trep i c u) (trep i c t).
Proof.
  intros F E Hc. destruct (trep_head u F E) as [_ Eh].
  assert (NL : forall l, ~ In (term_index u) (flat_map t_funs l) -> ~ In (term_index u) (flat_map t_funs (map (trep i c) l))).
  { intros l N H. apply (trep_flat t_funs) in H; [tauto|]. intros t0. apply trep_funs. }
  induction 1 as [t N| |p tys l a r Hp Hl Hr H IH]; [|apply O_here|].
  - apply O_none. rewrite Eh. apply trep_notin; auto.
  - cbn [trep]. destruct (id_index p =? i); [apply O_none; rewrite Eh; exact Hc|]. rewrite map_app. cbn [map]. apply O_arg; rewrite ?Eh; auto.
Qed.
End Rep.

(** ** Replacement in a proof *)
Fixpoint rseq (i : Z) (c : term) (s : sequent) : sequent :=
  let '(Seq h r o w t fs ks p n) := s in
  Seq (match nth_error h o with Some f => Tptp_Model.upd o (frep i c f) h | None => h end) r o w (option_map (trep i c) t)
      (map (map (frep i c)) (firstn (List.length ks) fs)) (map (rseq i c) ks) p n.
Lemma rseq_rule i c s : s_rule (rseq i c s) = s_rule s. Proof. destruct s; reflexivity. Qed.
Lemma rseq_on i c s : s_on (rseq i c s) = s_on s. Proof. destruct s; reflexivity. Qed.
Lemma rseq_id i c s : s_id (rseq i c s) = s_id s. Proof. destruct s; reflexivity. Qed.
Lemma rseq_term i c s : s_term (rseq i c s) = option_map (trep i c) (s_term s). Proof. destruct s; reflexivity. Qed.
Lemma rseq_kids i c s : s_kids (rseq i c s) = map (rseq i c) (s_kids s). Proof. destruct s; reflexivity. Qed.
Lemma rseq_forms i c s : s_forms (rseq i c s) = map (map (frep i c)) (firstn (List.length (s_kids s)) (s_forms s)). Proof. destruct s; reflexivity. Qed.
Lemma upd_nth {A} o (x : A) l : (o < List.length l)%nat -> nth_error (Tptp_Model.upd o x l) o = Some x.
Proof. revert o. induction l as [|y l IH]; intros [|o] H; cbn in *; try lia; auto. apply IH. lia. Qed.
Lemma rseq_target i c s f : target s f -> target (rseq i c s) (frep i c f).
Proof.
  destruct s as [h r o w t fs ks p n]. unfold target. cbn. intros E. rewrite E. apply upd_nth. apply nth_error_Some. congruence.
Qed.
Lemma upd_nil {A} o (x : A) l : l <> [] -> Tptp_Model.upd o x l <> [].
Proof. destruct l, o; cbn; congruence. Qed.
Lemma rseq_hyps i c s : s_hyps s <> [] -> s_hyps (rseq i c s) <> [].
Proof. destruct s as [h r o w t fs ks p n]. cbn. destruct (nth_error h o); auto using upd_nil. Qed.
Lemma rseq_target_inv i c s g : target (rseq i c s) g -> exists f, target s f /\ g = frep i c f.
Proof.
  intros H. destruct (nth_error (s_hyps s) (s_on s)) as [f|] eqn:E.
  - exists f. split; [exact E|]. pose proof (rseq_target i c s f E) as K. unfold target in *. congruence.
  - destruct s as [h r o w t fs ks p n]. unfold target in H. cbn in *. rewrite E in H. congruence.
Qed.

Lemma every_map (P Q : sequent -> Prop) g s : (forall s, s_kids (g s) = map g (s_kids s)) -> (forall s, P s -> Q (g s)) -> every P s -> every Q (g s).
Proof.
  intros Hk H. induction s as [s IH] using seq_ind'. intros E. inversion E as [? E1 E2]; subst. constructor; [auto|]. rewrite Hk.
  rewrite Forall_forall in *. intros k Hk'. apply in_map_iff in Hk'. destruct Hk' as (k' & <- & Hk''). auto.
Qed.
Lemma every_more (P Q : sequent -> Prop) s : (forall s, P s -> Q s) -> every P s -> every Q s.
Proof.
  intros H. induction s as [s IH] using seq_ind'. intros E. inversion E as [? E1 E2]; subst. constructor; [auto|]. rewrite Forall_forall in *. auto.
Qed.
Lemma every_and (P Q : sequent -> Prop) s : every P s -> every Q s -> every (fun s => P s /\ Q s) s.
Proof.
  induction s as [s IH] using seq_ind'. intros E E'. inversion E as [? E1 E2]; inversion E' as [? E1' E2']; subst. constructor; [auto|]. rewrite Forall_forall in *. auto.
Qed.

Lemma omap_ok {A B} (f : A -> out B) (g : A -> B) l : (forall a, In a l -> f a = Ok (g a)) -> omap f l = Ok (map g l).
Proof.
  induction l as [|a l IH]; intros H; cbn; [reflexivity|]. rewrite (H a) by (left; reflexivity). cbn. rewrite IH by (intros; apply H; right; assumption). reflexivity.
Qed.

Section Upd.
Variable sk : Z -> Prop.
Variable good : ident -> Prop.
Variables (q : ident) (c : ident).
Variables (qtys : list ty) (qargs : list term).
Let i := id_index q.
Let u := Fun q qtys qargs.
Let d := Fun c [] [].
Hypothesis Hsk : sk i.
Hypothesis Hc : ~ sk (id_index c).
Hypothesis Hgood : good c.
Lemma Hci : id_index c <> i. Proof. intros E. apply Hc. rewrite E. exact Hsk. Qed.
Lemma Hd : ~ In i (t_funs d). Proof. cbn. intros [E|[]]. exact (Hci E). Qed.
Lemma Hud : term_eqb u d = false.
Proof. cbn. unfold id_eqb. destruct (Z.eqb_spec (id_index q) (id_index c)) as [E|E]; [|reflexivity]. exfalso. apply Hci. symmetry. exact E. Qed.

Lemma replace_good f : wf_form sk good f -> replace_opt (Some u) d f = Ok (frep i d f).
Proof.
  intros (N & V & _). cbn [replace_opt]. destruct (rep_term i d u eq_refl Hud f N) as [b ->]; [|reflexivity]. intros H. exact (V _ H Hsk).
Qed.
Lemma update_is s : wf_seq sk good s -> terms_ok u s -> every (fun s => (List.length (s_kids s) <= List.length (s_forms s))%nat) s ->
  every (fun s => exists f, target s f) s -> update (Some u) d s = Ok (rseq i d s).
Proof.
  induction s as [s IH] using seq_ind'. intros Wf Tm Ln Tg. inversion Wf as [? (W1 & W2 & W3 & W4) Wk]; inversion Tm as [? T1 Tk]; inversion Ln as [? L1 Lk]; inversion Tg as [? (f & Hf) Gk]; subst.
  destruct s as [h r o w t fs ks p n]. unfold target in Hf. cbn [s_hyps s_on s_kids s_forms s_term] in *. cbn [update rseq]. rewrite Hf.
  rewrite (replace_good f) by (apply W2; exact Hf). cbn [bind].
  destruct (Nat.ltb_spec (List.length fs) (List.length ks)) as [K|_]; [lia|].
  assert (E1 : omap (omap (replace_opt (Some u) d)) (firstn (List.length ks) fs) = Ok (map (map (frep i d)) (firstn (List.length ks) fs))).
  { apply omap_ok. intros l Hl. apply omap_ok. intros g Hg. apply replace_good. rewrite Forall_forall in W3.
    assert (In l fs) as Hl' by (rewrite <- (firstn_skipn (List.length ks) fs); apply in_or_app; auto). specialize (W3 l Hl'). rewrite Forall_forall in W3. auto. }
  rewrite E1. cbn [bind].
  assert (E2 : (fix go (l : list sequent) : out (list sequent) :=
                match l with [] => Ok [] | k :: r => do k <- update (Some u) d k; do r <- go r; Ok (k :: r) end) ks = Ok (map (rseq i d) ks)).
  { clear - IH Wk Tk Lk Gk. induction ks as [|k ks IHk]; [reflexivity|]. inversion IH; inversion Wk; inversion Tk; inversion Lk; inversion Gk; subst.
    match goal with Hx : wf_seq sk good k -> _ |- _ => rewrite Hx by assumption end. cbn [bind]. rewrite IHk by assumption. reflexivity. }
  rewrite E2. cbn [bind]. do 2 f_equal. destruct t as [t|]; [|reflexivity]. cbn [option_map replace_sub_opt]. f_equal. apply once_sub; [exact I|reflexivity|exact Hd|]. apply T1. reflexivity.
Qed.

(** *** what is preserved *)
Lemma wf_form_rep f : wf_form sk good f -> wf_form sk good (frep i d f).
Proof.
  intros (N & V & G). split; [apply frep_noid; auto|]. split.
  - intros x Hx. apply frep_vars in Hx. destruct Hx as [Hx|[]]. auto.
  - intros x Hx. apply frep_syms in Hx. destruct Hx as [Hx|[<-|[]]]; auto.
Qed.
Lemma wf_term_rep t : wf_term sk good t -> wf_term sk good (trep i d t).
Proof.
  intros (N & V & G). split; [apply trep_noid; auto|]. split.
  - intros x Hx. apply trep_vars in Hx. destruct Hx as [Hx|[]]. auto.
  - intros x Hx. apply trep_syms in Hx. destruct Hx as [Hx|[<-|[]]]; auto.
Qed.
Lemma wf_rep s : wf_seq sk good s -> wf_seq sk good (rseq i d s).
Proof.
  apply every_map; [intros; apply rseq_kids|]. intros s0 (W1 & W2 & W3 & W4). split; [|split; [|split]].
  - apply rseq_hyps, W1.
  - intros g Hg. apply rseq_target_inv in Hg. destruct Hg as (f & Hf & ->). apply wf_form_rep; auto.
  - rewrite rseq_forms. apply Forall_forall. intros l Hl. apply in_map_iff in Hl. destruct Hl as (l' & <- & Hl'). apply Forall_forall. intros g Hg. apply in_map_iff in Hg. destruct Hg as (g' & <- & Hg').
    assert (In l' (s_forms s0)) as K by (rewrite <- (firstn_skipn (List.length (s_kids s0)) (s_forms s0)); apply in_or_app; auto).
    rewrite Forall_forall in W3. specialize (W3 _ K). rewrite Forall_forall in W3. apply wf_form_rep; auto.
  - intros t Ht. rewrite rseq_term in Ht. destruct (s_term s0) as [t0|]; [|discriminate]. cbn in Ht. injection Ht as <-. apply wf_term_rep; auto.
Qed.
Lemma terms_rep v s : is_fun v -> term_index v <> i -> term_index v <> id_index c -> terms_ok v s -> terms_ok (trep i d v) (rseq i d s).
Proof.
  intros F N N'. apply every_map; [intros; apply rseq_kids|]. intros s0 H t Ht. rewrite rseq_term in Ht. destruct (s_term s0) as [t0|]; [|discriminate]. cbn in Ht. injection Ht as <-.
  apply once_rep; auto. cbn. intuition congruence.
Qed.
Lemma funs_rep j G : j <> id_index c -> ~ In j (flat_map f_funs G) -> ~ In j (flat_map f_funs (map (frep i d) G)).
Proof.
  intros Hj N H. apply in_flat_map in H. destruct H as (g & Hg & Hx). apply in_map_iff in Hg. destruct Hg as (f & <- & Hf). apply frep_funs in Hx.
  destruct Hx as [Hx|[Hx|[]]]; [|congruence]. apply N. apply in_flat_map. eauto.
Qed.
End Upd.

(** ** Induction on good proofs *)
Section OkInd.
Variable sk : Z -> Prop.
Variable P : list Z -> list form -> sequent -> Prop.
Hypothesis Hclose : forall I G s f, s_rule s = AX -> target s f -> available G f -> (positive f /\ available G (neg f) \/ exists i a, f = Not i a /\ available G a) -> s_kids s = [] -> P I G s.
Hypothesis Halpha : forall I G s f l fs k, target s f -> available G f -> alpha_of (s_rule s) f l -> s_forms s = [fs] -> among fs l -> s_kids s = [k] ->
  ok sk I (G ++ fs) k -> P I (G ++ fs) k -> P I G s.
Hypothesis Hgamma : forall I G s f v b u r k, target s f -> available G f -> gamma_by (s_rule s) f v b u r -> clean v b (rest_vars f) ->
  t_vars u = [] -> t_tyvars u = [] -> (forall p tys l, u = Fun p tys l -> sk (id_index p) -> In (id_index p) I) ->
  (s_term s = Some u \/ s_term s = None /\ ~ In (tv_index v) (f_vars b)) -> s_forms s = [[r]] -> s_kids s = [k] -> ok sk I (G ++ [r]) k -> P I (G ++ [r]) k -> P I G s.
Hypothesis Hdelta : forall I G s f v b p tys args r k, target s f -> available G f -> delta_by (s_rule s) f v b (Fun p tys args) r -> clean v b (rest_vars f) ->
  sk (id_index p) -> ~ In (id_index p) I -> ~ In (id_index p) (flat_map f_funs G) ->
  s_term s = Some (Fun p tys args) -> s_forms s = [[r]] -> s_kids s = [k] -> terms_ok (Fun p tys args) k ->
  ok sk (id_index p :: I) (G ++ [r]) k -> P (id_index p :: I) (G ++ [r]) k -> P I G s.
Hypothesis Hbeta : forall I G s f ls, target s f -> available G f -> beta_of (s_rule s) f ls ->
  (forall i a b, f = Equ i a b -> positive a /\ positive b) -> Forall2 among (s_forms s) ls ->
  Forall2 (fun fs k => ok sk I (G ++ fs) k /\ P I (G ++ fs) k) (s_forms s) (s_kids s) -> P I G s.
Lemma ok_ind' : forall I G s, ok sk I G s -> P I G s.
Proof.
  fix IH 4. intros I G s H. destruct H.
  - eapply Hclose; eassumption.
  - eapply Halpha; try eassumption. apply IH. assumption.
  - eapply Hgamma; try eassumption. apply IH. assumption.
  - eapply Hdelta; try eassumption. apply IH. assumption.
  - eapply Hbeta; try eassumption.
    match goal with Hx : Forall2 (fun fs k => ok sk I (G ++ fs) k) _ _ |- _ => revert Hx end. generalize (s_forms s) (s_kids s). fix go 3. intros l m K. destruct K as [|a b l m Ka Kl]; constructor; [split; [exact Ka|exact (IH _ _ _ Ka)]|exact (go _ _ Kl)].
Qed.
End OkInd.
Lemma Forall2_len {A B} (R : A -> B -> Prop) l m : Forall2 R l m -> List.length l = List.length m.
Proof. induction 1; cbn; auto. Qed.
Lemma ok_every sk I G s : ok sk I G s -> every (fun s => (List.length (s_kids s) <= List.length (s_forms s))%nat /\ exists f, target s f) s.
Proof.
  intros H. induction H using ok_ind'; constructor; try (split; [|eauto]).
  - rewrite H3. cbn. lia.
  - rewrite H3. constructor.
  - rewrite H2, H4. cbn. lia.
  - rewrite H4. auto.
  - rewrite H7, H8. cbn. lia.
  - rewrite H8. auto.
  - rewrite H7, H8. cbn. lia.
  - rewrite H8. auto.
  - rewrite (Forall2_len _ _ _ H4). lia.
  - clear - H4. induction H4 as [|a b l m [_ Ha] H IH]; constructor; auto.
Qed.

(** ** The replacement turns a good proof into a good proof *)
Section Keep.
Variable sk : Z -> Prop.
Variables (q c : ident).
Let i := id_index q.
Let d := Fun c [] [].
Hypothesis Hsk : sk i.
Hypothesis Hc : ~ sk (id_index c).
Lemma ok_rep J G s : ok sk J G s -> forall I, In i J -> (forall x, In x J -> x = i \/ In x I) -> (forall x, In x I -> In x J) ->
  ok sk I (map (frep i d) G) (rseq i d s).
Proof.
  intros H. induction H using ok_ind'; intros I0 Hi HJ HI.
  - apply (K_close sk I0 _ _ (frep i d f)); rewrite ?rseq_rule, ?rseq_kids, ?H3; auto using rseq_target, frep_available.
    destruct H2 as [[H2' H2]|(j & a & -> & H2)]; [left|right].
    + split; [apply frep_positive, H2'|]. apply (frep_available i d) in H2. exact H2.
    + exists j, (frep i d a). split; [reflexivity|]. apply frep_available, H2.
  - apply (K_alpha sk I0 _ _ (frep i d f) (map (frep i d) l) (map (frep i d) fs) (rseq i d k)); rewrite ?rseq_rule, ?rseq_kids, ?rseq_forms, ?H4, ?H2; auto using rseq_target, frep_available, frep_alpha, frep_among.
    rewrite <- map_app. auto.
  - apply (K_gamma sk I0 _ _ (frep i d f) v (frep i d b) (trep i d u) (frep i d r) (rseq i d k));
      rewrite ?rseq_rule, ?rseq_kids, ?rseq_forms, ?rseq_term, ?H7, ?H8; auto using rseq_target, frep_available, frep_gamma.
    + destruct H2 as [E1 E2]. split; [exact E1|]. rewrite frep_binders, frep_rest. exact E2.
    + destruct (t_vars (trep i d u)) as [|x l] eqn:E; [reflexivity|]. exfalso. assert (K : In x (t_vars (trep i d u))) by (rewrite E; left; reflexivity). apply trep_vars in K. rewrite H3 in K. cbn in K. tauto.
    + destruct (t_tyvars (trep i d u)) as [|x l] eqn:E; [reflexivity|]. exfalso. assert (K : In x (t_tyvars (trep i d u))) by (rewrite E; left; reflexivity). apply trep_tyvars in K. rewrite H4 in K. cbn in K. tauto.
    + intros p tys l E Hp. destruct u as [x|q0 tys0 l0|x m|m]; cbn [trep] in E; try discriminate. destruct (Z.eqb_spec (id_index q0) i).
      * injection E as <- _ _. contradiction.
      * injection E as <- _ _. destruct (HJ _ (H5 _ _ _ eq_refl Hp)); [contradiction|assumption].
    + destruct H6 as [->|[-> N]]; [left; reflexivity|right; split; [reflexivity|]]. intros K. apply frep_vars in K. cbn in K. tauto.
    + change [frep i d r] with (map (frep i d) [r]). rewrite <- map_app. auto.
  - assert (Np : id_index p <> i) by (intros E; apply H4; rewrite E; exact Hi).
    assert (Npc : id_index p <> id_index c) by (intros E; apply Hc; rewrite <- E; exact H3).
    assert (E : trep i d (Fun p tys args) = Fun p tys (map (trep i d) args)) by (cbn [trep]; destruct (Z.eqb_spec (id_index p) i); [contradiction|reflexivity]).
    apply (K_delta sk I0 _ _ (frep i d f) v (frep i d b) p tys (map (trep i d) args) (frep i d r) (rseq i d k));
      rewrite ?rseq_rule, ?rseq_kids, ?rseq_forms, ?rseq_term, ?H6, ?H7, ?H8, <- ?E; auto using rseq_target, frep_available, frep_delta.
    + destruct H2 as [E1 E2]. split; [exact E1|]. rewrite frep_binders, frep_rest. exact E2.
    + apply (funs_rep q c); auto.
    + apply (terms_rep q c); cbn; auto.
    + change [frep i d r] with (map (frep i d) [r]). rewrite <- map_app. apply IHok; cbn.
      * auto.
      * intros x [<-|Hx]; [auto|]. destruct (HJ x Hx); auto.
      * intros x [<-|Hx]; auto.
  - apply (K_beta sk I0 _ _ (frep i d f) (map (map (frep i d)) ls)); rewrite ?rseq_rule; auto using rseq_target, frep_available, frep_beta.
    + intros j a b E. destruct f; cbn [frep] in E; try discriminate. injection E as _ <- <-. destruct (H2 _ _ _ eq_refl). split; apply frep_positive; assumption.
    + rewrite rseq_forms. rewrite <- (Forall2_len _ _ _ H4), firstn_all. clear - H3. induction H3; cbn; constructor; auto using frep_among.
    + rewrite rseq_forms, rseq_kids. rewrite <- (Forall2_len _ _ _ H4), firstn_all. clear - H4 Hi HJ HI. induction H4 as [|fs k l m [_ Hk] H IH]; cbn; constructor; auto. rewrite <- map_app. auto.
Qed.
End Keep.
