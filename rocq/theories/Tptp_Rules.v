(** The rules of the printed derivation, up to the indices of formulas (C96). *)
From Coq Require Import ZArith List Bool String Lia.
From Verif Require Import Ast_Model Ast_Proofs Sem_Spec Sem_Proofs Occ_Spec Rules_Proofs Unif_Model GsTerm_Spec GsTerm_Proofs GsProof_Model GsProof_Spec GsProof_Sound Tptp_Model Tptp_Spec Tptp_Rep Tptp_Order.
Import ListNotations.
Open Scope list_scope.
Open Scope Z_scope.

(** ** Lists of hypotheses *)
Definition cov (m l : list form) : Prop := forall f, In f l -> available m f.
Lemma avail_in m f : In f m -> available m f.
Proof. intros H. exists f. split; [exact H|apply same_refl]. Qed.
Lemma avail_same m f g : same f g -> available m f -> available m g.
Proof. intros S (h & Hh & Sh). exists h. split; [exact Hh|]. eapply same_trans; eauto. Qed.
Lemma mem_avail f m : mem f m = true <-> available m f.
Proof.
  unfold mem. rewrite existsb_exists. split; intros (h & Hh & S); exists h; (split; [exact Hh|]); apply same_sym; exact S.
Qed.
Lemma within_cov l m : within l m = true <-> cov m l.
Proof. unfold within. rewrite forallb_forall. split; intros H f Hf; apply mem_avail, H, Hf. Qed.
Lemma cov_incl m l : incl l m -> cov m l.
Proof. intros H f Hf. apply avail_in, H, Hf. Qed.
Lemma cov_avail m l f : cov m l -> available l f -> available m f.
Proof. intros H (h & Hh & S). apply (avail_same m h f S), H, Hh. Qed.
Lemma cov_trans a b c : cov a b -> cov b c -> cov a c.
Proof. intros H K f Hf. exact (cov_avail _ _ _ H (K f Hf)). Qed.
Lemma cov_app m a b : cov m a -> cov m b -> cov m (a ++ b).
Proof. intros H K f Hf. apply in_app_iff in Hf. destruct Hf; auto. Qed.
Lemma cov_cons m a b : available m a -> cov m b -> cov m (a :: b).
Proof. intros H K f [<-|Hf]; auto. Qed.
Lemma cov_nil m : cov m []. Proof. intros f []. Qed.
Lemma la_in xs : forall l f, In f (list_add l xs) -> In f l \/ In f xs.
Proof.
  induction xs as [|x xs IH]; intros l f H; [left; exact H|]. unfold list_add in *. cbn [fold_left] in H. apply IH in H. destruct H as [H|H]; [|right; right; exact H].
  destruct (mem x l); [left; exact H|]. apply in_app_iff in H. destruct H as [H|[<-|[]]]; [left; exact H|right; left; reflexivity].
Qed.
Lemma la_left xs : forall l f, In f l -> In f (list_add l xs).
Proof.
  induction xs as [|x xs IH]; intros l f H; [exact H|]. unfold list_add in *. cbn [fold_left]. apply IH. destruct (mem x l); [exact H|]. apply in_or_app. left. exact H.
Qed.
Lemma la_right xs : forall l, cov (list_add l xs) xs.
Proof.
  induction xs as [|x xs IH]; intros l f H; [destruct H|]. unfold list_add in *. cbn [fold_left]. destruct H as [<-|H]; [|apply IH, H].
  destruct (mem x l) eqn:E.
  - apply mem_avail in E. destruct E as (h & Hh & S). exists h. split; [apply (la_left xs), Hh|exact S].
  - apply avail_in. apply (la_left xs). apply in_or_app. right. left. reflexivity.
Qed.
Lemma la_base l xs : cov (list_add l xs) l.
Proof. intros f Hf. apply avail_in, la_left, Hf. Qed.
Lemma la_cov m l xs : cov m l -> cov m xs -> cov m (list_add l xs).
Proof. intros H K f Hf. apply la_in in Hf. destruct Hf; auto. Qed.
Lemma get_ok f l : available l f -> exists i h, get f l = Ok i /\ nth_error l i = Some h /\ same f h.
Proof.
  intros (h & Hh & S). unfold get. enough (K : exists i g, index_of f l = Some i /\ nth_error l i = Some g /\ same f g) by (destruct K as (i & g & -> & K); eauto).
  induction l as [|x l IH]; [destruct Hh|]. cbn [index_of]. destruct (form_eqb f x) eqn:E; [exists 0%nat, x; auto|].
  destruct Hh as [<-|Hh]; [apply same_sym in S; unfold same in S; congruence|]. destruct (IH Hh) as (i & g & -> & K). exists (Datatypes.S i), g. auto.
Qed.

(** ** Formulas up to indices *)
Lemma eqb_forall2 {A} (e : A -> A -> bool) l : forall m, list_eqb e l m = true -> Forall2 (fun a b => e a b = true) l m.
Proof. induction l as [|a l IH]; intros [|b m] H; try discriminate; constructor; apply andb_prop in H; destruct H; auto. Qed.
Ltac same_tac := intros E; match type of E with same _ ?f => destruct f; try discriminate E end; unfold same in E; cbn in E; rewrite ?andb_true_iff in E.
Lemma inv_not i a f : same (Not i a) f -> exists j b, f = Not j b /\ same a b.
Proof. same_tac. eauto. Qed.
Lemma inv_and i l f : same (And i l) f -> exists j m, f = And j m /\ Forall2 same l m.
Proof. same_tac. do 2 eexists. split; [reflexivity|]. apply eqb_forall2. exact E. Qed.
Lemma inv_or i l f : same (Or i l) f -> exists j m, f = Or j m /\ Forall2 same l m.
Proof. same_tac. do 2 eexists. split; [reflexivity|]. apply eqb_forall2. exact E. Qed.
Lemma inv_imp i a b f : same (Imp i a b) f -> exists j a' b', f = Imp j a' b' /\ same a a' /\ same b b'.
Proof. same_tac. do 3 eexists. split; [reflexivity|exact E]. Qed.
Lemma inv_equ i a b f : same (Equ i a b) f -> exists j a' b', f = Equ j a' b' /\ same a a' /\ same b b'.
Proof. same_tac. do 3 eexists. split; [reflexivity|exact E]. Qed.
Lemma inv_all i vs b f : same (All i vs b) f -> exists j ws c, f = All j ws c /\ Forall2 (fun a b => tvar_eqb a b = true) vs ws /\ same b c.
Proof. same_tac. do 3 eexists. split; [reflexivity|]. destruct E. split; [apply eqb_forall2|]; assumption. Qed.
Lemma inv_ex i vs b f : same (Ex i vs b) f -> exists j ws c, f = Ex j ws c /\ Forall2 (fun a b => tvar_eqb a b = true) vs ws /\ same b c.
Proof. same_tac. do 3 eexists. split; [reflexivity|]. destruct E. split; [apply eqb_forall2|]; assumption. Qed.
Lemma same_all i j vs b : same (All i vs b) (All j vs b). Proof. exact (form_eqb_refl (All i vs b)). Qed.
Lemma same_ex i j vs b : same (Ex i vs b) (Ex j vs b). Proof. exact (form_eqb_refl (Ex i vs b)). Qed.
Lemma same_neg a b : same a b -> same (neg a) (neg b). Proof. auto. Qed.
Lemma same_not i j a b : same a b -> same (Not i a) (Not j b). Proof. auto. Qed.
Lemma same_imp i j a b a' b' : same a a' -> same b b' -> same (Imp i a b) (Imp j a' b').
Proof. unfold same. cbn. intros -> ->. reflexivity. Qed.
Lemma F2_impl {A B} (R Q : A -> B -> Prop) l m : (forall a b, R a b -> Q a b) -> Forall2 R l m -> Forall2 Q l m.
Proof. intros H. induction 1; constructor; auto. Qed.
Lemma F2_nth {A B} (R : A -> B -> Prop) l m : Forall2 R l m -> forall j b, nth_error m j = Some b -> exists a, nth_error l j = Some a /\ R a b.
Proof. induction 1 as [|a b l m E H IH]; intros [|j] c K; try discriminate; cbn in *; [injection K as <-; eauto|auto]. Qed.
Lemma F2_map {A B} (R : B -> B -> Prop) (g : A -> B) (Q : A -> A -> Prop) l m : (forall a b, Q a b -> R (g a) (g b)) -> Forall2 Q l m -> Forall2 R (map g l) (map g m).
Proof. intros H. induction 1; cbn; constructor; auto. Qed.

Lemma parts_same r f f' cs : same f f' -> parts r f = Some cs -> exists cs', parts r f' = Some cs' /\ Forall2 (Forall2 same) cs cs'.
Proof.
  intros S E. destruct f as [| |? l|? l|? a b|? a b|? a| | |]; try discriminate E.
  - apply inv_or in S. destruct S as (j & m & -> & S). cbn in *. destruct (String.eqb r "leftOr"); [|discriminate]. injection E as <-. eexists. split; [reflexivity|]. eapply F2_map; [|exact S]. auto.
  - apply inv_and in S. destruct S as (j & m & -> & S). cbn in *. destruct (String.eqb r "leftAnd"); [|discriminate]. injection E as <-. eexists. split; [reflexivity|]. auto.
  - apply inv_equ in S. destruct S as (j & a' & b' & -> & S1 & S2). cbn in *. destruct (String.eqb r "leftIff"); [|discriminate]. injection E as <-. eexists. split; [reflexivity|]. auto using same_imp.
  - apply inv_imp in S. destruct S as (j & a' & b' & -> & S1 & S2). cbn in *. destruct (String.eqb r "leftImp2"); [|discriminate]. injection E as <-. eexists. split; [reflexivity|]. auto using same_neg.
  - apply inv_not in S. destruct S as (j & a' & -> & S). destruct a as [| |? l|? l|? a b|? a b|? a| | |]; try discriminate E.
    + apply inv_or in S. destruct S as (j' & m & -> & S). cbn in *. destruct (String.eqb r "leftNotOr"); [|discriminate]. injection E as <-. eexists. split; [reflexivity|]. constructor; [|auto]. eapply F2_map; [|exact S]. auto using same_neg.
    + apply inv_and in S. destruct S as (j' & m & -> & S). cbn in *. destruct (String.eqb r "leftNotAnd"); [|discriminate]. injection E as <-. eexists. split; [reflexivity|]. eapply F2_map; [|exact S]. auto using same_neg.
    + apply inv_equ in S. destruct S as (j' & a1 & b1 & -> & S1 & S2). cbn in *. destruct (String.eqb r "leftNotIff"); [|discriminate]. injection E as <-. eexists. split; [reflexivity|]. auto 6 using same_imp, same_neg.
    + apply inv_imp in S. destruct S as (j' & a1 & b1 & -> & S1 & S2). cbn in *. destruct (String.eqb r "leftNotImplies"); [|discriminate]. injection E as <-. eexists. split; [reflexivity|]. auto 6 using same_neg.
    + apply inv_not in S. destruct S as (j' & a1 & -> & S). cbn in *. destruct (String.eqb r "leftNotNot"); [|discriminate]. injection E as <-. eexists. split; [reflexivity|]. auto.
Qed.

(** *** quantifiers *)
Lemma vinst_eqb j u t : forall t', term_eqb t t' = true -> term_eqb (vinst j u t) (vinst j u t') = true.
Proof.
  induction t as [x|p tys l IH|x m|m] using term_ind'; intros [y|q tys' l'|y m'|m'] E; try discriminate; cbn [vinst]; auto.
  - cbn in E |- *. rewrite !andb_true_iff in *. destruct E as [[E1 E2] E3]. rewrite E1, E2. split; [auto|]. apply list_eqb_map; assumption.
  - cbn in E. apply Z.eqb_eq in E. subst y. destruct (x =? j); [apply term_eqb_refl|]. cbn. apply Z.eqb_refl.
Qed.
Lemma fvinst_same j u f : forall g, same f g -> same (fvinst j u f) (fvinst j u g).
Proof.
  unfold same. induction f using form_ind'; intros [] E; cbn in E; try discriminate; cbn [fvinst form_eqb]; auto; rewrite ?andb_true_iff in *; try (destruct E; auto; fail).
  - apply list_eqb_map; assumption.
  - apply list_eqb_map; assumption.
  - destruct E as [[E1 E2] E3]. split; [auto|]. apply list_eqb_map; [|exact E3]. apply Forall_forall. intros t _ t'. apply vinst_eqb.
Qed.
Lemma fvinst_notin j u f : ~ In j (f_vars f) -> fvinst j u f = f.
Proof.
  unfold f_vars. induction f using form_ind'; cbn [f_collect fvinst]; intros N; auto; try (f_equal; auto; fail).
  - f_equal. rewrite <- (map_id fs) at 2. apply map_ext_in. intros a Ha. rewrite Forall_forall in H. apply H; [exact Ha|]. intros K. apply N. apply in_flat_map. eauto.
  - f_equal. rewrite <- (map_id fs) at 2. apply map_ext_in. intros a Ha. rewrite Forall_forall in H. apply H; [exact Ha|]. intros K. apply N. apply in_flat_map. eauto.
  - rewrite in_app_iff in N. f_equal; tauto.
  - rewrite in_app_iff in N. f_equal; tauto.
  - f_equal. rewrite <- (map_id args) at 2. apply map_ext_in. intros a Ha. apply vinst_notin. intros K. apply N. apply in_flat_map. eauto.
Qed.
Lemma tvars_index vs ws : Forall2 (fun a b => tvar_eqb a b = true) vs ws -> map tv_index vs = map tv_index ws.
Proof. induction 1 as [|a b l m E H IH]; cbn; [reflexivity|]. unfold tvar_eqb in E. rewrite !andb_true_iff in E. destruct E as [[_ E] _]. apply Z.eqb_eq in E. congruence. Qed.
Lemma binders_same f : forall g, same f g -> map tv_index (f_binders f) = map tv_index (f_binders g).
Proof.
  assert (L : forall fs, Forall (fun f => forall g, same f g -> map tv_index (f_binders f) = map tv_index (f_binders g)) fs ->
    forall gs, Forall2 same fs gs -> map tv_index (flat_map f_binders fs) = map tv_index (flat_map f_binders gs)).
  { induction 1 as [|f0 fs Hf H IH]; intros gs F; inversion F; subst; [reflexivity|]. cbn. rewrite !map_app. f_equal; auto. }
  induction f using form_ind'; intros g' E.
  - apply inv_all in E. destruct E as (j & ws & c & -> & E1 & E2). cbn. rewrite !map_app. f_equal; [apply tvars_index, E1|auto].
  - apply inv_ex in E. destruct E as (j & ws & c & -> & E1 & E2). cbn. rewrite !map_app. f_equal; [apply tvars_index, E1|auto].
  - apply inv_or in E. destruct E as (j & m & -> & E). cbn. apply L; assumption.
  - apply inv_and in E. destruct E as (j & m & -> & E). cbn. apply L; assumption.
  - apply inv_equ in E. destruct E as (j & a' & b' & -> & E1 & E2). cbn. rewrite !map_app. f_equal; auto.
  - apply inv_imp in E. destruct E as (j & a' & b' & -> & E1 & E2). cbn. rewrite !map_app. f_equal; auto.
  - apply inv_not in E. destruct E as (j & a' & -> & E). cbn. auto.
  - destruct g'; try discriminate. reflexivity.
  - destruct g'; try discriminate. reflexivity.
  - destruct g'; try discriminate. reflexivity.
Qed.
Lemma is_ttype_same v w : tvar_eqb v w = true -> is_ttype (tv_ty v) = is_ttype (tv_ty w) /\ tv_index v = tv_index w.
Proof.
  unfold tvar_eqb. rewrite !andb_true_iff. intros [[_ E1] E2]. apply Z.eqb_eq in E1. split; [|exact E1]. unfold is_ttype.
  apply eq_true_iff_eq. rewrite !ty_eqb_reflect in *. split; intros K; [apply same_ty_sym in E2|]; eapply same_ty_trans; eauto.
Qed.
Lemma may_inst_same v vs b w ws c u : tvar_eqb v w = true -> Forall2 (fun a b => tvar_eqb a b = true) vs ws -> same b c -> may_inst v vs b u = may_inst w ws c u.
Proof.
  intros E1 E2 E3. destruct (is_ttype_same v w E1) as [A B]. unfold may_inst. rewrite A, B, !map_app, (tvars_index vs ws E2), (binders_same b c E3). reflexivity.
Qed.
Lemma F2_eqb {A} (e : A -> A -> bool) l m : Forall2 (fun a b => e a b = true) l m -> list_eqb e l m = true.
Proof. induction 1 as [|a b l m E H IH]; cbn; [reflexivity|]. rewrite E, IH. reflexivity. Qed.
Lemma inst_all_same v vs b w ws c u : tv_index v = tv_index w -> Forall2 (fun a b => tvar_eqb a b = true) vs ws -> same b c -> same (inst_all v vs b u) (inst_all w ws c u).
Proof.
  intros E1 E2 E3. pose proof (fvinst_same (tv_index v) u b c E3) as K. unfold inst_all. rewrite <- E1. pose proof (F2_eqb _ _ _ E2) as E. inversion E2; subst; [exact K|]. unfold same in *. cbn [form_eqb]. rewrite E, K. reflexivity.
Qed.
Lemma inst_ex_same v vs b w ws c u : tv_index v = tv_index w -> Forall2 (fun a b => tvar_eqb a b = true) vs ws -> same b c -> same (inst_ex v vs b u) (inst_ex w ws c u).
Proof.
  intros E1 E2 E3. pose proof (fvinst_same (tv_index v) u b c E3) as K. unfold inst_ex. rewrite <- E1. pose proof (F2_eqb _ _ _ E2) as E. inversion E2; subst; [exact K|]. unfold same in *. cbn [form_eqb]. rewrite E, K. reflexivity.
Qed.
Lemma quantified_same r f f' u g : same f f' -> quantified r f u = Some g -> exists g', quantified r f' u = Some g' /\ same g g'.
Proof.
  intros S E. destruct f as [? vs b|? vs b| | | | |? a| | |]; try discriminate E.
  - apply inv_all in S. destruct S as (j & ws & c & -> & S1 & S2). cbn in E. destruct vs as [|v vs]; [discriminate|]. inversion S1 as [|? w ? ws' K1 K2]; subst. destruct (is_ttype_same v w K1) as [_ K].
    rewrite (may_inst_same _ _ _ _ _ _ u K1 K2 S2) in E. cbn [quantified]. destruct (String.eqb r "leftForall" && may_inst w ws' c u); [|discriminate]. injection E as <-. eexists. split; [reflexivity|]. apply inst_all_same; assumption.
  - apply inv_ex in S. destruct S as (j & ws & c & -> & S1 & S2). cbn in E. destruct vs as [|v vs]; [discriminate|]. inversion S1 as [|? w ? ws' K1 K2]; subst. destruct (is_ttype_same v w K1) as [_ K].
    rewrite (may_inst_same _ _ _ _ _ _ u K1 K2 S2) in E. cbn [quantified]. destruct (String.eqb r "leftExists" && may_inst w ws' c u); [|discriminate]. injection E as <-. eexists. split; [reflexivity|]. apply inst_ex_same; assumption.
  - apply inv_not in S. destruct S as (j & a' & -> & S). destruct a as [? vs b|? vs b| | | | |? a| | |]; try discriminate E.
    + apply inv_all in S. destruct S as (j' & ws & c & -> & S1 & S2). cbn in E. destruct vs as [|v vs]; [discriminate|]. inversion S1 as [|? w ? ws' K1 K2]; subst. destruct (is_ttype_same v w K1) as [_ K].
      rewrite (may_inst_same _ _ _ _ _ _ u K1 K2 S2) in E. cbn [quantified]. destruct (String.eqb r "leftNotAll" && may_inst w ws' c u); [|discriminate]. injection E as <-. eexists. split; [reflexivity|]. apply same_neg, inst_all_same; assumption.
    + apply inv_ex in S. destruct S as (j' & ws & c & -> & S1 & S2). cbn in E. destruct vs as [|v vs]; [discriminate|]. inversion S1 as [|? w ? ws' K1 K2]; subst. destruct (is_ttype_same v w K1) as [_ K].
      rewrite (may_inst_same _ _ _ _ _ _ u K1 K2 S2) in E. cbn [quantified]. destruct (String.eqb r "leftNotEx" && may_inst w ws' c u); [|discriminate]. injection E as <-. eexists. split; [reflexivity|]. apply same_neg, inst_ex_same; assumption.
Qed.

(** ** Instances of the rules *)
Definition alpha_name (r : rule) : string :=
  match r with AND => "leftAnd" | NOR => "leftNotOr" | NIMP => "leftNotImplies" | NNOT => "leftNotNot" | OR => "leftOr" | NAND => "leftNotAnd" | IMP => "leftImp2" | _ => "" end.
Lemma alpha_parts r f l : alpha_of r f l -> parts (alpha_name r) f = Some [l].
Proof. intros []; reflexivity. Qed.
Lemma beta_parts r f l : beta_of r f l -> r <> EQU -> r <> NEQU -> parts (alpha_name r) f = Some l.
Proof. intros []; intros; try reflexivity; congruence. Qed.
Lemma special_names r f cs : parts r f = Some cs -> In r ["leftAnd"; "leftOr"; "leftImp2"; "leftIff"; "leftNotNot"; "leftNotAnd"; "leftNotOr"; "leftNotImplies"; "leftNotIff"]%string.
Proof.
  intros E. assert (K : forall s, String.eqb r s = true -> r = s) by (intros s; apply String.eqb_eq).
  destruct f as [| |? l|? l|? a b|? a b|? a| | |]; try discriminate E; cbn in E;
    try (match type of E with (if String.eqb r ?s then _ else _) = _ => destruct (String.eqb r s) eqn:R; [|discriminate]; apply K in R; subst r; cbn; tauto end).
  destruct a; try discriminate E; match type of E with (if String.eqb r ?s then _ else _) = _ => destruct (String.eqb r s) eqn:R; [|discriminate]; apply K in R; subst r; cbn; tauto end.
Qed.
Lemma cov_same c c' m l : Forall2 same c c' -> cov (c ++ m) l -> cov (c' ++ m) l.
Proof.
  intros F. apply cov_trans. apply cov_app; [|apply cov_incl; intros x Hx; apply in_or_app; right; exact Hx]. clear l.
  induction F as [|a b c c' S F IH]; [apply cov_nil|]. apply cov_cons; [exists b; split; [left; reflexivity|apply same_sym, S]|].
  eapply cov_trans; [|exact IH]. apply cov_incl. intros x Hx. right. exact Hx.
Qed.
Lemma rule_parts nm r hyps i f g cs ps prem : nth_error hyps i = Some g -> same f g -> parts r f = Some cs ->
  Forall2 (fun c p => cov (c ++ hyps) (fst p) /\ snd p = []) cs ps -> rule_ok (mkStep nm hyps [] r (Some i) None prem) ps = true.
Proof.
  intros N S P F. destruct (parts_same r f g cs S P) as (cs' & P' & F'). pose proof (special_names _ _ _ P') as Sp.
  assert (R : (List.length cs' =? List.length ps)%nat && forallb (fun x => within (fst (snd x)) (fst x ++ hyps) && within (snd (snd x)) []) (combine cs' ps) = true).
  { clear - F F'. apply andb_true_iff. split; [apply Nat.eqb_eq; rewrite <- (Forall2_len _ _ _ F), (Forall2_len _ _ _ F'); reflexivity|].
    revert cs' F'. induction F as [|c p cs ps [H1 H2] F IH]; intros cs' F'; inversion F' as [|? c' ? cs'' K1 K2]; subst; [reflexivity|]. cbn [combine forallb fst snd].
    rewrite (IH _ K2), H2. cbn [within forallb]. rewrite andb_true_r. rewrite andb_true_r. apply within_cov. eapply cov_same; eauto. }
  unfold rule_ok. cbn [t_pos t_rule t_left t_right t_term]. rewrite N. cbn in Sp. repeat (destruct Sp as [<-|Sp]; [cbn [String.eqb Ascii.eqb eqb]; rewrite P'; exact R|]). contradiction.
Qed.
Definition quant_name (r : rule) : string := match r with ALL => "leftForall" | NEX => "leftNotEx" | EX => "leftExists" | NALL => "leftNotAll" | _ => "" end.
Lemma gamma_quant r f v b u x : gamma_by r f v b u x -> clean v b (rest_vars f) -> t_vars u = [] -> t_tyvars u = [] -> exists g, quantified (quant_name r) f u = Some g /\ same x g.
Proof.
  intros H [C1 C2] E1 E2. assert (M : forall vs, tl vs = rest_vars f -> may_inst v (rest_vars f) b u = true).
  { intros vs _. unfold may_inst. rewrite C1, E1, E2. cbn. apply negb_true_iff. apply not_true_iff_false. rewrite existsb_exists. intros (y & Hy & K). apply Z.eqb_eq in K. subst. contradiction. }
  specialize (M (v :: rest_vars f) eq_refl).
  destruct H as [i vs g v b u x [(i' & E & ->)|[(i' & j & w & rest & E & ->)|[(i' & j & k & E & ->)|(i' & j & k & l & w & rest & E & ->)]]]|
                 i j vs g v b u x [(i' & E & ->)|[(i' & j' & w & rest & E & ->)|[(i' & j' & k & E & ->)|(i' & j' & k & l & w & rest & E & ->)]]]]; try discriminate; injection E as ? ? ?; subst;
    cbn [rest_vars tl] in M; cbn [quantified quant_name String.eqb Ascii.eqb eqb andb]; rewrite M; eexists; (split; [reflexivity|]); cbn [inst_all inst_ex]; try apply same_refl; try (apply same_not, same_refl).
  - apply same_all || apply same_ex.
  - apply same_not. apply same_all || apply same_ex.
Qed.
Lemma delta_quant r f v b u x : delta_by r f v b u x -> clean v b (rest_vars f) -> t_vars u = [] -> t_tyvars u = [] -> exists g, quantified (quant_name r) f u = Some g /\ same x g.
Proof.
  intros H [C1 C2] E1 E2. assert (M : forall vs, tl vs = rest_vars f -> may_inst v (rest_vars f) b u = true).
  { intros vs _. unfold may_inst. rewrite C1, E1, E2. cbn. apply negb_true_iff. apply not_true_iff_false. rewrite existsb_exists. intros (y & Hy & K). apply Z.eqb_eq in K. subst. contradiction. }
  specialize (M (v :: rest_vars f) eq_refl).
  destruct H as [i vs g v b u x [(i' & E & ->)|[(i' & j & w & rest & E & ->)|[(i' & j & k & E & ->)|(i' & j & k & l & w & rest & E & ->)]]]|
                 i j vs g v b u x [(i' & E & ->)|[(i' & j' & w & rest & E & ->)|[(i' & j' & k & E & ->)|(i' & j' & k & l & w & rest & E & ->)]]]]; try discriminate; injection E as ? ? ?; subst;
    cbn [rest_vars tl] in M; cbn [quantified quant_name String.eqb Ascii.eqb eqb andb]; rewrite M; eexists; (split; [reflexivity|]); cbn [inst_all inst_ex]; try apply same_refl; try (apply same_not, same_refl).
  - apply same_all || apply same_ex.
  - apply same_not. apply same_all || apply same_ex.
Qed.
Lemma rule_quant nm r hyps i f g u x h q prem : nth_error hyps i = Some g -> same f g -> quantified r f u = Some x -> same x h ->
  cov (h :: hyps) q -> (is_delta_rule r = true -> new_constant_in u (hyps ++ []) = true) -> rule_ok (mkStep nm hyps [] r (Some i) (Some u) prem) [(q, [])] = true.
Proof.
  intros N S Q Sx C D. destruct (quantified_same r f g u x S Q) as (x' & Q' & S').
  assert (R : within q ([x'] ++ hyps) && within [] [] && (negb (is_delta_rule r) || new_constant_in u (hyps ++ [])) = true).
  { apply andb_true_iff. split; [apply andb_true_iff; split; [|reflexivity]|].
    - apply within_cov. apply (cov_same [h] [x']); [|exact C]. constructor; [|auto]. eapply same_trans; [apply same_sym, Sx|exact S'].
    - destruct (is_delta_rule r); [|reflexivity]. cbn. auto. }
  assert (Sp : In r ["leftForall"; "leftExists"; "leftNotEx"; "leftNotAll"]%string).
  { assert (K : forall s, String.eqb r s = true -> r = s) by (intros s; apply String.eqb_eq). clear - Q' K.
    destruct g as [? [|v vs] b|? [|v vs] b| | | | |? a| | |]; try discriminate Q'; cbn in Q';
      try (match type of Q' with (if String.eqb r ?s && _ then _ else _) = _ => destruct (String.eqb r s) eqn:R; [|discriminate]; apply K in R; subst r; cbn; tauto end).
    destruct a as [? [|v vs] b|? [|v vs] b| | | | | | | |]; try discriminate Q'; match type of Q' with (if String.eqb r ?s && _ then _ else _) = _ => destruct (String.eqb r s) eqn:R; [|discriminate]; apply K in R; subst r; cbn; tauto end. }
  unfold rule_ok. cbn [t_pos t_rule t_left t_right t_term]. rewrite N. cbn in Sp. repeat (destruct Sp as [<-|Sp]; [cbn [String.eqb Ascii.eqb eqb]; rewrite Q'; exact R|]). contradiction.
Qed.
Lemma rule_hyp nm hyps i f g : nth_error hyps i = Some g -> same f g -> available hyps (neg f) -> rule_ok (mkStep nm hyps [] "leftHyp" (Some i) None []) [] = true.
Proof.
  intros N S A. unfold rule_ok. cbn [t_pos t_rule t_left t_right t_term]. rewrite N. cbn [String.eqb Ascii.eqb eqb]. apply mem_avail. eapply avail_same; [|exact A]. apply same_neg, S.
Qed.
Lemma rule_congruence nm hyps f : available hyps f -> available hyps (neg f) -> rule_ok (mkStep nm hyps [] "congruence" None None []) [] = true.
Proof.
  intros (h & Hh & S) A. unfold rule_ok. cbn [t_pos t_rule t_left String.eqb Ascii.eqb eqb andb]. apply existsb_exists. exists h. split; [exact Hh|]. apply mem_avail. eapply avail_same; [|exact A]. apply same_neg, same_sym, S.
Qed.
