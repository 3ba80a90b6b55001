(** The final substitution is applied to the proof (C103), the metavariables left are found (C104). *)
From Coq Require Import ZArith List Bool Lia.
From Verif Require Import LibSet_Model Ast_Model Sem_Spec Occ_Spec Ast_Proofs Sem_Proofs Subst_Model GsTerm_Spec GsTerm_Proofs GsProof_Model GsProof_Spec PrfSubst_Model PrfSubst_Spec.
From Verif Require Rules_Proofs.
Import ListNotations.
Open Scope list_scope.
Open Scope Z_scope.

(** *** equality up to indices *)
Lemma list_eqb_map {A} (e : A -> A -> bool) (h : A -> A) l : Forall (fun a => forall b, e a b = true -> e (h a) (h b) = true) l ->
  forall l', list_eqb e l l' = true -> list_eqb e (map h l) (map h l') = true.
Proof.
  induction 1 as [|a l Ha Hl IH]; intros [|b l'] E; try discriminate; [reflexivity|]. cbn in E |- *. apply andb_prop in E as [E1 E2]. rewrite (Ha _ E1). exact (IH _ E2).
Qed.
Lemma list_eqb_trans {A} (e : A -> A -> bool) l : Forall (fun a => forall b c, e a b = true -> e b c = true -> e a c = true) l ->
  forall l' l'', list_eqb e l l' = true -> list_eqb e l' l'' = true -> list_eqb e l l'' = true.
Proof.
  induction 1 as [|a l Ha Hl IH]; intros [|b l'] [|c l''] E1 E2; try discriminate; [reflexivity|]. cbn in *. apply andb_prop in E1 as [E1 E3]. apply andb_prop in E2 as [E2 E4].
  rewrite (Ha _ _ E1 E2). exact (IH _ _ E3 E4).
Qed.
Lemma ty_eqb_trans a b c : ty_eqb a b = true -> ty_eqb b c = true -> ty_eqb a c = true.
Proof. rewrite !ty_eqb_reflect. apply same_ty_trans. Qed.
Lemma ty_eqb_sym a b : ty_eqb a b = true -> ty_eqb b a = true.
Proof. rewrite !ty_eqb_reflect. apply same_ty_sym. Qed.
Lemma term_eqb_trans a b c : term_eqb a b = true -> term_eqb b c = true -> term_eqb a c = true.
Proof. rewrite !term_eqb_reflect. apply same_term_trans. Qed.
Lemma tvar_eqb_trans a b c : tvar_eqb a b = true -> tvar_eqb b c = true -> tvar_eqb a c = true.
Proof.
  unfold tvar_eqb. rewrite !andb_true_iff, !String.eqb_eq, !Z.eqb_eq. intros [[-> ->] H] [[-> ->] K]. split; [split; reflexivity|]. eapply ty_eqb_trans; eassumption.
Qed.
Lemma same_trans f : forall g h, same f g -> same g h -> same f h.
Proof.
  unfold same. induction f using form_ind'; intros g h A B; destruct g; try discriminate; destruct h; try discriminate; cbn in *;
    rewrite ?andb_true_iff in *; try (decompose [and] A; decompose [and] B; repeat split); eauto.
  all: try (eapply list_eqb_trans; [|eassumption|eassumption]; apply Forall_forall; intros; eauto using tvar_eqb_trans, ty_eqb_trans, term_eqb_trans; fail).
  all: try (eapply list_eqb_trans; eassumption).
  unfold id_eqb in *. rewrite Z.eqb_eq in *. congruence.
Qed.
Lemma list_eqb_sym {A} (e : A -> A -> bool) l : Forall (fun a => forall b, e a b = true -> e b a = true) l -> forall l', list_eqb e l l' = true -> list_eqb e l' l = true.
Proof.
  induction 1 as [|a l Ha Hl IH]; intros [|b l'] E; try discriminate; [reflexivity|]. cbn in *. apply andb_prop in E as [E1 E2]. rewrite (Ha _ E1). exact (IH _ E2).
Qed.
Lemma tvar_eqb_sym a b : tvar_eqb a b = true -> tvar_eqb b a = true.
Proof. unfold tvar_eqb. rewrite !andb_true_iff, !String.eqb_eq, !Z.eqb_eq. intros [[-> ->] H]. split; [split; reflexivity|]. apply ty_eqb_sym, H. Qed.
Lemma term_eqb_comm a b : term_eqb a b = true -> term_eqb b a = true.
Proof. rewrite !term_eqb_reflect. apply same_term_sym. Qed.
Lemma same_sym f : forall g, same f g -> same g f.
Proof.
  unfold same. induction f using form_ind'; intros g A; destruct g; try discriminate; cbn in *;
    rewrite ?andb_true_iff in *; try (decompose [and] A; repeat split); eauto.
  all: try (eapply list_eqb_sym; [|eassumption]; apply Forall_forall; intros; eauto using tvar_eqb_sym, ty_eqb_sym, term_eqb_comm; fail).
  all: try (eapply list_eqb_sym; eassumption).
  unfold id_eqb in *. rewrite Z.eqb_eq in *. congruence.
Qed.
Lemma same_refl f : same f f. Proof. apply Rules_Proofs.form_eqb_refl. Qed.
(** *** a substitution keeps it *)
Lemma subst_ty_same o u a : forall b, ty_eqb a b = true -> ty_eqb (subst_ty o u a) (subst_ty o u b) = true.
Proof.
  assert (R : ty_eqb u u = true) by (apply ty_eqb_reflect, same_ty_refl).
  assert (K : forall a b, ty_eqb a b = true -> ty_eqb a o = ty_eqb b o).
  { intros x y E. destruct (ty_eqb x o) eqn:E1, (ty_eqb y o) eqn:E2; auto.
    - rewrite (ty_eqb_trans _ _ _ (ty_eqb_sym _ _ E) E1) in E2. discriminate.
    - rewrite (ty_eqb_trans _ _ _ E E2) in E1. discriminate. }
  induction a using ty_ind'; intros c E; destruct c; try discriminate; cbn [subst_ty]; try exact E.
  - rewrite (K _ _ E). destruct (ty_eqb _ o); [exact R|exact E].
  - rewrite (K _ _ E). destruct (ty_eqb _ o); [exact R|exact E].
  - cbn in *. apply andb_prop in E as [E1 E2]. rewrite E1. cbn. apply list_eqb_map; assumption.
  - cbn in *. apply list_eqb_map; assumption.
  - cbn in *. apply andb_prop in E as [E1 E2]. rewrite (IHa1 _ E1), (IHa2 _ E2). reflexivity.
  - cbn in *. apply andb_prop in E as [E1 E2]. rewrite E1, (IHa _ E2). reflexivity.
Qed.
Lemma subst_tys_same o u l l' : list_eqb ty_eqb l l' = true -> list_eqb ty_eqb (map (subst_ty o u) l) (map (subst_ty o u) l') = true.
Proof. apply list_eqb_map, Forall_forall. intros a _. apply subst_ty_same. Qed.
Lemma bind_term_same b t : forall t', term_eqb t t' = true -> term_eqb (bind_term b t) (bind_term b t') = true.
Proof.
  destruct b as [o u|m u]; cbn [bind_term]; (induction t as [x|p tys l IH|x n|k] using term_ind'; intros t' E; destruct t'; try discriminate; cbn in *; try exact E).
  - rewrite !andb_true_iff in *. destruct E as [[E1 E2] E3]. repeat split; [exact E1|apply subst_tys_same, E2|apply list_eqb_map; assumption].
  - rewrite !andb_true_iff in *. destruct E as [[E1 E2] E3]. repeat split; [exact E1|exact E2|apply list_eqb_map; assumption].
  - unfold meta_eqb in E. apply Z.eqb_eq in E. rewrite E. destruct (_ =? _); [apply term_eqb_refl|]. cbn. unfold meta_eqb. apply Z.eqb_eq, E.
Qed.
Lemma bind_tvar_same b v w : tvar_eqb v w = true -> tvar_eqb (bind_tvar b v) (bind_tvar b w) = true.
Proof. destruct b as [o u|m u]; cbn; [|auto]. unfold tvar_eqb. cbn. rewrite !andb_true_iff. intros [H K]. split; [exact H|apply subst_ty_same, K]. Qed.
Lemma bind_same b f : forall g, same f g -> same (bind_form b f) (bind_form b g).
Proof.
  assert (V : forall l l', list_eqb tvar_eqb l l' = true -> list_eqb tvar_eqb (map (bind_tvar b) l) (map (bind_tvar b) l') = true) by (intros l; apply list_eqb_map, Forall_forall; intros a _; apply bind_tvar_same).
  assert (T : forall l l', list_eqb term_eqb l l' = true -> list_eqb term_eqb (map (bind_term b) l) (map (bind_term b) l') = true) by (intros l; apply list_eqb_map, Forall_forall; intros a _; apply bind_term_same).
  unfold same. destruct b as [o u|m u]; cbn [bind_form bind_term] in *.
  all: induction f using form_ind'; intros g A; destruct g; try discriminate; cbn in *; rewrite ?andb_true_iff in *; try (decompose [and] A; repeat split); eauto.
  all: try (apply list_eqb_map; assumption). all: try (apply subst_tys_same; assumption). all: try (apply V; assumption). all: try (apply T; assumption).
Qed.
Lemma full_same s : forall f g, same f g -> same (full_form s f) (full_form s g).
Proof. induction s as [|b s IH]; intros f g H; [exact H|]. apply IH, bind_same, H. Qed.
(** *** the rules *)
Lemma bind_neg b f : bind_form b (neg f) = neg (bind_form b f). Proof. destruct b; reflexivity. Qed.
Lemma alpha_bind b r f l : alpha_of r f l -> alpha_of r (bind_form b f) (map (bind_form b) l).
Proof.
  destruct 1 as [i l|i j l|i j x y|i j x].
  - destruct b; constructor.
  - replace (map (bind_form b) (map neg l)) with (map neg (map (bind_form b) l)) by (rewrite !map_map; apply map_ext; intros a; symmetry; apply bind_neg). destruct b; constructor.
  - cbn [map]. rewrite bind_neg. destruct b; constructor.
  - destruct b; constructor.
Qed.
Lemma beta_bind b r f l : beta_of r f l -> beta_of r (bind_form b f) (map (map (bind_form b)) l).
Proof.
  destruct 1 as [i l|i j l|i x y|i x y|i j x y].
  - rewrite map_map. cbn [map]. rewrite <- (map_map (bind_form b) (fun a => [a])). destruct b; constructor.
  - rewrite map_map. cbn [map]. rewrite (map_ext _ (fun a => [neg (bind_form b a)])) by (intros a; rewrite bind_neg; reflexivity).
    rewrite <- (map_map (bind_form b) (fun a => [neg a])). destruct b; constructor.
  - cbn [map]. rewrite bind_neg. destruct b; constructor.
  - cbn [map]. rewrite !bind_neg. destruct b; constructor.
  - cbn [map]. rewrite !bind_neg. destruct b; constructor.
Qed.
Lemma alpha_full s : forall r f l, alpha_of r f l -> alpha_of r (full_form s f) (map (full_form s) l).
Proof. induction s as [|b s IH]; intros r f l H; [rewrite map_id; exact H|]. apply (alpha_bind b), IH in H. rewrite map_map in H. exact H. Qed.
Lemma beta_full s : forall r f l, beta_of r f l -> beta_of r (full_form s f) (map (map (full_form s)) l).
Proof.
  induction s as [|b s IH]; intros r f l H.
  - rewrite (map_ext _ (fun x => x)) by (intros a; apply map_id). rewrite map_id. exact H.
  - apply (beta_bind b), IH in H. rewrite map_map in H. replace (map (map (full_form (b :: s))) l) with (map (fun x => map (full_form s) (map (bind_form b) x)) l); [exact H|].
    apply map_ext. intros a. rewrite map_map. reflexivity.
Qed.
Lemma avoids_cons i b s : avoids i (b :: s) -> avoids1 i b /\ avoids i s.
Proof. intros A. split; [intros m w ->; apply (A m w); left; reflexivity|intros m w K; apply (A m w); right; exact K]. Qed.
Definition full_tvar (s : list mixed) (v : tvar) : tvar := fold_left (fun v b => bind_tvar b v) s v.
Lemma full_tvar_index s : forall v, tv_index (full_tvar s v) = tv_index v.
Proof. induction s as [|b s IH]; intros v; [reflexivity|]. cbn. unfold full_tvar in IH. rewrite IH. apply bind_tvar_index. Qed.
Lemma gamma_full s : forall r f v b u x, gamma_by r f v b u x -> avoids (tv_index v) s -> gamma_by r (full_form s f) (full_tvar s v) (full_form s b) (full_term s u) (full_form s x).
Proof.
  induction s as [|e s IH]; intros r f v b u x H A; [exact H|]. apply avoids_cons in A. destruct A as [A1 A2]. apply (IH r (bind_form e f) (bind_tvar e v) (bind_form e b) (bind_term e u) (bind_form e x)); [|rewrite bind_tvar_index; exact A2].
  destruct H as [i vs g v b u x H|i j vs g v b u x H]; pose proof (gamma_bind e _ _ _ _ _ A1 H) as K.
  - rewrite bind_all in *. constructor. exact K.
  - rewrite bind_not, bind_ex in *. constructor. exact K.
Qed.
Lemma delta_full s : forall r f v b u x, delta_by r f v b u x -> avoids (tv_index v) s -> delta_by r (full_form s f) (full_tvar s v) (full_form s b) (full_term s u) (full_form s x).
Proof.
  induction s as [|e s IH]; intros r f v b u x H A; [exact H|]. apply avoids_cons in A. destruct A as [A1 A2]. apply (IH r (bind_form e f) (bind_tvar e v) (bind_form e b) (bind_term e u) (bind_form e x)); [|rewrite bind_tvar_index; exact A2].
  destruct H as [i vs g v b u x H|i j vs g v b u x H]; pose proof (delta_bind e _ _ _ _ _ A1 H) as K.
  - rewrite bind_ex in *. constructor. exact K.
  - rewrite bind_not, bind_all in *. constructor. exact K.
Qed.
(** *** the lists without repetitions *)
Section Forms.
Variable s : list mixed.
Definition adds (l acc : list form) : list form := fold_left (fun res f => add_new res (apply_substs_on_form s f)) l acc.
Lemma add_new_in l f g : In g (add_new l f) -> In g l \/ g = f.
Proof. unfold add_new. destruct (existsb _ l); [auto|]. rewrite in_app_iff. cbn. intuition. Qed.
Lemma add_new_old l f g : In g l -> In g (add_new l f).
Proof. unfold add_new. destruct (existsb _ l); [auto|]. rewrite in_app_iff. auto. Qed.
Lemma add_new_found l f : found same f (add_new l f).
Proof.
  unfold add_new. destruct (existsb (form_eqb f) l) eqn:E.
  - apply existsb_exists in E as (g & Hg & E). exists g. auto.
  - exists f. split; [apply in_app_iff; right; left; reflexivity|apply same_refl].
Qed.
Lemma adds_in l : forall acc g, In g (adds l acc) -> In g acc \/ In g (map (apply_substs_on_form s) l).
Proof.
  induction l as [|a l IH]; intros acc g H; cbn in *; [auto|]. destruct (IH _ _ H) as [K|K]; [|auto]. apply add_new_in in K. destruct K as [K| ->]; auto.
Qed.
Lemma adds_old l : forall acc g, In g acc -> In g (adds l acc).
Proof. induction l as [|a l IH]; intros acc g H; cbn in *; [auto|]. apply IH, add_new_old, H. Qed.
Lemma adds_found l : forall acc f, In f l -> found same (apply_substs_on_form s f) (adds l acc).
Proof.
  induction l as [|a l IH]; intros acc f H; [contradiction|]. cbn. destruct H as [-> |H]; [|apply IH, H].
  destruct (add_new_found acc (apply_substs_on_form s f)) as (g & Hg & E). exists g. split; [apply adds_old, Hg|exact E].
Qed.
Lemma adds_distinct l : forall acc, distinct (acc ++ map (apply_substs_on_form s) l) -> adds l acc = acc ++ map (apply_substs_on_form s) l.
Proof.
  induction l as [|a l IH]; intros acc D; cbn in *; [rewrite app_nil_r; reflexivity|].
  assert (E : add_new acc (apply_substs_on_form s a) = acc ++ [apply_substs_on_form s a]).
  { unfold add_new. destruct (existsb _ acc) eqn:X; [|reflexivity]. exfalso. apply existsb_exists in X as (g & Hg & X). clear IH. induction acc as [|x acc IH]; [contradiction|].
    destruct D as [D1 D2]. destruct Hg as [-> |Hg]; [|apply IH; assumption]. rewrite Forall_forall in D1. apply (D1 (apply_substs_on_form s a)); [apply in_app_iff; right; left; reflexivity|exact X]. }
  rewrite E, IH; rewrite <- app_assoc; [reflexivity|exact D].
Qed.
End Forms.

(** *** the proof *)
Lemma subst_form s p : ps_form (subst_step s p) = apply_substs_on_form s (ps_form p). Proof. destruct p; reflexivity. Qed.
Lemma subst_rule s p : ps_rule (subst_step s p) = ps_rule p. Proof. destruct p; reflexivity. Qed.
Lemma subst_results s p : ps_results (subst_step s p) = map (subst_forms s) (ps_results p). Proof. destruct p; reflexivity. Qed.
Lemma subst_children s p : ps_children (subst_step s p) = map (subst_proof s) (ps_children p). Proof. destruct p; reflexivity. Qed.
Lemma vtab_ind' s (ok : list form -> tvar -> form -> term -> Prop) (P : list form -> list pstep -> Prop) :
  (forall Gamma p, ps_rule p = AX -> In (ps_form p) Gamma -> clash (map (full_form s) Gamma) (full_form s (ps_form p)) -> ps_children p = [] -> P Gamma [p]) ->
  (forall Gamma p rest l fs, In (ps_form p) Gamma -> alpha_of (ps_rule p) (ps_form p) l -> ps_results p = [fs] -> among fs l -> P (Gamma ++ fs) rest -> ps_children p = [] -> P Gamma (p :: rest)) ->
  (forall Gamma p rest v b u r, In (ps_form p) Gamma -> gamma_by (ps_rule p) (ps_form p) v b u r -> avoids (tv_index v) s -> ps_results p = [[r]] -> P (Gamma ++ [r]) rest -> ps_children p = [] -> P Gamma (p :: rest)) ->
  (forall Gamma p rest v b u r, In (ps_form p) Gamma -> delta_by (ps_rule p) (ps_form p) v b u r -> avoids (tv_index v) s -> ps_results p = [[r]] ->
     (forall v', tv_index v' = tv_index v -> ok (map (full_form s) Gamma) v' (full_form s b) (full_term s u)) -> P (Gamma ++ [r]) rest -> ps_children p = [] -> P Gamma (p :: rest)) ->
  (forall Gamma p rest, ps_rule p = R -> P Gamma rest -> ps_children p = [] -> P Gamma (p :: rest)) ->
  (forall Gamma p ls, In (ps_form p) Gamma -> beta_of (ps_rule p) (ps_form p) ls -> Forall2 among (ps_results p) ls -> ls <> [] ->
     Forall2 (fun fs c => P (Gamma ++ fs) c) (ps_results p) (ps_children p) -> P Gamma [p]) ->
  forall Gamma proof, vtab s ok Gamma proof -> P Gamma proof.
Proof.
  intros H1 H2 H3 H4 H5 H6. fix IH 3. intros Gamma proof T. destruct T as [Gamma p A B C D|Gamma p rest l fs A B C D E F|Gamma p rest v b u r A B C D E F|Gamma p rest v b u r A B C D K E F|Gamma p rest A B C|Gamma p ls A B C D E].
  - apply H1; assumption.
  - eapply H2; eauto.
  - eapply H3; eauto.
  - eapply H4; eauto.
  - apply H5; auto.
  - eapply H6; eauto. clear - IH E. induction E as [|fs c rs cs Hc E IHE]; constructor; [apply IH, Hc|exact IHE].
Qed.
Section Proof.
Variable s : list mixed.
Variable R : form -> form -> Prop.
Variable ok : list form -> tvar -> form -> term -> Prop.
Hypothesis anti : antitone ok.
Hypothesis R_refl : forall f, R f f.
Hypothesis R_same : forall f g, R f g -> same f g.
Let linear l := forall f, in_proof f l -> stays_linear s f.
Let kept l := forall fs f, generated fs l -> In f fs -> found R (apply_substs_on_form s f) (subst_forms s fs).
Definition covers (Gamma Gamma' : list form) : Prop := (forall f, In f Gamma -> found R (full_form s f) Gamma') /\ incl Gamma' (map (full_form s) Gamma).
Lemma covers_app Gamma Gamma' fs : covers Gamma Gamma' -> (forall f, In f fs -> apply_substs_on_form s f = full_form s f) ->
  (forall f, In f fs -> found R (apply_substs_on_form s f) (subst_forms s fs)) -> covers (Gamma ++ fs) (Gamma' ++ subst_forms s fs).
Proof.
  intros [C1 C2] L K. split.
  - intros f Hf. apply in_app_or in Hf. destruct Hf as [Hf|Hf].
    + destruct (C1 f Hf) as (h & Hh & E). exists h. split; [apply in_app_iff; auto|exact E].
    + destruct (K f Hf) as (h & Hh & E). exists h. rewrite <- (L f Hf). split; [apply in_app_iff; auto|exact E].
  - intros f Hf. rewrite map_app. apply in_app_iff. apply in_app_or in Hf. destruct Hf as [Hf|Hf]; [left; apply C2, Hf|right].
    apply (adds_in s) in Hf. destruct Hf as [[]|Hf]. apply in_map_iff in Hf as (g & <- & Hg). apply in_map_iff. exists g. split; [symmetry; apply L, Hg|exact Hg].
Qed.
Lemma covers_clash Gamma Gamma' f : covers Gamma Gamma' -> clash (map (full_form s) Gamma) f -> clash Gamma' f.
Proof.
  intros [C1 _] [H|[H|(g & Hg & H)]]; [left; exact H|right; left; exact H|right; right]. apply in_map_iff in Hg as (g0 & <- & Hg). destruct (C1 g0 Hg) as (h & Hh & E). exists h. split; [exact Hh|].
  apply R_same in E. destruct H as [H|H]; [left|right]; eapply same_trans; try exact H; exact E.
Qed.
Lemma among_full fs l : (forall f, In f fs -> apply_substs_on_form s f = full_form s f) -> among fs l -> among (subst_forms s fs) (map (full_form s) l).
Proof.
  intros L H f Hf. apply (adds_in s) in Hf. destruct Hf as [[]|Hf]. apply in_map_iff in Hf as (g & <- & Hg). destruct (H g Hg) as (c & Hc & E). exists (full_form s c).
  split; [apply in_map, Hc|]. rewrite (L g Hg). apply full_same, E.
Qed.
Lemma results_linear p l fs f : linear l -> In p l -> In fs (ps_results p) -> In f fs -> apply_substs_on_form s f = full_form s f.
Proof. intros L Hp Hfs Hf. apply linear_full, L. eapply In_result; eassumption. Qed.
Theorem subst_tab Gamma proof : vtab s ok Gamma proof -> linear proof -> kept proof -> forall Gamma', covers Gamma Gamma' -> utab R ok Gamma' (subst_proof s proof).
Proof.
  intros T. induction T as [Gamma p A B C D|Gamma p rest l fs A B C D IH E|Gamma p rest v b u r A B C D IH E|Gamma p rest v b u r A B C D K IH E|Gamma p rest A IH B|Gamma p ls A B C D IH] using vtab_ind'; intros L N Gamma' Cov.
  all: assert (F : forall q, In q [p] -> ps_form (subst_step s q) = full_form s (ps_form q)) by (intros q [<-|[]]; rewrite subst_form; apply linear_full, L, In_form; left; reflexivity); specialize (F p (or_introl eq_refl)).
  all: try assert (Lr : linear rest) by (intros f Hf; apply L; destruct Hf as [q l0 Hq|f r0 q l0 Hq H2 H3|f c q l0 Hq H2 H3]; [apply In_form; right; exact Hq|eapply In_result; [right; exact Hq| |]; eassumption|eapply In_child; [right; exact Hq| |]; eassumption]).
  all: try assert (Nr : kept rest) by (intros f0 f Hf; apply N; destruct Hf as [f0 q l0 Hq H2|f0 c q l0 Hq H2 H3]; [eapply Gen_here; [right; exact Hq|exact H2]|eapply Gen_child; [right; exact Hq| |]; eassumption]).
  all: cbn [subst_proof map].
  - apply U_close; rewrite ?subst_rule, ?subst_children, ?F, ?D; try assumption; try reflexivity.
    + apply Cov, B.
    + eapply covers_clash; eassumption.
  - assert (Lf : forall f, In f fs -> apply_substs_on_form s f = full_form s f) by (intros f Hf; eapply (results_linear p); [exact L|left; reflexivity|rewrite C; left; reflexivity|exact Hf]).
    eapply U_alpha with (fs := subst_forms s fs) (l := map (full_form s) l); rewrite ?subst_rule, ?subst_children, ?subst_results, ?F, ?C, ?E; try reflexivity.
    + apply Cov, A.
    + apply alpha_full, B.
    + apply among_full; assumption.
    + apply IH; try assumption. apply covers_app; try assumption. intros f Hf. apply N; [|exact Hf]. eapply Gen_here; [left; reflexivity|rewrite C; left; reflexivity].
  - assert (Lf : forall f, In f [r] -> apply_substs_on_form s f = full_form s f) by (intros f Hf; eapply (results_linear p); [exact L|left; reflexivity|rewrite D; left; reflexivity|exact Hf]).
    assert (Er : subst_forms s [r] = [full_form s r]) by (cbn; rewrite (Lf r (or_introl eq_refl)); reflexivity).
    eapply U_gamma with (v := full_tvar s v) (b := full_form s b) (u := full_term s u) (r := full_form s r); rewrite ?subst_rule, ?subst_children, ?subst_results, ?F, ?D, ?E; cbn [map]; rewrite ?Er; try reflexivity.
    + apply Cov, A.
    + apply gamma_full; assumption.
    + rewrite <- Er. apply IH; try assumption. apply covers_app; try assumption. intros f Hf. apply N; [|exact Hf]. eapply Gen_here; [left; reflexivity|rewrite D; left; reflexivity].
  - assert (Lf : forall f, In f [r] -> apply_substs_on_form s f = full_form s f) by (intros f Hf; eapply (results_linear p); [exact L|left; reflexivity|rewrite D; left; reflexivity|exact Hf]).
    assert (Er : subst_forms s [r] = [full_form s r]) by (cbn; rewrite (Lf r (or_introl eq_refl)); reflexivity).
    eapply U_delta with (v := full_tvar s v) (b := full_form s b) (u := full_term s u) (r := full_form s r); rewrite ?subst_rule, ?subst_children, ?subst_results, ?F, ?D, ?E; cbn [map]; rewrite ?Er; try reflexivity.
    + apply Cov, A.
    + apply delta_full; assumption.
    + eapply anti; [apply Cov|]. apply K, full_tvar_index.
    + rewrite <- Er. apply IH; try assumption. apply covers_app; try assumption. intros f Hf. apply N; [|exact Hf]. eapply Gen_here; [left; reflexivity|rewrite D; left; reflexivity].
  - apply U_skip; rewrite ?subst_rule, ?subst_children, ?B; try assumption; try reflexivity. apply IH; assumption.
  - assert (Lf : forall fs f, In fs (ps_results p) -> In f fs -> apply_substs_on_form s f = full_form s f) by (intros fs f H1 H2; eapply (results_linear p); [exact L|left; reflexivity| |]; eassumption).
    assert (Lc : forall c, In c (ps_children p) -> linear c) by (intros c Hc f Hf; apply L; eapply In_child; [left; reflexivity| |]; eassumption).
    assert (Nc : forall c, In c (ps_children p) -> kept c) by (intros c Hc fs f Hf; apply N; eapply Gen_child; [left; reflexivity| |]; eassumption).
    assert (Nf : forall fs, In fs (ps_results p) -> forall f, In f fs -> found R (apply_substs_on_form s f) (subst_forms s fs)) by (intros fs H1 f Hf; apply N; [eapply Gen_here; [left; reflexivity|exact H1]|exact Hf]).
    eapply U_beta with (ls := map (map (full_form s)) ls); rewrite ?subst_rule, ?subst_children, ?subst_results, ?F.
    + apply Cov, A.
    + apply beta_full, B.
    + clear - C Lf. induction C as [|x y l l' H C IH]; cbn; constructor; [apply among_full; [intros f Hf; eapply Lf; [left; reflexivity|exact Hf]|exact H]|apply IH; intros; eapply Lf; [right|]; eassumption].
    + destruct ls; [congruence|discriminate].
    + clear - IH Lf Lc Nc Nf Cov. induction IH as [|x y l l' H C IH]; cbn; constructor.
      * apply H; [apply Lc; left; reflexivity|apply Nc; left; reflexivity|]. apply covers_app; [exact Cov|intros f Hf; eapply Lf; [left; reflexivity|exact Hf]|apply Nf; left; reflexivity].
      * apply IH; intros; [eapply Lf|eapply Lc|eapply Nc|eapply Nf]; try eassumption; right; assumption.
Qed.
End Proof.
Lemma covers_start (R : form -> form -> Prop) s Gamma : (forall f, R f f) -> covers s R Gamma (map (full_form s) Gamma).
Proof. intros H. split; [intros f Hf; exists (full_form s f); split; [apply in_map, Hf|apply H]|apply incl_refl]. Qed.
(** with repetitions dropped, the formulas are found up to indices *)
Theorem subst_same s ok Gamma proof : antitone ok -> vtab s ok Gamma proof -> (forall f, in_proof f proof -> stays_linear s f) ->
  utab same ok (map (full_form s) Gamma) (subst_proof s proof).
Proof.
  intros A T L. apply (subst_tab s same ok A (fun _ _ H => H) Gamma proof T L); [|apply covers_start, same_refl]. intros fs f _ Hf. apply adds_found, Hf.
Qed.
Lemma utab_tab ok Gamma proof : utab eq ok Gamma proof -> tab ok Gamma proof.
Proof.
  assert (E : forall f l, found eq f l -> In f l) by (intros f l (h & Hh & ->); exact Hh).
  revert Gamma proof. fix IH 3. intros Gamma proof T. destruct T as [Gamma p A B C D|Gamma p rest l fs A B C D K F|Gamma p rest v b u r A B C D F|Gamma p rest v b u r A B C D K F|Gamma p rest A B C|Gamma p ls A B C D K].
  - apply T_close; auto.
  - eapply T_alpha; eauto.
  - eapply T_gamma; eauto.
  - eapply T_delta; eauto.
  - apply T_skip; auto.
  - eapply T_beta; eauto. clear - IH K. induction K as [|fs c rs cs Hc K IHE]; constructor; [apply IH, Hc|exact IHE].
Qed.
Theorem subst_exact s ok Gamma proof : antitone ok -> vtab s ok Gamma proof -> (forall f, in_proof f proof -> stays_linear s f) ->
  (forall fs, generated fs proof -> distinct (map (full_form s) fs)) -> tab ok (map (full_form s) Gamma) (subst_proof s proof).
Proof.
  intros A T L D. apply utab_tab. apply (subst_tab s eq ok A) with (Gamma := Gamma); auto.
  - intros f g ->. apply same_refl.
  - intros fs f G Hf. exists (apply_substs_on_form s f). split; [|reflexivity]. unfold subst_forms. change (In (apply_substs_on_form s f) (adds s fs [])).
    assert (E : map (apply_substs_on_form s) fs = map (full_form s) fs).
    { apply map_ext_in. intros g Hg. apply linear_full, L. clear - G Hg. induction G as [fs p l Hp Hf|fs c p l Hp Hc G IH]; [eapply In_result; eassumption|eapply In_child; [eassumption..|apply IH, Hg]]. }
    rewrite (adds_distinct s fs []); cbn; [apply in_map, Hf|]. rewrite E. apply D, G.
  - apply covers_start. reflexivity.
Qed.

(** *** the metavariables left *)
Definition occurs_in (m : meta) (l : list pstep) : Prop := exists f, in_proof f l /\ focc_meta (m_index m) f.
Definition gives (r : option mset) (Q : meta -> Prop) : Prop := exists x, r = Some x /\ mok x /\ forall m, has x m <-> Q m.
Lemma gives_more r (Q Q' : meta -> Prop) : (forall m, Q m <-> Q' m) -> gives r Q -> gives r Q'.
Proof. intros E (x & H1 & H2 & H3). exists x. split; [exact H1|]. split; [exact H2|]. intros m. rewrite H3. apply E. Qed.
Lemma gives_union r1 r2 Q1 Q2 : gives r1 Q1 -> gives r2 Q2 -> gives (union_opt r1 r2) (fun m => Q1 m \/ Q2 m).
Proof.
  intros (x & -> & O1 & H1) (y & -> & O2 & H2). destruct (munion_ok x y O1 O2) as (z & E & O & H). exists z. split; [exact E|]. split; [exact O|]. intros m. rewrite H, H1, H2. tauto.
Qed.
Lemma gives_fold {A} (g : A -> option mset) (Q : A -> meta -> Prop) l : Forall (fun a => gives (g a) (Q a)) l -> forall r Q0, gives r Q0 ->
  gives (fold_left (fun acc a => union_opt acc (g a)) l r) (fun m => Q0 m \/ exists a, In a l /\ Q a m).
Proof.
  induction 1 as [|a l Ha Hl IH]; intros r Q0 H0; cbn.
  - eapply gives_more; [|exact H0]. intros m. split; [auto|]. intros [H|(a & [] & _)]. exact H.
  - eapply gives_more; [|apply IH, gives_union; eassumption]. intros m. split.
    + intros [[H|H]|(b & Hb & H)]; eauto.
    + intros [H|(b & [<-|Hb] & H)]; eauto.
Qed.
Lemma in_proof_inv f l : in_proof f l <-> exists p, In p l /\ (f = ps_form p \/ (exists r, In r (ps_results p) /\ In f r) \/ exists c, In c (ps_children p) /\ in_proof f c).
Proof.
  split.
  - destruct 1 as [p l Hp|f r p l Hp H2 H3|f c p l Hp H2 H3]; exists p; (split; [exact Hp|]); eauto 6.
  - intros (p & Hp & [-> |[(r & H2 & H3)|(c & H2 & H3)]]); [apply In_form, Hp|eapply In_result; eassumption|eapply In_child; eassumption].
Qed.
Lemma in_proof_cons f p l : in_proof f (p :: l) <-> in_proof f [p] \/ in_proof f l.
Proof.
  rewrite !in_proof_inv. split.
  - intros (q & [<-|Hq] & H); [left; exists p; split; [left; reflexivity|exact H]|right; eauto].
  - intros [(q & [<-|[]] & H)|(q & Hq & H)]; [exists p; split; [left; reflexivity|exact H]|exists q; split; [right; exact Hq|exact H]].
Qed.
Lemma gives_steps l : Forall (fun p => forall r Q, gives r Q -> gives (step_metas r p) (fun m => Q m \/ occurs_in m [p])) l ->
  forall r Q, gives r Q -> gives (fold_left step_metas l r) (fun m => Q m \/ occurs_in m l).
Proof.
  induction 1 as [|p l Hp Hl IH]; intros r Q H; cbn.
  - eapply gives_more; [|exact H]. intros m. split; [auto|]. intros [K|(f & K & _)]; [exact K|]. apply in_proof_inv in K. destruct K as (q & [] & _).
  - eapply gives_more; [|apply IH, Hp, H]. intros m. unfold occurs_in. split.
    + intros [[K|(f & K & O)]|(f & K & O)]; [auto|right|right]; exists f; (split; [apply in_proof_cons; auto|exact O]).
    + intros [K|(f & K & O)]; [auto|]. apply in_proof_cons in K. destruct K as [K|K]; [left; right|right]; eauto.
Qed.
Lemma leaf_gives : gives (Some Leaf) (fun _ => False).
Proof. exists Leaf. split; [reflexivity|]. split; [apply mleaf_ok|]. intros m. unfold has. cbn. split; [intros (y & [] & _)|contradiction]. Qed.
Lemma step_gives : forall p r Q, gives r Q -> gives (step_metas r p) (fun m => Q m \/ occurs_in m [p]).
Proof.
  fix IH 1. intros [f d i n rs cs] r Q H. cbn [step_metas].
  assert (IHl : forall l, Forall (fun p => forall r Q, gives r Q -> gives (step_metas r p) (fun m => Q m \/ occurs_in m [p])) l) by (fix IHl 1; intros [|q l]; constructor; [apply IH|apply IHl]).
  assert (C : Forall (fun c => gives (fold_left step_metas c (Some Leaf)) (fun m => occurs_in m c)) cs).
  { clear - IHl. induction cs as [|c cs IHc]; constructor; [|exact IHc]. eapply gives_more; [|apply gives_steps; [apply IHl|apply leaf_gives]]. intros m. tauto. }
  assert (F : Forall (fun g => gives (form_metas g) (fun m => focc_meta (m_index m) g)) (concat rs)) by (apply Forall_forall; intros g _; apply form_metas_ok).
  eapply gives_more; [|apply (gives_fold (fun c => fold_left step_metas c (Some Leaf)) _ _ C), (gives_fold form_metas _ _ F), gives_union; [exact H|apply form_metas_ok]].
  intros m. cbn beta. unfold occurs_in. split.
  - intros [[[K|K]|(g & Hg & K)]|(c & Hc & (g & Hg & K))]; [left; exact K|right..].
    + exists f. split; [|exact K]. apply (In_form (PS f d i n rs cs)). left. reflexivity.
    + apply in_concat in Hg as (x & Hx & Hg). exists g. split; [|exact K]. eapply In_result; [left; reflexivity|exact Hx|exact Hg].
    + exists g. split; [|exact K]. eapply In_child; [left; reflexivity|exact Hc|exact Hg].
  - intros [K|(g & Hg & K)]; [auto|]. apply in_proof_inv in Hg. destruct Hg as (q & [<-|[]] & [-> |[(x & H2 & H3)|(c & H2 & H3)]]); cbn in *.
    + auto.
    + left. right. exists g. split; [apply in_concat; eauto|exact K].
    + right. exists c. split; [exact H2|]. eauto.
Qed.
Theorem proof_metas_exact l : exists x, proof_metas l = Some x /\ forall m, find meta_eqb meta_ltb x m = true <-> exists f, in_proof f l /\ focc_meta (m_index m) f.
Proof.
  destruct (gives_steps l) with (r := Some (@Leaf meta)) (Q := fun _ : meta => False) as (x & E & O & H); [apply Forall_forall; intros p _; apply step_gives|apply leaf_gives|].
  exists x. split; [exact E|]. intros m. rewrite (has_find _ _ O), H. unfold occurs_in. tauto.
Qed.

(** *** what is printed *)
Lemma vtab_nil ok Gamma proof : vtab [] ok Gamma proof -> tab ok Gamma proof.
Proof.
  assert (E : forall l : list form, map (full_form []) l = l) by (intros l; apply map_id).
  intros T. induction T as [Gamma p A B C D|Gamma p rest l fs A B C D IH F|Gamma p rest v b u r A B C D IH F|Gamma p rest v b u r A B C D K IH F|Gamma p rest A IH B|Gamma p ls A B C D IH] using vtab_ind'.
  - rewrite E in C. apply T_close; auto.
  - eapply T_alpha; eauto.
  - eapply T_gamma; eauto.
  - rewrite E in K. eapply T_delta; eauto.
  - apply T_skip; auto.
  - eapply T_beta; eauto.
Qed.
Lemma tab_utab ok Gamma proof : tab ok Gamma proof -> utab same ok Gamma proof.
Proof.
  assert (E : forall f l, In f l -> found same f l) by (intros f l H; exists f; split; [exact H|apply same_refl]).
  revert Gamma proof. fix IH 3. intros Gamma proof T. destruct T as [Gamma p A B C D|Gamma p rest l fs A B C D K F|Gamma p rest v b u r A B C D F|Gamma p rest v b u r A B C D K F|Gamma p rest A B C|Gamma p ls A B C D K].
  - apply U_close; auto.
  - eapply U_alpha; eauto.
  - eapply U_gamma; eauto.
  - eapply U_delta; eauto.
  - apply U_skip; auto.
  - eapply U_beta; eauto. clear - IH K. induction K as [|fs c rs cs Hc K IHE]; constructor; [apply IH, Hc|exact IHE].
Qed.
Theorem final_same s ok Gamma proof : antitone ok -> vtab s ok Gamma proof -> (forall f, in_proof f proof -> stays_linear s f) ->
  utab same ok (map (full_form s) Gamma) (fst (final_proof s proof)).
Proof.
  intros A T L. destruct s as [|b s]; [|apply subst_same; assumption]. cbn [final_proof fst]. rewrite map_id. apply tab_utab, vtab_nil, T.
Qed.
Theorem final_exact s ok Gamma proof : antitone ok -> vtab s ok Gamma proof -> (forall f, in_proof f proof -> stays_linear s f) ->
  (forall fs, generated fs proof -> distinct (map (full_form s) fs)) -> tab ok (map (full_form s) Gamma) (fst (final_proof s proof)).
Proof.
  intros A T L D. destruct s as [|b s]; [|apply subst_exact; assumption]. cbn [final_proof fst]. rewrite map_id. apply vtab_nil, T.
Qed.
Theorem final_metas s proof : exists x, snd (final_proof s proof) = Some x /\
  forall m, find meta_eqb meta_ltb x m = true <-> exists f, in_proof f (fst (final_proof s proof)) /\ focc_meta (m_index m) f.
Proof. unfold final_proof. cbn [fst snd]. apply proof_metas_exact. Qed.
Lemma fresh_antitone : antitone fresh_delta.
Proof. intros G G' v b u H [A B]. split; [exact A|]. intros f Hf. apply B, H, Hf. Qed.
Lemma any_antitone : antitone any_delta.
Proof. intros G G' v b u H A. exact A. Qed.
