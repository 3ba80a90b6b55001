(** The translation of a tableau whose delta rules introduce new terms (C73, C74). *)
From Coq Require Import ZArith List Bool String Lia.
From Verif Require Import Ast_Model Ast_Proofs Sem_Spec Occ_Spec Rules_Proofs Unif_Model GsTerm_Model GsTerm_Spec GsTerm_Proofs GsProof_Model GsProof_Spec.
Import ListNotations.
Open Scope list_scope.
Open Scope Z_scope.

(** ** Occurrences *)
Lemma subs_in u t : existsb (term_eqb u) (subs t) = true <-> in_term u t.
Proof.
  split.
  - induction t as [x|p tys l IH|x n|m] using term_ind'; cbn; rewrite ?orb_false_r; intros H; try (constructor; exact H).
    apply orb_true_iff in H. destruct H as [H|H]; [constructor; exact H|]. apply existsb_exists in H. destruct H as (v & Hv & E).
    apply in_flat_map in Hv. destruct Hv as (a & Ha & Hv). rewrite Forall_forall in IH. eapply I_arg; [exact Ha|]. apply IH; [exact Ha|]. apply existsb_exists. eauto.
  - induction 1 as [t E|p tys l a Ha Hin IH].
    + destruct t; cbn in *; rewrite E; reflexivity.
    + cbn. apply orb_true_iff. right. apply existsb_exists in IH. destruct IH as (v & Hv & E). apply existsb_exists. exists v. split; [|exact E]. apply in_flat_map. eauto.
Qed.
Lemma existsb_flat {A} (P : term -> bool) (g : A -> list term) l : existsb P (flat_map g l) = true <-> exists a, In a l /\ existsb P (g a) = true.
Proof.
  rewrite existsb_exists. split.
  - intros (v & Hv & E). apply in_flat_map in Hv. destruct Hv as (a & Ha & Hv). exists a. split; [exact Ha|]. apply existsb_exists. eauto.
  - intros (a & Ha & E). apply existsb_exists in E. destruct E as (v & Hv & E). exists v. split; [|exact E]. apply in_flat_map. eauto.
Qed.
Lemma form_subs_in u f : existsb (term_eqb u) (form_subs f) = true <-> in_form u f.
Proof.
  split.
  - induction f using form_ind'; cbn [form_subs]; intros K; try discriminate; try (constructor; auto; fail).
    + apply existsb_flat in K. destruct K as (a & Ha & K). rewrite Forall_forall in H. eapply F_or; [exact Ha|]. apply H; assumption.
    + apply existsb_flat in K. destruct K as (a & Ha & K). rewrite Forall_forall in H. eapply F_and; [exact Ha|]. apply H; assumption.
    + rewrite existsb_app in K. apply orb_true_iff in K. destruct K as [K|K]; [apply F_equ_l|apply F_equ_r]; auto.
    + rewrite existsb_app in K. apply orb_true_iff in K. destruct K as [K|K]; [apply F_imp_l|apply F_imp_r]; auto.
    + apply existsb_flat in K. destruct K as (a & Ha & K). eapply F_pred; [exact Ha|]. apply subs_in. exact K.
  - induction 1; cbn [form_subs]; rewrite ?existsb_app, ?IHin_form, ?orb_true_r; auto; apply existsb_flat; eexists; split; eauto. apply subs_in. assumption.
Qed.
Lemma subs_refl t : In t (subs t). Proof. destruct t; cbn; auto. Qed.
Lemma subs_trans t : forall u, In u (subs t) -> incl (subs u) (subs t).
Proof.
  induction t as [x|p tys l IH|x n|m] using term_ind'; intros u H; cbn in H; try (destruct H as [<-|[]]; apply incl_refl).
  destruct H as [<-|H]; [apply incl_refl|]. apply in_flat_map in H. destruct H as (a & Ha & H). rewrite Forall_forall in IH.
  intros v Hv. cbn. right. apply in_flat_map. exists a. split; [exact Ha|]. exact (IH a Ha u H v Hv).
Qed.
Lemma dep_subs t : incl (dep_from t) (subs t).
Proof.
  induction t as [x|p tys l IH|x n|m] using term_ind'; cbn [dep_from]; try apply incl_refl.
  destruct (str_contains (id_name p) "sko"); [intros v [<-|[]]; apply subs_refl|]. intros v Hv. apply in_flat_map in Hv. destruct Hv as (a & Ha & Hv).
  rewrite Forall_forall in IH. cbn. right. apply in_flat_map. exists a. split; [exact Ha|]. exact (IH a Ha v Hv).
Qed.
Lemma form_subs_trans f u : In u (form_subs f) -> incl (subs u) (form_subs f).
Proof.
  induction f using form_ind'; cbn [form_subs]; intros K; try contradiction; auto.
  - apply in_flat_map in K. destruct K as (a & Ha & K). rewrite Forall_forall in H. intros v Hv. apply in_flat_map. exists a. split; [exact Ha|]. exact (H a Ha K v Hv).
  - apply in_flat_map in K. destruct K as (a & Ha & K). rewrite Forall_forall in H. intros v Hv. apply in_flat_map. exists a. split; [exact Ha|]. exact (H a Ha K v Hv).
  - apply in_app_or in K. intros v Hv. apply in_or_app. destruct K as [K|K]; [left; exact (IHf1 K v Hv)|right; exact (IHf2 K v Hv)].
  - apply in_app_or in K. intros v Hv. apply in_or_app. destruct K as [K|K]; [left; exact (IHf1 K v Hv)|right; exact (IHf2 K v Hv)].
  - apply in_flat_map in K. destruct K as (a & Ha & K). intros v Hv. apply in_flat_map. exists a. split; [exact Ha|]. exact (subs_trans a u K v Hv).
Qed.
Lemma vinst_subs i u t : In i (t_vars t) -> In u (subs (vinst i u t)).
Proof.
  induction t as [x|p tys l IH|x n|m] using term_ind'; cbn; intros H; try contradiction.
  - right. apply in_flat_map in H. destruct H as (a & Ha & H). rewrite Forall_forall in IH. apply in_flat_map. exists (vinst i u a). split; [apply in_map; exact Ha|]. exact (IH a Ha H).
  - destruct H as [<-|[]]. rewrite Z.eqb_refl. apply subs_refl.
Qed.
Lemma fvinst_subs i u f : In i (f_vars f) -> In u (form_subs (fvinst i u f)).
Proof.
  unfold f_vars. induction f using form_ind'; cbn; intros K; try contradiction; auto.
  - apply in_flat_map in K. destruct K as (a & Ha & K). rewrite Forall_forall in H. apply in_flat_map. exists (fvinst i u a). split; [apply in_map; exact Ha|]. exact (H a Ha K).
  - apply in_flat_map in K. destruct K as (a & Ha & K). rewrite Forall_forall in H. apply in_flat_map. exists (fvinst i u a). split; [apply in_map; exact Ha|]. exact (H a Ha K).
  - apply in_app_or in K. apply in_or_app. destruct K; auto.
  - apply in_app_or in K. apply in_or_app. destruct K; auto.
  - apply in_flat_map in K. destruct K as (a & Ha & K). apply in_flat_map. exists (vinst i u a). split; [apply in_map; exact Ha|]. exact (vinst_subs i u a K).
Qed.
Lemma gamma_subs f v b u r : gamma_instance f v b u r -> In (tv_index v) (f_vars b) -> In u (form_subs r).
Proof.
  intros [(i & -> & ->)|[(i & j & w & rest & -> & ->)|[(i & j & k & -> & ->)|(i & j & k & l & w & rest & -> & ->)]]]; intros H; cbn [form_subs]; apply fvinst_subs; exact H.
Qed.
Lemma delta_subs f v b u r : delta_instance f v b u r -> In (tv_index v) (f_vars b) -> In u (form_subs r).
Proof.
  intros [(i & -> & ->)|[(i & j & w & rest & -> & ->)|[(i & j & k & -> & ->)|(i & j & k & l & w & rest & -> & ->)]]]; intros H; cbn [form_subs]; apply fvinst_subs; exact H.
Qed.
Lemma gamma_by_inst r f v b u x : gamma_by r f v b u x -> (r = ALL \/ r = NEX) /\ gamma_instance f v b u x.
Proof. intros []; auto. Qed.
Lemma delta_by_inst r f v b u x : delta_by r f v b u x -> (r = EX \/ r = NALL) /\ delta_instance f v b u x.
Proof. intros []; auto. Qed.

(** ** Lists *)
Lemma index_of_in f l : In f l -> exists i h, index_of f l = Some i /\ nth_error l i = Some h /\ same f h.
Proof.
  induction l as [|x l IH]; [contradiction|]. intros H. cbn. destruct (form_eqb f x) eqn:E; [exists 0%nat, x; auto|].
  destruct H as [->|H]; [rewrite form_eqb_refl in E; discriminate|]. destruct (IH H) as (i & h & -> & Hn & Hs). exists (S i), h. auto.
Qed.
Lemma index_of_app f l l' : In f l -> exists i h, index_of f (l ++ l') = Some i /\ nth_error (l ++ l') i = Some h /\ In h l /\ same f h.
Proof.
  induction l as [|x l IH]; [contradiction|]. intros H. cbn. destruct (form_eqb f x) eqn:E; [exists 0%nat, x; cbn; auto|].
  destruct H as [->|H]; [rewrite form_eqb_refl in E; discriminate|]. destruct (IH H) as (i & h & -> & Hn & Hi & Hs). exists (S i), h. cbn. auto.
Qed.

(** ** The chain of sequents under construction *)
Definition set_kids (s : sequent) (ks : list sequent) : sequent :=
  let '(Seq h r o w t f _ p i) := s in Seq h r o w t f ks p i.
Definition onto (l : list sequent) (s : sequent) : sequent := fold_right (fun a c => set_kids a [c]) s l.
Fixpoint build (l : list sequent) : sequent :=
  match l with [] => seq_new | [a] => a | a :: r => set_kids a [build r] end.
Definition cur_of (l : list sequent) : cursor := match l with [] => CNil | _ :: r => CAt (repeat 0%nat (List.length r)) end.
Definition plain (s : sequent) : Prop := s_kids s = [] /\ s_hyps s <> [].
Lemma onto_cons a l s : onto (a :: l) s = set_kids a [onto l s]. Proof. reflexivity. Qed.
Lemma build_onto l c : build (l ++ [c]) = onto l c.
Proof. induction l as [|a l IH]; [reflexivity|]. rewrite onto_cons, <- IH. destruct l; reflexivity. Qed.
Lemma onto_app l c s : onto (l ++ [c]) s = onto l (set_kids c [s]).
Proof. unfold onto. rewrite fold_right_app. reflexivity. Qed.
Lemma add_onto l c d : add_at (repeat 0%nat (List.length l)) d (onto l c) = Ok (onto l (set_kids c (s_kids c ++ [d]))).
Proof.
  induction l as [|a l IH].
  - destruct c; reflexivity.
  - rewrite !onto_cons. destruct a as [h r o w t f ks p i]. cbn [List.length repeat set_kids add_at nth_error]. rewrite IH. reflexivity.
Qed.
Lemma kids_onto l c : kids_at (repeat 0%nat (List.length l)) (onto l c) = List.length (s_kids c).
Proof. induction l as [|a l IH]; [reflexivity|]. rewrite onto_cons. destruct a. exact IH. Qed.
Lemma set_kids_hyps s ks : s_hyps (set_kids s ks) = s_hyps s. Proof. destruct s. reflexivity. Qed.
Lemma set_kids_id s : s_kids s = [] -> set_kids s [] = s. Proof. destruct s. cbn. intros ->. reflexivity. Qed.
Lemma build_empty l : Forall plain l -> is_empty (build l) = match l with [] => true | _ => false end.
Proof.
  intros H. destruct l as [|a [|b l]]; [reflexivity| |]; inversion H as [|? ? [_ Ha] _]; subst; unfold is_empty; cbn [build]; rewrite ?set_kids_hyps; destruct (s_hyps a); congruence.
Qed.
Lemma snoc_split {A} (l : list A) : l = [] \/ exists l' a, l = l' ++ [a].
Proof. destruct l as [|a l] using rev_ind; [auto|right; eauto]. Qed.
Lemma cur_snoc l c : cur_of (l ++ [c]) = CAt (repeat 0%nat (List.length l)).
Proof. destruct l; [reflexivity|]. cbn. rewrite app_length. cbn. rewrite Nat.add_1_r. reflexivity. Qed.
Lemma repeat_snoc n : repeat 0%nat n ++ [0%nat] = repeat 0%nat (S n).
Proof. induction n; cbn; [reflexivity|]. rewrite IHn. reflexivity. Qed.
Lemma emit_chain l c : Forall plain l -> emit c (build l) (cur_of l) = Ok (build (l ++ [c]), cur_of (l ++ [c])).
Proof.
  intros H. unfold emit. rewrite build_empty by exact H. destruct (snoc_split l) as [->|(l' & a & ->)]; [reflexivity|].
  apply Forall_app in H. destruct H as [_ H]. inversion H as [|? ? [Ka _] _]; subst.
  replace (match l' ++ [a] with [] => true | _ => false end) with false by (destruct l'; reflexivity).
  rewrite !cur_snoc, !build_onto. unfold below. rewrite add_onto, kids_onto, Ka. cbn [bind app List.length]. rewrite repeat_snoc, onto_app, app_length, Nat.add_1_r. reflexivity.
Qed.

(** ** Fuel *)
Fixpoint depth (p : pstep) : nat :=
  let '(PS _ _ _ _ _ cs) := p in S (list_max (map (fun c => list_max (map depth c)) cs)).
Definition pdepth (proof : list pstep) : nat := list_max (map depth proof).
Lemma list_max_in x l : In x l -> (x <= list_max l)%nat.
Proof. intros H. pose proof (proj1 (list_max_le l (list_max l)) (Nat.le_refl _)) as F. rewrite Forall_forall in F. apply F, H. Qed.
Lemma pdepth_in p proof : In p proof -> (depth p <= pdepth proof)%nat.
Proof. intros H. apply list_max_in, in_map, H. Qed.
Lemma depth_child p c : In c (ps_children p) -> (pdepth c < depth p)%nat.
Proof. destruct p as [f d i n r cs]. cbn [ps_children depth]. intros H. apply Nat.lt_succ_r, list_max_in. exact (in_map (fun c => list_max (map depth c)) _ _ H). Qed.

(** ** One step *)
Section Steps.
Variable empty_eq : form.
Variable preinner : bool.
Notation one_step := (one_step empty_eq preinner).
Notation steps := (steps empty_eq preinner).
Notation make_proof := (make_proof empty_eq preinner).
Notation kids := GsProof_Model.kids.

Definition eqv (a b : list form) : Prop := forall f, In f a <-> In f b.
Definition inside (k : term) (Gamma : list form) : Prop := exists f, In f Gamma /\ In k (form_subs f).
Record inv (g : gs) (Gamma : list form) : Prop := {
  i_branch : eqv (branch g) Gamma;
  i_dep : forall v k, In v (dep g) -> fst v = Some k -> inside k Gamma;
  i_delta : forall e, In e (delta_h g) -> exists k, fst e = Some k /\ inside k Gamma }.
Lemma eqv_app a b c d : eqv a b -> eqv c d -> eqv (a ++ c) (b ++ d).
Proof. intros H K f. rewrite !in_app_iff, (H f), (K f). reflexivity. Qed.
Lemma eqv_refl a : eqv a a. Proof. intros f. reflexivity. Qed.
Lemma inside_app k a b : inside k a -> inside k (a ++ b).
Proof. intros (f & Hf & K). exists f. rewrite in_app_iff. auto. Qed.
Lemma new_inside u k Gamma : new_for u Gamma -> inside k Gamma -> term_eqb u k = false.
Proof.
  intros N (f & Hf & K). destruct (term_eqb u k) eqn:E; [|reflexivity]. destruct (N f Hf). apply form_subs_in, existsb_exists. eauto.
Qed.

(** the keys of the dependency map *)
Lemma upd_keys t fl : forall d d' b v, deps_upd d t fl = (d', b) -> In v d' -> fst v = t \/ exists w, In w d /\ fst w = fst v.
Proof.
  intros d. revert fl. induction d as [|x d IH]; intros fl d' b v E H; cbn in E; [injection E as <- _; contradiction|].
  destruct (key_is t x).
  - destruct (deps_upd d t (fl ++ snd x)) as [r b'] eqn:Er. injection E as <- <-. destruct H as [<-|H]; [auto|]. destruct (IH _ _ _ _ Er H) as [K|(w & Hw & K)]; [auto|]. right. exists w. cbn. auto.
  - destruct (deps_upd d t fl) as [r b'] eqn:Er. injection E as <- <-. destruct H as [<-|H]; [right; exists x; cbn; auto|]. destruct (IH _ _ _ _ Er H) as [K|(w & Hw & K)]; [auto|]. right. exists w. cbn. auto.
Qed.
Lemma add_keys d t f v : In v (deps_add d t f) -> fst v = t \/ exists w, In w d /\ fst w = fst v.
Proof.
  unfold deps_add. destruct (deps_upd d t [f]) as [d' b] eqn:E. intros H. destruct b; [exact (upd_keys _ _ _ _ _ _ E H)|].
  apply in_app_or in H. destruct H as [H|[<-|[]]]; [exact (upd_keys _ _ _ _ _ _ E H)|auto].
Qed.
Lemma fold_keys f ts : forall d v, In v (fold_left (fun d k => deps_add d k f) ts d) -> In (fst v) ts \/ exists w, In w d /\ fst w = fst v.
Proof.
  induction ts as [|t ts IH]; intros d v H; cbn in H; [right; eauto|]. destruct (IH _ _ H) as [K|(w & Hw & K)]; [left; right; exact K|].
  destruct (add_keys _ _ _ _ Hw) as [E|(x & Hx & E)]; [left; left; congruence|]. right. exists x. split; [exact Hx|congruence].
Qed.
Lemma copy_in d v : In v (deps_copy d) -> In v d. Proof. unfold deps_copy. rewrite filter_In. tauto. Qed.

(** a new term is not found anywhere *)
Lemma new_dep g Gamma u : inv g Gamma -> new_for u Gamma -> deps_get (dep g) (Some u) = None.
Proof.
  intros I N. unfold deps_get. destruct (find (key_is (Some u)) (dep g)) as [v|] eqn:E; [|reflexivity]. exfalso. apply find_some in E. destruct E as [Hv E].
  unfold key_is in E. destruct (fst v) as [k|] eqn:Ek; [|discriminate]. cbn in E. rewrite term_eqb_sym, (new_inside u k Gamma N (i_dep _ _ I v k Hv Ek)) in E. discriminate.
Qed.
Lemma new_histo g Gamma u : inv g Gamma -> new_for u Gamma -> in_histo g (Some u) = None.
Proof.
  intros I N. unfold in_histo. destruct (find (histo_is (Some u)) (delta_h g)) as [v|] eqn:E; [|reflexivity]. exfalso. apply find_some in E. destruct E as [Hv E].
  destruct (i_delta _ _ I v Hv) as (k & Ek & Hk). unfold histo_is in E. rewrite Ek in E. cbn in E. rewrite term_eqb_sym, (new_inside u k Gamma N Hk) in E. discriminate.
Qed.
Lemma new_branch g Gamma u node : inv g Gamma -> new_for u Gamma -> introduced_by_branch (delta_h g) (Some u) node = Ok true.
Proof.
  intros I N. pose proof (i_delta _ _ I) as D. induction (delta_h g) as [|[[k|] [x n]] l IH]; cbn; [reflexivity| |].
  - destruct (D _ (or_introl eq_refl)) as (k' & Ek & Hk). injection Ek as <-. rewrite term_eqb_sym, (new_inside u k Gamma N Hk). apply IH. intros e He. apply D. right. exact He.
  - destruct (D _ (or_introl eq_refl)) as (k' & Ek & _). discriminate.
Qed.
Lemma new_off u l Gamma : (forall f, In f l -> In f Gamma) -> new_for u Gamma -> offsprings (Some u) l = Ok [].
Proof.
  intros H N. induction l as [|f l IH]; [reflexivity|]. cbn [offsprings contains bind]. rewrite IH by (intros x Hx; apply H; right; exact Hx). cbn [bind].
  destruct (existsb (term_eqb u) (form_subs f)) eqn:E; [|reflexivity]. apply form_subs_in in E. destruct (N f (H f (or_introl eq_refl)) E).
Qed.

Definition link (c : sequent) (Gamma Gamma' : list form) : Prop := forall k, gs3 Gamma' k -> gs3 Gamma (set_kids c [k]).
Definition chain (Gamma0 : list form) (l : list sequent) (Gamma : list form) : Prop := forall s, gs3 Gamma s -> gs3 Gamma0 (onto l s).
Lemma chain_snoc Gamma0 l Gamma c Gamma' : chain Gamma0 l Gamma -> link c Gamma Gamma' -> chain Gamma0 (l ++ [c]) Gamma'.
Proof. intros H K s Hs. rewrite onto_app. apply H, K, Hs. Qed.

Lemma set_hyps_some l : set_hyps empty_eq l <> []. Proof. unfold set_hyps. destruct l; discriminate. Qed.
Lemma applied_in f g Gamma : inv g Gamma -> In f Gamma ->
  exists i h, applied_on f (set_hyps empty_eq (branch g)) = Ok i /\ nth_error (set_hyps empty_eq (branch g)) i = Some h /\ In h Gamma /\ same f h.
Proof.
  intros I H. apply (i_branch _ _ I) in H. destruct (index_of_app f (branch g) [empty_eq] H) as (i & h & E & Hn & Hi & Hs).
  exists i, h. unfold applied_on, set_hyps. rewrite E. repeat split; auto. apply (i_branch _ _ I), Hi.
Qed.

Section Make.
Variable make : gs -> list pstep -> out sequent.

Definition stepped (g : gs) (p : pstep) (l : list sequent) (Gamma Gamma' : list form) : Prop :=
  exists g' c forms, one_step make g p (build l) (cur_of l) = Ok (g', build (l ++ [c]), cur_of (l ++ [c]), forms) /\
    plain c /\ link c Gamma Gamma' /\ inv g' Gamma'.

Lemma post_branch g p r fs rest : is_alpha r || is_gamma r || is_delta r || rule_eqb r REWRITE = true ->
  post g p r (fs :: rest) = Ok (mkGs (dep g) (branch g ++ fs) (applied g ++ [(r, p)]) (beta_h g) (delta_h g)).
Proof. intros H. unfold post. rewrite H. reflexivity. Qed.
Lemma inv_grow g Gamma a fs : inv g Gamma -> inv (mkGs (dep g) (branch g ++ fs) a (beta_h g) (delta_h g)) (Gamma ++ fs).
Proof.
  intros [Hb Hd Hh]. split; cbn.
  - apply eqv_app; [exact Hb|apply eqv_refl].
  - intros v k Hv Ek. apply inside_app. eauto.
  - intros e He. destruct (Hh e He) as (k & Ek & Hk). exists k. split; [exact Ek|]. apply inside_app, Hk.
Qed.
Lemma post_head r fs : exists fs', post_forms r [fs] = [fs'] /\ eqv fs fs'.
Proof.
  cbn. eexists. split; [reflexivity|]. destruct fs as [|f [|? ?]]; try apply eqv_refl. destruct (doubles r); [|apply eqv_refl]. intros x. cbn. tauto.
Qed.
Lemma among_eqv fs fs' l : eqv fs fs' -> among fs l -> among fs' l.
Proof. intros E H f Hf. apply H, E, Hf. Qed.

Definition simple (r : rule) : bool := match r with NNOT | NOR | NIMP | AND | NAND | NEQU | OR | IMP | EQU | AX => true | _ => false end.
Lemma simple_step g p parent cur : simple (ps_rule p) = true -> one_step make g p parent cur =
  (do i <- applied_on (ps_form p) (set_hyps empty_eq (branch g));
   do g' <- post g p (ps_rule p) (post_forms (ps_rule p) (ps_results p));
   do (parent, cur) <- emit (Seq (set_hyps empty_eq (branch g)) (ps_rule p) i 0 None (post_forms (ps_rule p) (ps_results p)) [] (gs_copy g') (ps_node p)) parent cur;
   Ok (g', parent, cur, post_forms (ps_rule p) (ps_results p))).
Proof.
  intros H. unfold GsProof_Model.one_step. destruct (ps_rule p); try discriminate;
    (destruct (applied_on (ps_form p) (set_hyps empty_eq (branch g))); [|reflexivity..]); reflexivity.
Qed.
Lemma alpha_simple r f l : alpha_of r f l -> simple r = true /\ is_alpha r = true.
Proof. intros H. destruct H; auto. Qed.
Lemma beta_simple r f l : beta_of r f l -> simple r = true /\ is_alpha r = false.
Proof. intros H. destruct H; auto. Qed.

Lemma step_alpha g p l Gamma lc fs : inv g Gamma -> Forall plain l -> In (ps_form p) Gamma -> alpha_of (ps_rule p) (ps_form p) lc -> ps_results p = [fs] -> among fs lc ->
  exists fs', eqv fs fs' /\ stepped g p l Gamma (Gamma ++ fs').
Proof.
  intros I Pl Hin Ha Hr Ham. destruct (post_head (ps_rule p) fs) as (fs' & Ef & Hq). exists fs'. split; [exact Hq|].
  destruct (applied_in _ _ _ I Hin) as (i & h & Ei & En & Hh & Hs). destruct (alpha_simple _ _ _ Ha) as [S A].
  eexists. eexists. eexists. rewrite simple_step, Ei, Hr, Ef by exact S. cbn [bind]. rewrite post_branch by (rewrite A; reflexivity). cbn [bind].
  rewrite emit_chain by exact Pl. cbn [bind]. split; [reflexivity|].
  split; [split; [reflexivity|cbn; apply set_hyps_some]|]. split; [|apply inv_grow, I].
  intros k Hk. cbn [set_kids]. eapply P_alpha with (k := k) (fs := fs') (f := ps_form p); cbn; eauto.
  - apply set_hyps_some.
  - exists h. unfold target. cbn. auto.
  - eapply among_eqv; eauto.
Qed.

Lemma applied_target h r i w t fs k pf n f x Gamma : nth_error h i = Some x -> In x Gamma -> same f x -> applies Gamma (Seq h r i w t fs k pf n) f.
Proof. intros. exists x. unfold target. cbn. auto. Qed.
Lemma inv_deps g Gamma d : inv g Gamma -> (forall v k, In v d -> fst v = Some k -> inside k Gamma) -> inv (mkGs d (branch g) (applied g) (beta_h g) (delta_h g)) Gamma.
Proof. intros [] H. split; cbn; auto. Qed.

Lemma step_gamma g p l Gamma v b u r : inv g Gamma -> Forall plain l -> In (ps_form p) Gamma -> gamma_by (ps_rule p) (ps_form p) v b u r -> ps_results p = [[r]] ->
  stepped g p l Gamma (Gamma ++ [r]).
Proof.
  intros I Pl Hin Hg Hr. destruct (applied_in _ _ _ I Hin) as (i & h & Ei & En & Hh & Hs).
  destruct (gamma_by_inst _ _ _ _ _ _ Hg) as [G Er]. destruct (gamma_recovered _ _ _ _ _ Er) as [T1 T2]. pose proof (gamma_subs _ _ _ _ _ Er) as T3.
  assert (K : exists t, gamma_term (ps_form p) r = Ok t /\ (In (tv_index v) (f_vars b) -> t = Some u) /\ (forall k, In (Some k) (dep_from_opt t) -> In k (form_subs r))).
  { destruct (in_dec Z.eq_dec (tv_index v) (f_vars b)) as [H|H].
    - exists (Some u). split; [auto|]. split; [auto|]. intros k Hk. cbn in Hk. apply in_map_iff in Hk. destruct Hk as (x & Ex & Hx). injection Ex as ->.
      eapply form_subs_trans; [apply T3, H|]. apply dep_subs, Hx.
    - exists None. split; [auto|]. split; [contradiction|]. intros k [Hk|[]]. discriminate. }
  destruct K as (t & Et & Tu & Td). set (d := fold_left (fun d k => deps_add d k (ps_form p)) (dep_from_opt t) (dep g)).
  assert (E : one_step make g p (build l) (cur_of l) =
     (do (parent, cur) <- emit (Seq (set_hyps empty_eq (branch g)) (ps_rule p) i 0 t [[r]] [] (gs_copy (mkGs d (branch g ++ [r]) (applied g ++ [(ps_rule p, p)]) (beta_h g) (delta_h g))) 0) (build l) (cur_of l);
      Ok (mkGs d (branch g ++ [r]) (applied g ++ [(ps_rule p, p)]) (beta_h g) (delta_h g), parent, cur, [[r]]))).
  { unfold GsProof_Model.one_step, first_result. rewrite Hr. destruct G as [G|G]; rewrite G; cbn [bind]; rewrite Et; cbn [bind]; rewrite Ei; cbn [bind]; fold d; cbn [post_forms map doubles]; rewrite post_branch by reflexivity; reflexivity. }
  eexists. eexists. eexists. rewrite E, emit_chain by exact Pl. cbn [bind]. split; [reflexivity|].
  split; [split; [reflexivity|cbn; apply set_hyps_some]|]. split.
  - intros k Hk. cbn [set_kids]. eapply P_gamma with (k := k) (f := ps_form p); cbn; eauto using set_hyps_some, applied_target.
  - destruct (inv_grow g Gamma (applied g ++ [(ps_rule p, p)]) [r] I) as [J1 J2 J3]. split; cbn in *; auto.
    intros w k Hw Ek. destruct (fold_keys _ _ _ _ Hw) as [H|(w' & Hw' & Ew)]; [|eapply J2; [exact Hw'|congruence]].
    exists r. split; [apply in_or_app; right; left; reflexivity|]. apply Td. rewrite <- Ek. exact H.
Qed.

Lemma step_delta g p l Gamma v b u r : inv g Gamma -> Forall plain l -> In (ps_form p) Gamma -> delta_by (ps_rule p) (ps_form p) v b u r -> ps_results p = [[r]] ->
  In (tv_index v) (f_vars b) -> new_for u Gamma -> stepped g p l Gamma (Gamma ++ [r]).
Proof.
  intros I Pl Hin Hg Hr Hv N. destruct (applied_in _ _ _ I Hin) as (i & h & Ei & En & Hh & Hs).
  destruct (delta_by_inst _ _ _ _ _ _ Hg) as [G Er]. destruct (delta_recovered _ _ _ _ _ Er) as [T1 _]. specialize (T1 Hv). pose proof (delta_subs _ _ _ _ _ Er Hv) as T3.
  set (g1 := mkGs (dep g) ((branch g ++ [r]) ++ [r]) (applied g ++ [(ps_rule p, p)]) (beta_h g) (delta_h g ++ [(Some u, (r, ps_node p))])).
  assert (E : exists c, one_step make g p (build l) (cur_of l) = (do (parent, cur) <- emit c (build l) (cur_of l); Ok (g1, parent, cur, [[r]])) /\
     s_hyps c = set_hyps empty_eq (branch g) /\ s_rule c = ps_rule p /\ s_on c = i /\ s_forms c = [[r]] /\ s_kids c = [] /\ s_term c = Some u).
  { unfold GsProof_Model.one_step. rewrite Hr.
    assert (M : exists c, manage_delta empty_eq preinner make g p (ps_rule p) (build l) (cur_of l) =
       (do (parent, cur) <- emit c (build l) (cur_of l); Ok (mkGs (dep g) (branch g ++ [r]) (applied g) (beta_h g) (delta_h g ++ [(Some u, (r, ps_node p))]), parent, cur)) /\
       s_hyps c = set_hyps empty_eq (branch g) /\ s_rule c = ps_rule p /\ s_on c = i /\ s_forms c = [[r]] /\ s_kids c = [] /\ s_term c = Some u).
    { exists (Seq (set_hyps empty_eq (branch g)) (ps_rule p) i 0 (Some u) [[r]] [] (gs_copy (mkGs (dep g) (branch g ++ [r]) (applied g ++ [(ps_rule p, step_from (ps_form p) r (ps_rule p))]) (beta_h g) (delta_h g ++ [(Some u, (r, ps_node p))]))) 0).
      unfold manage_delta, first_result. rewrite Hr. cbn [bind]. rewrite T1. cbn [bind].
      rewrite (new_branch _ _ _ _ I N), (new_dep _ _ _ I N), (new_off _ _ Gamma (fun f => proj1 (i_branch _ _ I f)) N).
      replace (if preinner then do b0 <- Ok true; Ok (negb b0) else Ok false) with (Ok false : out bool) by (destruct preinner; reflexivity).
      cbn [bind rules_of_forms weaken_forms]. rewrite (new_histo _ _ _ I N). cbn [bind]. unfold apply_delta_rule. rewrite Ei. cbn [bind].
      rewrite emit_chain by exact Pl. cbn [bind]. split; [reflexivity|]. cbn. auto 10. }
    destruct M as (c & M & C). exists c. rewrite emit_chain in * by exact Pl. cbn [bind] in *. split; [|exact C].
    destruct G as [G|G]; rewrite G in *; rewrite M; cbn [bind post_forms map doubles]; rewrite post_branch by reflexivity; unfold g1; rewrite G; reflexivity. }
  destruct E as (c & E & Ch & Cr & Co & Cf & Ck & Ct). exists g1, c, [[r]]. rewrite E, emit_chain by exact Pl. split; [reflexivity|].
  split; [split; [exact Ck|rewrite Ch; apply set_hyps_some]|]. split.
  - intros k Hk. destruct c as [ch cr co cw ct cf ck cp ci]. cbn in *. subst. eapply P_delta with (k := k) (f := ps_form p); cbn; eauto using set_hyps_some, applied_target.
  - destruct I as [J1 J2 J3]. split; cbn.
    + intros f. rewrite !in_app_iff, (J1 f). tauto.
    + intros w k Hw Ek. apply inside_app. eauto.
    + intros e He. apply in_app_or in He. destruct He as [He|[<-|[]]].
      * destruct (J3 e He) as (k & Ek & Hk). exists k. split; [exact Ek|]. apply inside_app, Hk.
      * exists u. split; [reflexivity|]. exists r. split; [apply in_or_app; right; left; reflexivity|exact T3].
Qed.

(** ** The steps of a branch *)
Lemma simple_emit g p l Gamma : inv g Gamma -> Forall plain l -> In (ps_form p) Gamma -> simple (ps_rule p) = true -> is_alpha (ps_rule p) = false ->
  exists g' i h, let c := Seq (set_hyps empty_eq (branch g)) (ps_rule p) i 0 None (post_forms (ps_rule p) (ps_results p)) [] (gs_copy g') (ps_node p) in
    one_step make g p (build l) (cur_of l) = Ok (g', build (l ++ [c]), cur_of (l ++ [c]), post_forms (ps_rule p) (ps_results p)) /\
    nth_error (set_hyps empty_eq (branch g)) i = Some h /\ In h Gamma /\ same (ps_form p) h /\ inv g' Gamma.
Proof.
  intros I Pl Hin S A. destruct (applied_in _ _ _ I Hin) as (i & h & Ei & En & Hh & Hs).
  exists (mkGs (dep g) (branch g) (applied g ++ [(ps_rule p, p)]) (beta_h g) (delta_h g)), i, h. cbv zeta. rewrite simple_step, Ei by exact S. cbn [bind].
  assert (E : post g p (ps_rule p) (post_forms (ps_rule p) (ps_results p)) = Ok (mkGs (dep g) (branch g) (applied g ++ [(ps_rule p, p)]) (beta_h g) (delta_h g))).
  { unfold post. destruct (ps_rule p); try discriminate; reflexivity. }
  rewrite E. cbn [bind]. rewrite emit_chain by exact Pl. cbn [bind]. repeat split; auto; destruct I; cbn; auto; apply i_branch0.
Qed.
Lemma step_skip g p parent cur : ps_rule p = R -> exists a, one_step make g p parent cur = Ok (mkGs (dep g) (branch g) a (beta_h g) (delta_h g), parent, cur, post_forms R (ps_results p)).
Proof. intros E. unfold GsProof_Model.one_step. rewrite E. eexists. reflexivity. Qed.

(** the last step of the branch *)
Definition ends (Gt Gamma : list form) (p : pstep) (g : gs) (c : sequent) (forms : list (list form)) : Prop :=
  s_kids c = [] /\ s_hyps c <> [] /\
  ((ps_children p = [] /\ gs3 Gamma c) \/
   (forms = post_forms (ps_rule p) (ps_results p) /\ s_forms c = forms /\ inv g Gamma /\ branch g <> [] /\
    (forall ks, Forall2 (fun fs k => gs3 (Gamma ++ fs) k) forms ks -> gs3 Gamma (set_kids c ks)) /\
    Forall2 (fun fs ch => tab fresh_delta (Gt ++ fs) ch) (ps_results p) (ps_children p))).

Lemma among_post r fs l : among fs l -> among (match fs with [f] => if doubles r then [f; f] else fs | _ => fs end) l.
Proof.
  intros H. destruct fs as [|f [|? ?]]; auto. destruct (doubles r); auto. intros x Hx. apply H. cbn in *. tauto.
Qed.
Lemma among_all r rs ls : Forall2 among rs ls -> Forall2 among (post_forms r rs) ls.
Proof. intros H. induction H; cbn; constructor; auto. apply among_post. assumption. Qed.
Lemma gs3_beta Gamma s f ls : s_hyps s <> [] -> applies Gamma s f -> beta_of (s_rule s) f ls -> Forall2 among (s_forms s) ls -> ls <> [] ->
  forall ks, Forall2 (fun fs k => gs3 (Gamma ++ fs) k) (s_forms s) ks -> gs3 Gamma (set_kids s ks).
Proof.
  intros H1 H2 H3 H4 H5 ks H6. destruct s. cbn in *. eapply P_beta; cbn; eauto.
Qed.

Lemma steps_fresh proof : forall Gt, tab fresh_delta Gt proof -> forall Gamma0 Gamma g l lst, eqv Gt Gamma -> inv g Gamma -> Forall plain l -> chain Gamma0 l Gamma ->
  exists g' l' c forms Gt' Gamma' p, steps make g proof (build l) (cur_of l) lst = Ok (g', build (l' ++ [c]), cur_of (l' ++ [c]), forms) /\
    Forall plain l' /\ chain Gamma0 l' Gamma' /\ eqv Gt' Gamma' /\ (exists pre, proof = pre ++ [p]) /\ ends Gt' Gamma' p g' c forms.
Proof.
  induction proof as [|p proof IH]; intros Gt T Gamma0 Gamma g l lst Q I Pl Ch; [inversion T|].
  assert (Go : forall Gt1 Gamma1, tab fresh_delta Gt1 proof -> eqv Gt1 Gamma1 -> stepped g p l Gamma Gamma1 ->
    exists g' l' c forms Gt' Gamma' q, steps make g (p :: proof) (build l) (cur_of l) lst = Ok (g', build (l' ++ [c]), cur_of (l' ++ [c]), forms) /\
    Forall plain l' /\ chain Gamma0 l' Gamma' /\ eqv Gt' Gamma' /\ (exists pre, p :: proof = pre ++ [q]) /\ ends Gt' Gamma' q g' c forms).
  { intros Gt1 Gamma1 T1 Q1 (g1 & c & forms & E & Pc & Lk & I1).
    destruct (IH Gt1 T1 Gamma0 Gamma1 g1 (l ++ [c]) forms Q1 I1) as (g' & l' & c' & forms' & Gt' & Gamma' & q & E' & R1 & R2 & R3 & (pre & R4) & R5).
    - apply Forall_app. auto.
    - eapply chain_snoc; eauto.
    - exists g', l', c', forms', Gt', Gamma', q. cbn [GsProof_Model.steps]. rewrite E. cbn [bind]. rewrite E'. split; [reflexivity|]. split; [exact R1|]. split; [exact R2|]. split; [exact R3|]. split; [exists (p :: pre); cbn; rewrite R4; reflexivity|exact R5]. }
  inversion T as [? ? A1 A2 A3 A4|? ? ? lc fs A1 A2 A3 A4 A5 A6|? ? ? v b u r A1 A2 A3 A4 A6|? ? ? v b u r A1 A2 A3 A4 A5 A6|? ? ? A1 A2 A6|? ? ls A1 A2 A3 A4 A5]; subst.
  - destruct (simple_emit g p l Gamma I Pl (proj1 (Q _) A2)) as (g' & i & h & E & En & Hh & Hs & I'); [rewrite A1; reflexivity..|].
    eexists g', l, _, _, Gt, Gamma, p. cbn [GsProof_Model.steps]. rewrite E. cbn [bind]. split; [reflexivity|]. split; [exact Pl|]. split; [exact Ch|]. split; [exact Q|]. split; [exists []; reflexivity|].
    split; [reflexivity|]. split; [cbn; apply set_hyps_some|]. left. split; [assumption|]. eapply P_close with (f := ps_form p); cbn; auto using set_hyps_some.
    + eapply applied_target; eauto.
    + destruct A3 as [K|[K|(x & Hx & K)]]; [left; exact K|right; left; exact K|]. right. right. exists x. split; [apply Q, Hx|exact K].
  - destruct (step_alpha g p l Gamma _ fs I Pl (proj1 (Q _) A1) A2 A3 A4) as (fs' & Hf & St). eapply Go; [exact A5| |exact St]. apply eqv_app; assumption.
  - eapply Go; [exact A4| |eapply step_gamma; eauto; apply Q; assumption]. apply eqv_app; [assumption|apply eqv_refl].
  - destruct A4 as [V N]. eapply Go; [exact A5| |eapply step_delta; eauto]. 
    + apply eqv_app; [assumption|apply eqv_refl].
    + apply Q; assumption.
    + intros f Hf. apply N, Q, Hf.
  - destruct (step_skip g p (build l) (cur_of l) A1) as [a E]. cbn [GsProof_Model.steps]. rewrite E. cbn [bind].
    destruct (IH Gt A2 Gamma0 Gamma (mkGs (dep g) (branch g) a (beta_h g) (delta_h g)) l (post_forms R (ps_results p)) Q) as (g' & l' & c' & forms' & Gt' & Gamma' & q & E' & R1 & R2 & R3 & (pre & R4) & R5); auto.
    { destruct I; split; auto. }
    exists g', l', c', forms', Gt', Gamma', q. rewrite E'. split; [reflexivity|]. split; [exact R1|]. split; [exact R2|]. split; [exact R3|]. split; [exists (p :: pre); cbn; rewrite R4; reflexivity|exact R5].
  - destruct (beta_simple _ _ _ A2) as [Sp B].
    destruct (simple_emit g p l Gamma I Pl (proj1 (Q _) A1)) as (g' & i & h & E & En & Hh & Hs & I'); [exact Sp|exact B|].
    eexists g', l, _, _, Gt, Gamma, p. cbn [GsProof_Model.steps]. rewrite E. cbn [bind]. split; [reflexivity|]. split; [exact Pl|]. split; [exact Ch|]. split; [exact Q|]. split; [exists []; reflexivity|].
    split; [reflexivity|]. split; [cbn; apply set_hyps_some|]. right. split; [reflexivity|]. split; [reflexivity|]. split; [exact I'|]. split.
    + intros K. pose proof (proj2 (i_branch _ _ I' h) Hh) as W. rewrite K in W. destruct W.
    + split; [|assumption]. intros ks Hks. match goal with |- gs3 _ (set_kids ?c _) => apply (gs3_beta Gamma c (ps_form p) ls); [..|exact Hks] end; cbn; eauto using set_hyps_some, applied_target, among_all.
Qed.
End Make.

(** ** The branches *)
Definition fine (n : nat) (make : gs -> list pstep -> out sequent) : Prop :=
  forall g Gt Gamma ch, tab fresh_delta Gt ch -> eqv Gt Gamma -> inv g Gamma -> branch g <> [] ->
    (exists s, make g ch = Ok s /\ gs3 Gamma s) \/ (make g ch = Out /\ (n <= pdepth ch)%nat).
Lemma kids_fresh n make g node l c Gamma : fine n make -> inv g Gamma -> branch g <> [] -> Forall plain l -> forall rs chs Gt r pre done, eqv Gt Gamma ->
  Forall2 (fun fs ch => tab fresh_delta (Gt ++ fs) ch) rs chs ->
  (exists ks, kids make g node (List.length pre) chs (pre ++ post_forms r rs) (onto l (set_kids c done)) (CAt (repeat 0%nat (List.length l))) = Ok (onto l (set_kids c (done ++ ks))) /\
     Forall2 (fun fs k => gs3 (Gamma ++ fs) k) (post_forms r rs) ks) \/
  (kids make g node (List.length pre) chs (pre ++ post_forms r rs) (onto l (set_kids c done)) (CAt (repeat 0%nat (List.length l))) = Out /\ exists ch, In ch chs /\ (n <= pdepth ch)%nat).
Proof.
  intros F I B Pl rs chs Gt r pre done Q H. revert pre done. induction H as [|fs ch rs chs T H IH]; intros pre done.
  - left. exists []. cbn. rewrite app_nil_r. auto.
  - set (fs' := match fs with [f] => if doubles r then [f; f] else fs | _ => fs end).
    assert (Qf : eqv fs fs') by (destruct (post_head r fs) as (y & Ey & Hy); cbn in Ey; injection Ey as <-; exact Hy).
    change (post_forms r (fs :: rs)) with (fs' :: post_forms r rs). cbn [GsProof_Model.kids].
    rewrite nth_error_app2, Nat.sub_diag by apply Nat.le_refl. cbn [nth_error].
    destruct (F (mkGs (deps_copy (dep g)) (branch g ++ fs') (applied g) (beta_h g ++ [(List.length pre, node)]) (delta_h g)) (Gt ++ fs) (Gamma ++ fs') ch T) as [(s & Es & Gs)|[Es Hn]].
    + apply eqv_app; assumption.
    + destruct I as [J1 J2 J3]. split; cbn.
      * apply eqv_app; [exact J1|apply eqv_refl].
      * intros v k Hv Ek. apply inside_app. eapply J2; [apply copy_in, Hv|exact Ek].
      * intros e He. destruct (J3 e He) as (k & Ek & Hk). exists k. split; [exact Ek|]. apply inside_app, Hk.
    + cbn. intros K. apply app_eq_nil in K. apply B, K.
    + rewrite Es. cbn [bind]. rewrite add_onto. cbn [bind].
      replace (s_kids (set_kids c done)) with done by (destruct c; reflexivity).
      replace (set_kids (set_kids c done) (done ++ [s])) with (set_kids c (done ++ [s])) by (destruct c; reflexivity).
      replace (S (List.length pre)) with (List.length (pre ++ [fs'])) by (rewrite app_length; cbn; apply Nat.add_1_r).
      replace (pre ++ fs' :: post_forms r rs) with ((pre ++ [fs']) ++ post_forms r rs) by (rewrite <- app_assoc; reflexivity).
      destruct (IH (pre ++ [fs']) (done ++ [s])) as [(ks & E & K)|[E (x & Hx & K)]].
      * left. exists (s :: ks). rewrite E, <- app_assoc. split; [reflexivity|]. constructor; assumption.
      * right. split; [exact E|]. exists x. split; [right; exact Hx|exact K].
    + right. rewrite Es. split; [reflexivity|]. exists ch. split; [left; reflexivity|exact Hn].
Qed.

Lemma make_fresh n : fine n (make_proof n).
Proof.
  induction n as [|n IH]; intros g Gt Gamma ch T Q I B.
  - right. split; [reflexivity|]. apply Nat.le_0_l.
  - destruct ch as [|first rest]; [inversion T|]. cbn [GsProof_Model.make_proof].
    destruct (branch g) as [|b0 br] eqn:Eb; [contradiction|].
    destruct (steps_fresh (make_proof n) _ _ T Gamma Gamma g [] [] Q I (Forall_nil _)) as (g' & l' & c & forms & Gt' & Gamma' & p & E & Pl & Ch & Q' & (pre & Ep) & (Ck & Chy & D)).
    { intros s Hs. exact Hs. }
    change (build []) with seq_new in E. change (cur_of []) with CNil in E. rewrite E. cbn [bind].
    replace (List.last (first :: rest) first) with p by (rewrite Ep; symmetry; apply last_last).
    rewrite build_onto, cur_snoc.
    assert (Cs : set_kids c [] = c) by (destruct c; cbn in *; congruence).
    destruct D as [[Hc G]|(Ef & Ef2 & I' & B' & G & T')].
    + rewrite Hc. left. exists (onto l' c). split; [reflexivity|]. apply Ch, G.
    + subst forms. destruct (kids_fresh n (make_proof n) g' (ps_node p) l' c Gamma' IH I' B' Pl (ps_results p) (ps_children p) Gt' (ps_rule p) [] [] Q' T') as [(ks & Ek & K)|[Ek (x & Hx & K)]].
      * left. rewrite Cs in Ek. exists (onto l' (set_kids c ks)). split; [exact Ek|]. apply Ch, G, K.
      * right. rewrite Cs in Ek. split; [exact Ek|]. pose proof (depth_child _ _ Hx). pose proof (pdepth_in p (first :: rest)) as W.
        assert (In p (first :: rest)) as W' by (rewrite Ep; apply in_or_app; right; left; reflexivity). specialize (W W'). lia.
Qed.
End Steps.

Theorem fresh_translated empty_eq preinner axioms first rest n :
  tab fresh_delta (start axioms first) (first :: rest) ->
  (exists s, make_gs3 empty_eq preinner n axioms (first :: rest) = Ok s /\ gs3 (start axioms first) s) \/
  (make_gs3 empty_eq preinner n axioms (first :: rest) = Out /\ (n <= pdepth (first :: rest))%nat).
Proof.
  unfold start. intros T. destruct axioms as [l|]; cbn [make_gs3 app] in *.
  - apply (make_fresh empty_eq preinner n (mkGs [] (l ++ [ps_form first]) [] [] []) _ (l ++ [ps_form first]) _ T (eqv_refl _)).
    + split; cbn; [apply eqv_refl|contradiction..].
    + cbn. intros K. apply app_eq_nil in K. destruct K. discriminate.
  - destruct (make_fresh empty_eq preinner n (mkGs [] [ps_form first] [] [] []) _ [ps_form first] _ T (eqv_refl _)) as [H|[H1 H2]].
    + split; cbn; [apply eqv_refl|contradiction..].
    + cbn. discriminate.
    + left. destruct n as [|n]; [destruct H as (s & H & _); discriminate|]. exact H.
    + right. split; [|exact H2]. destruct n as [|n]; [reflexivity|]. exact H1.
Qed.
Theorem fresh_total empty_eq preinner axioms first rest n :
  tab fresh_delta (start axioms first) (first :: rest) -> (pdepth (first :: rest) < n)%nat ->
  exists s, make_gs3 empty_eq preinner n axioms (first :: rest) = Ok s.
Proof. intros T L. destruct (fresh_translated empty_eq preinner axioms first rest n T) as [(s & E & _)|[_ H]]; [eauto|lia]. Qed.
Theorem fresh_replay empty_eq preinner axioms first rest n s :
  tab fresh_delta (start axioms first) (first :: rest) -> make_gs3 empty_eq preinner n axioms (first :: rest) = Ok s ->
  gs3 (start axioms first) s.
Proof. intros T E. destruct (fresh_translated empty_eq preinner axioms first rest n T) as [(s' & E' & G)|[E' _]]; congruence. Qed.
