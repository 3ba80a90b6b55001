(** The closure rules of the incremental search, and the runs that lose no binding (C84, C85). *)
From Coq Require Import ZArith List Bool String Lia.
From Verif Require Import LibSet_Model Ast_Model Problem_Model Rules_Model Sem_Spec Occ_Spec Free_Spec Rules_Spec Tableau_Spec
  Ast_Proofs Unif_Model Unif_Spec UnifLoss_Model UnifLoss_Proofs UnifTree_Model UnifTree_Final Closure_Model Closure_Spec Closure_Proofs
  Incr_Model Incr_Spec IncrSub_Proofs Incr_Proofs IncrTree_Proofs IncrSound_Proofs.
Import ListNotations.
Open Scope list_scope.
Open Scope Z_scope.

(** ** Literals *)
Lemma terms_eqb_reflect l1 l2 : list_eqb term_eqb l1 l2 = true <-> Forall2 same_term l1 l2.
Proof. apply list_eqb_reflect. apply Forall_forall; intros; apply term_eqb_reflect. Qed.
Lemma pred_eqb i p tys args i' p' tys' args' : form_eqb (Pred i p tys args) (Pred i' p' tys' args') = true <->
  id_index p = id_index p' /\ Forall2 same_ty tys tys' /\ Forall2 same_term args args'.
Proof.
  cbn [form_eqb]. unfold id_eqb. rewrite !andb_true_iff, Z.eqb_eq, tys_eqb_reflect, terms_eqb_reflect. tauto.
Qed.
Lemma in_pos m x : In x (mg_pos m) -> In x (forms_of m).
Proof. intros H. unfold forms_of. rewrite !in_app_iff. auto. Qed.
Lemma in_neg m x : In x (mg_neg m) -> In x (forms_of m).
Proof. intros H. unfold forms_of. rewrite !in_app_iff. auto. Qed.
Lemma trivial_clash t m x : trivial_closure m = Some x -> clash t (forms_of m).
Proof.
  unfold trivial_closure. destruct (List.find _ (mg_pos m)) as [y|] eqn:E.
  - intros _. apply find_some in E as [H K]. destruct y as [f ts]. cbn [ft_form] in K. destruct f; try discriminate.
    eapply ch_bot. apply in_pos. eauto.
  - intros K. apply find_some in K as [H K]. destruct x as [f ts]. cbn [ft_form] in K. destruct f as [| | | | | |j f| | |]; try discriminate.
    destruct f; try discriminate. eapply ch_top. apply in_neg. eauto.
Qed.
Lemma complementary_clash t m x : complementary_closure m = Some x -> clash t (forms_of m).
Proof.
  intros K. apply find_some in K as [H K]. apply existsb_exists in K as (y & Hy & K). destruct x as [f ts], y as [h us].
  unfold complementary in K. cbn [ft_form] in K. destruct f as [| | | | | | |i p tys args| |]; try discriminate.
  destruct h as [| | | | | |j h| | |]; try discriminate. destruct h as [| | | | | | |i' p' tys' args'| |]; try discriminate.
  apply pred_eqb in K as (K1 & K2 & K3). eapply ch_pair; [apply in_pos; eauto|apply in_neg; eauto|auto|auto|].
  clear -K3. induction K3; constructor; auto using ssubst_same.
Qed.
Lemma from_old_functional s : NoDup (Unif_Spec.keys s) -> functional (from_old s).
Proof. unfold functional, from_old, Unif_Spec.keys. cbn [every]. rewrite map_map. auto. Qed.
Lemma from_old_extends t s : satisfies t (from_old s) <-> extends t s.
Proof.
  unfold satisfies, extends, from_old. cbn [every]. split.
  - intros H k u Hin. apply H. apply in_map_iff. exists (k, u). auto.
  - intros H k u Hin. apply in_map_iff in Hin as ([k' u'] & E & Hin). cbn in E. injection E as -> ->. auto.
Qed.
Lemma joker_ok m : (forall t, clash t (forms_of m)) -> functional Joker /\ forall t, satisfies t Joker -> clash t (forms_of m).
Proof. intros H. split; [constructor|auto]. Qed.

Section Strict.
Variables (ar : Unif_Spec.signature) (name_id : string -> ident) (ty_arity : string -> nat) (n fe : nat).
Hypothesis (HM : monomorphic ar ty_arity).
Definition lits_fo (m : mgr) : Prop := forall x, In x (mg_pos m ++ mg_neg m) -> first_order ar (ft_form x).
Notation add := (add_unif_s true n fe).
Notation comp := (comp_s true n fe).
Notation tc := (try_closure name_id ty_arity add comp).
(** the substitution of a closure *)
Definition proper_sub (s : sub) : Prop := s = Joker \/ exists l, s = from_old l /\ okS ar l /\ solved l.
Lemma filter_pred_fo m b l x : lits_fo m -> incl l (mg_pos m ++ mg_neg m) -> In x (atoms b (map ft_form (filter is_pred l))) -> fit ar name_id x.
Proof.
  intros FO IN Hx. destruct (atoms_pred _ _ _ Hx) as (ix & p & tys & args & ->). apply atoms_in in Hx.
  assert (Q : forall f, In f (map ft_form (filter is_pred l)) -> first_order ar f).
  { intros f Hf. apply in_map_iff in Hf as (y & <- & Hy). apply filter_In in Hy as [Hy _]. apply FO. auto. }
  assert (W : tys = [] /\ well ar (Fun p [] args)) by (destruct b; [apply (Q _ Hx)|destruct Hx as [i Hx]; apply (Q _ Hx)]).
  destruct W as [-> W]. exists (Fun p [] args). split; auto. eapply query_first_order; eauto.
Qed.
Lemma loop_sound m tneg : lits_fo m -> make_tree name_id (atoms false (map ft_form (filter is_pred (mg_neg m)))) = Some tneg ->
  forall l, incl l (filter is_pred (mg_pos m)) -> forall app subs r,
  (forall s, In s subs -> (functional s /\ forall t, satisfies t s -> clash t (forms_of m)) /\ proper_sub s) ->
  closure_loop name_id ty_arity add comp tneg l app subs = Ok r ->
  forall s, In s (snd r) -> (functional s /\ forall t, satisfies t s -> clash t (forms_of m)) /\ proper_sub s.
Proof.
  intros FO T. induction l as [|x l IH]; intros IN app subs r HS K; cbn [closure_loop] in K; [injection K as <-; exact HS|].
  apply bind_ok in K as (ms & K1 & K). apply bind_ok in K as (new & K2 & K).
  eapply IH; [intros y Hy; apply IN; right; auto| |exact K]. intros s Hs. apply in_app_iff in Hs as [Hs|Hs]; auto.
  assert (HX : In x (mg_pos m) /\ is_pred x = true) by (apply filter_In, IN; left; auto). destruct HX as [HX PX].
  pose proof (FO x (in_or_app _ _ _ (or_introl HX))) as FX. destruct x as [f ts]. cbn [ft_form] in *.
  destruct f as [| | | | | | |ix p tys args| |];
    try (injection K1 as <-; cbn in K2; injection K2 as <-; destruct Hs).
  destruct FX as [-> W]. unfold matches in K2. destruct (all_some _) as [r1|] eqn:A; [|discriminate]. injection K2 as <-.
  apply in_map_iff in Hs as (mx & <- & Hm). apply (all_some_in _ _ A), in_map_iff in Hm as ([h s] & E & Hin). cbn [snd] in E.
  assert (K1' : unify_real name_id n fe tneg (IPred ix p [] args) = Ok ms).
  { rewrite unify_strict_real; [exact K1|]. unfold unify_strict. rewrite K1. discriminate. }
  assert (N1 : unify_strict name_id n fe tneg (IPred ix p [] args) <> Out) by (unfold unify_strict; rewrite K1; discriminate).
  destruct (tree_sound ar name_id n fe _ tneg (IPred ix p [] args) (Fun p [] args) ms
    (proj2 (Forall_forall _ _) (fun y => filter_pred_fo m false (mg_neg m) y FO (incl_appr _ (incl_refl _)))) T
    (query_first_order ar name_id ix p args W) W eq_refl N1 K1' h s Hin) as (Hh & O & So & u & Qu & Su).
  rewrite (to_mixed_mono ar ty_arity HM s O) in E. injection E as <-. rewrite term_part_mixed.
  split; [|right; eauto]. split; [apply from_old_functional, O|]. intros t St. apply from_old_extends in St.
  destruct (atoms_pred _ _ _ Hh) as (ix' & q & tys' & args' & ->). apply atoms_in in Hh as [i Hh].
  apply in_map_iff in Hh as ([f us] & Ef & Hf). cbn [ft_form] in Ef. subst f. apply filter_In in Hf as [Hf _].
  pose proof (FO _ (in_or_app _ _ _ (or_intror Hf))) as [-> W'].
  rewrite (query_first_order ar name_id ix' q args' W') in Qu. injection Qu as <-.
  destruct (same_atoms _ _ _ _ _ Su) as [H1 H2].
  eapply ch_pair; [apply in_pos; eauto|apply in_neg; eauto|auto|constructor|].
  clear -H2 St. induction H2; constructor; auto. apply same_term_sym. eapply extends_same; eauto.
Qed.
Lemma strict_closure m x subs : lits_fo m -> tc m = Ok (Some (x, subs)) ->
  forall s, In s subs -> (functional s /\ forall t, satisfies t s -> clash t (forms_of m)) /\ proper_sub s.
Proof.
  intros FO K. unfold try_closure in K. destruct (trivial_closure m) as [y|] eqn:E1.
  { injection K as _ <-. intros s [<-|[]]. split; [|left; auto]. apply joker_ok. intros t. eapply trivial_clash; eauto. }
  destruct (complementary_closure m) as [y|] eqn:E2.
  { injection K as _ <-. intros s [<-|[]]. split; [|left; auto]. apply joker_ok. intros t. eapply complementary_clash; eauto. }
  apply bind_ok in K as ([app l] & K1 & K). cbn [fst snd] in K. destruct app as [y|]; [|discriminate]. injection K as _ <-.
  unfold substitution_closure in K1. destruct (make_tree _ _) as [tneg|] eqn:T; [|discriminate].
  apply (loop_sound m tneg FO T _ (incl_refl _) None [] (Some y, l)); auto. intros s [].
Qed.

(** the instance of the invariant *)
Definition nometa : Prop := forall m, ~ known ar m.
Lemma closure1 m x subs : lits_fo m -> sorted m -> tc m = Ok (Some (x, subs)) -> subs <> [] /\ forall s, In s subs -> okc True nometa m s.
Proof.
  intros FO _ K. split; [eapply closure_ne; eauto|]. intros s Hs. destruct (strict_closure m x subs FO K s Hs) as [A B].
  split; [auto|]. intros NM. destruct B as [->|(l & -> & [_ O] & _)]; auto. destruct l as [|[k t] l]; auto. exfalso.
  destruct (O k t (or_introl eq_refl)) as [[_ Hk] _]. apply (NM _ Hk).
Qed.
Notation inv1 := (winv True nometa).
Notation stepf := (step name_id ty_arity add comp).
Notation runf := (run name_id ty_arity add comp).
Notation inv0 := (winv False False).
Lemma step_mgr k w w' j m : inv0 w -> stepf k w = Ok w' -> node_at w j m -> exists m', node_at w' j m' /\ n_mgr m' = n_mgr m.
Proof.
  intros W K H.
  destruct (step_cases (fun _ => True) False False name_id ty_arity add comp (closure0 _ _ _ _) k w w' W (fun _ _ _ => Logic.I) K) as (t & i & n0 & Et & Ei & R & O).
  exact (outcome_mgr (fun _ => True) False False name_id ty_arity add comp t (without k w) i n0 w' j m R Logic.I O H).
Qed.
Lemma run_mgr sched : forall w w' j m, inv0 w -> runf sched w = Ok w' -> node_at w j m -> exists m', node_at w' j m' /\ n_mgr m' = n_mgr m.
Proof.
  induction sched as [|k r IH]; intros w w' j m W K H; cbn [run] in K; [injection K as <-; eauto|].
  apply bind_ok in K as (w1 & K1 & K). destruct (step_mgr k w w1 j m W K1 H) as (m1 & H1 & M1).
  destruct (step_change name_id ty_arity add comp k w w1 W K1) as [W1 _].
  destruct (IH w1 w' j m1 W1 K H1) as (m2 & H2 & M2). exists m2. split; auto. congruence.
Qed.
Definition world_fo (w : world) : Prop := all_nodes lits_fo w.
Lemma run_inv1 sched : forall w w', inv0 w -> inv1 w -> runf sched w = Ok w' -> world_fo w' -> inv1 w'.
Proof.
  induction sched as [|k r IH]; intros w w' W0 W K FO; [cbn [run] in K; injection K as <-; auto|].
  assert (FOW : world_fo w).
  { intros j m H. destruct (run_mgr (k :: r) w w' j m W0 K H) as (m' & H' & M'). rewrite <- M'. eapply FO; eauto. }
  cbn [run] in K. apply bind_ok in K as (w1 & K1 & K).
  destruct (step_change name_id ty_arity add comp k w w1 W0 K1) as [W01 _].
  destruct (step_cases lits_fo True nometa name_id ty_arity add comp closure1 k w w1 W FOW K1) as (t & i & n0 & Et & Ei & R & O).
  eapply IH; [exact W01| |exact K|exact FO]. eapply (outcome_inv lits_fo True nometa name_id ty_arity add comp closure1); eauto.
  eapply FOW. exact (re_node _ _ _ _ _ R).
Qed.
End Strict.

(** ** The unification of the prover and the one that stops when it loses a binding *)
Section Refine.
Variables (name_id : string -> ident) (ty_arity : string -> nat) (n fe : nat).
Definition run_real := run name_id ty_arity (add_unif n fe) (compute fe (add_unif n fe)).
Definition run_strict := run name_id ty_arity (add_unif_s true n fe) (comp_s true n fe).
Lemma closure_loop_refines tneg l : forall app subs, refines
  (closure_loop name_id ty_arity (add_unif_s true n fe) (comp_s true n fe) tneg l app subs)
  (closure_loop name_id ty_arity (add_unif n fe) (compute fe (add_unif n fe)) tneg l app subs).
Proof.
  induction l as [|x l IH]; intros app subs; [apply refines_refl|]. cbn [closure_loop]. apply refines_bind.
  - destruct (ft_form x); try apply refines_refl. apply unify_refines; intros; first [apply strict_refines|apply comp_refines].
  - intros ms. apply refines_bind; [apply refines_refl|]. intros new. apply IH.
Qed.
Lemma try_refines m : refines (try_closure name_id ty_arity (add_unif_s true n fe) (comp_s true n fe) m)
  (try_closure name_id ty_arity (add_unif n fe) (compute fe (add_unif n fe)) m).
Proof.
  unfold try_closure. destruct (trivial_closure m); [apply refines_refl|]. destruct (complementary_closure m); [apply refines_refl|].
  apply refines_bind; [|intros; apply refines_refl]. unfold substitution_closure. destruct (make_tree _ _); [apply closure_loop_refines|apply refines_refl].
Qed.
Lemma step_refines k w : refines (step name_id ty_arity (add_unif_s true n fe) (comp_s true n fe) k w)
  (step name_id ty_arity (add_unif n fe) (compute fe (add_unif n fe)) k w).
Proof.
  unfold step. destruct (nth_error _ _) as [t|]; [|apply refines_refl]. destruct t as [i|i]; cbn [run_task]; [|apply refines_refl].
  apply refines_bind; [apply refines_refl|]. intros n0. destruct (should_search _ _); [|apply refines_refl]. unfold search_node.
  apply refines_bind; [apply refines_refl|]. intros n1. apply refines_bind; [apply try_refines|]. intros; apply refines_refl.
Qed.
Lemma run_refines sched : forall w, refines (run_strict sched w) (run_real sched w).
Proof.
  induction sched as [|k r IH]; intros w; [apply refines_refl|]. unfold run_strict, run_real. cbn [run].
  apply refines_bind; [apply step_refines|]. intros w1. apply IH.
Qed.
Lemma run_same sched w w' : run_strict sched w <> Out -> run_real sched w = Ok w' -> run_strict sched w = Ok w'.
Proof. intros NO K. destruct (run_refines sched w) as [E|E]; [contradiction|congruence]. Qed.

(** C85: what satisfies the substitution of the root closes every leaf *)
Lemma strict_inv ar g k f sched w : monomorphic ar ty_arity -> run_strict sched (first_world g k f) = Ok w -> world_fo ar w -> winv True (nometa ar) w.
Proof. intros HM K FO. eapply run_inv1; eauto using first_winv. Qed.
Lemma chosen_good ar g k f sched w s : monomorphic ar ty_arity -> run_strict sched (first_world g k f) <> Out ->
  run_real sched (first_world g k f) = Ok w -> world_fo ar w -> chosen w = Ok (Some s) -> functional s /\ forall t, satisfies t s -> closed_below t w 0.
Proof.
  intros HM NO K FO CH. pose proof (strict_inv ar g k f sched w HM (run_same _ _ _ NO K) FO) as W.
  unfold chosen in CH. apply bind_ok in CH as (n0 & H & CH). apply bind_ok in CH as (c & KC & CH).
  destruct c as [|s0 c]; [discriminate|]. injection CH as ->. apply get_at in H.
  destruct (tr_rest _ (wi_tree _ _ _ W) 0 n0 H) as [_ R].
  assert (GD : good True (nometa ar) w 0 s).
  { destruct (n_children n0) as [|c0 cs] eqn:C.
    - destruct (wi_fields _ _ _ W 0%nat n0 H) as [A1 _ _ A4 _]. destruct (A1 C) as (_ & L & _). unfold compat_of in KC. rewrite R in KC.
      destruct (n_closing n0) as [|l [|? ?]] eqn:CL; try discriminate L. cbn in KC. injection KC as ->.
      pose proof (A4 0%nat (s :: c) s eq_refl (or_introl eq_refl)) as Q. unfold target in Q. rewrite C in Q. exact Q.
    - apply (compat_good True (nometa ar) w 0 n0 (s :: c)); auto; [apply W|rewrite C; discriminate|left; auto]. }
  apply (proj1 GD). exact Logic.I.
Qed.
Lemma chosen_unsat ar g k f sched w s t : monomorphic ar ty_arity -> wf_start g f -> run_strict sched (first_world g k f) <> Out ->
  run_real sched (first_world g k f) = Ok w -> world_fo ar w -> chosen w = Ok (Some s) -> satisfies t s -> unsat f.
Proof.
  intros HM W NO K FO CH S. eapply closed_unsat; [exact W|exact K|].
  eapply (proj2 (chosen_good ar g k f sched w s HM NO K FO CH)); eauto.
Qed.
(** C84: a substitution that satisfies one of those of each leaf *)
Lemma leaves_unsat ar g k f sched w t : monomorphic ar ty_arity -> wf_start g f -> run_strict sched (first_world g k f) <> Out ->
  run_real sched (first_world g k f) = Ok w -> world_fo ar w ->
  (forall j m, leaf_of w 0 j m -> n_closed m = true /\ exists s, In s (n_subs m) /\ satisfies t s) -> unsat f.
Proof.
  intros HM W NO K FO C. eapply closed_unsat; [exact W|exact K|]. intros j m L. destruct (C j m L) as (CM & s & Hs & St).
  pose proof (strict_inv ar g k f sched w HM (run_same _ _ _ NO K) FO) as WI.
  destruct (fo_closed _ _ _ _ _ (wi_fields _ _ _ WI j m (proj1 (proj2 L))) CM) as [_ A].
  exact (proj2 (proj1 (A s Hs) Logic.I) t St).
Qed.
End Refine.
