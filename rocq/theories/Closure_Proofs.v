(** C30, C31: the closure search. *)
From Coq Require Import ZArith List Bool String Lia.
From Verif Require Import LibSet_Model Ast_Model Rules_Model Expand_Model Sem_Spec Occ_Spec Tableau_Spec Expand_Spec Ast_Proofs
  Unif_Model Unif_Spec UnifLoss_Model UnifRun_Proofs UnifLoss_Proofs Unif_Final UnifTree_Model UnifTree_Spec UnifTree_Proofs UnifTree_Final
  Closure_Model Closure_Spec.
Import ListNotations.
Open Scope list_scope.
Open Scope Z_scope.

(** ** Substitutions *)
Lemma ssubst_same s t : forall u, same_term t u -> same_term (ssubst s t) (ssubst s u).
Proof.
  induction t as [i|p tys l IH|i n|m] using term_ind'; intros u H; inversion H; subst; cbn [ssubst].
  - exact H.
  - constructor; auto. clear H. rename H6 into F. clear H3 H5. revert l2 F. induction l as [|a l IHl]; intros l2 F; inversion F; subst; constructor.
    + inversion IH; subst. auto.
    + inversion IH; subst. apply IHl; auto.
  - exact H.
  - rewrite H1. destruct (assoc (m_index n) s); [apply same_term_refl|exact H].
Qed.
Lemma extends_twice s s' t : extends s s' -> same_term (ssubst s (ssubst s' t)) (ssubst s t).
Proof.
  intros E. induction t as [i|p tys l IH|i n|m] using term_ind'; cbn [ssubst]; try apply same_term_refl.
  - constructor; [reflexivity| |].
    + induction tys; constructor; auto using same_ty_refl.
    + induction l as [|a l IHl]; cbn [map]; constructor; inversion IH; subst; auto.
  - destruct (assoc (m_index m) s') as [u|] eqn:A; [|apply same_term_refl].
    apply assoc_some in A. destruct A as (k & Hin & Ek). pose proof (E k u Hin) as H. cbn [ssubst] in H. rewrite Ek in H.
    apply same_term_sym. destruct (assoc (m_index m) s); [exact H|]. eapply same_term_trans; [|exact H]. constructor. symmetry. exact Ek.
Qed.
Lemma extends_same s s' a b : extends s s' -> same_term (ssubst s' a) (ssubst s' b) -> same_term (ssubst s a) (ssubst s b).
Proof.
  intros E H. eapply same_term_trans; [apply same_term_sym, extends_twice, E|]. eapply same_term_trans; [apply ssubst_same, H|].
  apply extends_twice, E.
Qed.
Lemma closes_extends eqi s s' b : extends s s' -> closes eqi s' b -> closes eqi s b.
Proof.
  intros E [i ts H|i j ts H|i p tys args ts i' j' p' tys' args' ts' H1 H2 H3 H4 H5|i j p tys a a' ts H1 H2 H3].
  - eapply cl_bot; eauto.
  - eapply cl_top; eauto.
  - eapply cl_pair; eauto. clear - E H5. induction H5; constructor; eauto using extends_same.
  - eapply cl_neq; eauto using extends_same.
Qed.
Lemma solved_extends s : solved s -> extends s s.
Proof.
  intros So k t Hin. apply solved_apply; [exact So|]. intros A w Hw. exact (Hw k t Hin).
Qed.

(** ** Mixed substitutions *)
Section Mono.
Variables (ar : signature) (ty_arity : string -> nat).
Hypothesis (HM : monomorphic ar ty_arity).
Lemma translate_term_mono t : well ar t -> translate_term ty_arity t = Some t.
Proof.
  induction t as [i|p tys l IH|i n|m] using term_ind'; intros W; try reflexivity. apply well_fun in W. destruct W as (-> & _ & _ & W).
  cbn [translate_term]. rewrite (proj2 HM). replace (Nat.ltb (List.length l) 0) with false by reflexivity. cbn [firstn map all_some].
  match goal with |- match ?g l 0%nat with _ => _ end = _ => assert (E : g l 0%nat = Some l) end.
  { clear -IH W. induction l as [|a l IHl]; [reflexivity|]. inversion IH; inversion W; subst. rewrite H1 by assumption. rewrite IHl by assumption. reflexivity. }
  rewrite E. reflexivity.
Qed.
Lemma to_mixed_mono s : okS ar s -> to_mixed ty_arity s = Some (mixed_terms s).
Proof.
  intros [_ H]. unfold to_mixed, mixed_terms. induction s as [|[k t] s IH]; [reflexivity|]. cbn [map all_some fst snd].
  destruct (H k t (or_introl eq_refl)) as [[_ Hk] Ht]. unfold translate at 1. rewrite (proj1 HM k Hk), (translate_term_mono t Ht). cbn [option_map].
  rewrite IH by (intros; apply H; right; assumption). reflexivity.
Qed.
End Mono.
Lemma term_part_mixed s : term_part (mixed_terms s) = s.
Proof. unfold term_part, mixed_terms. induction s as [|[k t] s IH]; [reflexivity|]. cbn. f_equal. exact IH. Qed.

(** ** Queries *)
Lemma concat_one {X} (l : list X) : List.concat (map (fun a => [a]) l) = l.
Proof. induction l as [|a l IH]; [reflexivity|]. cbn. rewrite IH. reflexivity. Qed.
Lemma fun_args_well ar name_id l : Forall (fun t => well ar t -> fun_arg name_id t = Some [t]) l -> Forall (well ar) l ->
  all_some (map (fun_arg name_id) l) = Some (map (fun a => [a]) l).
Proof.
  induction l as [|a l IHl]; intros IH W; [reflexivity|]. inversion IH; inversion W; subst. cbn. rewrite H1, IHl by assumption. reflexivity.
Qed.
Lemma fun_arg_well ar name_id t : well ar t -> fun_arg name_id t = Some [t].
Proof.
  induction t as [i|p tys l IH|i n|m] using term_ind'; intros W; [destruct W| |destruct W|reflexivity].
  apply well_fun in W. destruct W as (-> & _ & _ & W).
  cbn [fun_arg map all_some]. rewrite (fun_args_well ar name_id l IH W), concat_one. reflexivity.
Qed.
Lemma query_first_order ar name_id ix p args : well ar (Fun p [] args) -> query_term name_id (IPred ix p [] args) = Some (Fun p [] args).
Proof.
  intros W. apply well_fun in W. destruct W as (_ & _ & _ & W). cbn [query_term]. unfold functional_args. cbn [map all_some].
  rewrite (fun_args_well ar name_id args), concat_one; [reflexivity| |exact W]. rewrite Forall_forall in *. intros t Ht _. eapply fun_arg_well; eauto.
Qed.

(** ** The loop on the matches *)
Lemma keep_in forb ms : forall r acc b l, keep_matches forb ms r acc = (b, l) -> forall s, In s l -> In s acc \/ In s ms.
Proof.
  induction ms as [|m ms IH]; intros r acc b l E s Hs; cbn in E; [injection E as <- <-; auto|].
  destruct (IH _ _ _ _ E s Hs) as [H|H]; [|cbn; auto]. match type of H with In _ (if ?c then _ else _) => destruct c end; [|auto].
  destruct (existsb _ acc); [auto|]. apply in_app_or in H. cbn in *. intuition.
Qed.
Lemma keep_acc forb ms : forall r acc b l, keep_matches forb ms r acc = (b, l) -> forall s, In s acc -> In s l.
Proof.
  induction ms as [|m ms IH]; intros r acc b l E s Hs; cbn in E; [injection E as <- <-; auto|].
  apply (IH _ _ _ _ E). match goal with |- In _ (if ?c then _ else _) => destruct c end; [|auto].
  destruct (existsb _ acc); [auto|]. apply in_or_app. auto.
Qed.
Lemma keep_true forb ms : forall r acc l, keep_matches forb ms r acc = (true, l) -> (r = true -> acc <> []) -> l <> [].
Proof.
  induction ms as [|m ms IH]; intros r acc l E Ha; cbn in E; [injection E as -> <-; auto|].
  apply (IH _ _ _ E). intros R. rewrite R. destruct (existsb (list_eqb mixed_eqb m) acc) eqn:X.
  - intros ->. discriminate.
  - destruct acc; discriminate.
Qed.

(** ** C30 *)
Section Real.
Variables (eqi : Z) (name_id : string -> ident) (ty_arity : string -> nat) (n fe : nat).
Definition closure_real := apply_closure eqi name_id ty_arity (add_unif n fe) (compute fe (add_unif n fe)).
(** the same with the unification that stops (Out) rather than drop a binding *)
Definition closure_strict := apply_closure eqi name_id ty_arity (add_unif_s true n fe) (comp_s true n fe).
Lemma bind_refines {A B} (x y : out A) (f g : A -> out B) : refines x y -> (forall a, refines (f a) (g a)) -> refines (bind x f) (bind y g).
Proof. intros [->| ->] H; [left; reflexivity|]. destruct y; cbn; auto; right; reflexivity. Qed.
Lemma refines_refl {A} (x : out A) : refines x x. Proof. right. reflexivity. Qed.
Lemma ineq_refines f : refines (search_inequalities eqi (add_unif_s true n fe) f) (search_inequalities eqi (add_unif n fe) f).
Proof.
  unfold search_inequalities. destruct f; try apply refines_refl. destruct f; try apply refines_refl. destruct (id_index _ =? eqi); [|apply refines_refl].
  destruct args as [|a [|b r]]; try apply refines_refl. apply bind_refines; [apply strict_refines|intros; apply refines_refl].
Qed.
Lemma search_closure_refines tp tn f : refines (search_closure name_id (add_unif_s true n fe) (comp_s true n fe) tp tn f)
  (search_closure name_id (add_unif n fe) (compute fe (add_unif n fe)) tp tn f).
Proof.
  unfold search_closure. destruct f as [| | | | | |ix f|ix p tys args| |]; try apply refines_refl; [destruct f; try apply refines_refl|];
    apply unify_refines; intros; first [apply strict_refines|apply comp_refines].
Qed.
Lemma closure_refines tp tn forb f : refines (closure_strict tp tn forb f) (closure_real tp tn forb f).
Proof.
  unfold closure_strict, closure_real, apply_closure. destruct (obvious_closure f); [apply refines_refl|].
  apply bind_refines; [apply ineq_refines|intros ineq]. apply bind_refines; [apply search_closure_refines|intros ms]. apply refines_refl.
Qed.

Lemma atoms_in b lits ix p tys args : In (IPred ix p tys args) (atoms b lits) ->
  if b then In (Pred ix p tys args) lits else exists i, In (Not i (Pred ix p tys args)) lits.
Proof.
  unfold atoms. intros H. apply in_flat_map in H. destruct H as (f & Hf & H). destruct f as [| | | | | |i f|i q t a| |]; try destruct H.
  - destruct f as [| | | | | | |j q t a| |]; try destruct H. destruct b; [destruct H|]. destruct H as [H|[]]. injection H as -> -> -> ->. eauto.
  - destruct b; [|destruct H]. destruct H as [H|[]]. injection H as -> -> -> ->. exact Hf.
Qed.
Lemma atoms_pred b lits f : In f (atoms b lits) -> exists ix p tys args, f = IPred ix p tys args.
Proof.
  unfold atoms. intros H. apply in_flat_map in H. destruct H as (g & _ & H). destruct g as [| | | | | |i g|i q t a| |]; try destruct H.
  - destruct g as [| | | | | | |j q t a| |]; try destruct H. destruct b; [destruct H|]. destruct H as [<-|[]]. eauto.
  - destruct b; [|destruct H]. destruct H as [<-|[]]. eauto.
Qed.
Lemma same_atoms s p q l r : same_term (ssubst s (Fun p [] l)) (ssubst s (Fun q [] r)) ->
  id_index p = id_index q /\ Forall2 (fun a b => same_term (ssubst s a) (ssubst s b)) l r.
Proof.
  cbn [ssubst]. intros H. inversion H as [|? ? ? ? ? ? Hp _ F| |]; subst. split; [exact Hp|]. clear H Hp. revert r F.
  induction l as [|a l IH]; intros [|b r] F; cbn in F; inversion F; subst; constructor; auto.
Qed.
Lemma all_some_in {X} (l : list (option X)) r : all_some l = Some r -> forall x, In x r -> In (Some x) l.
Proof.
  revert r. induction l as [|[a|] l IH]; intros r E x Hx; cbn in E; [injection E as <-; destruct Hx| |discriminate].
  destruct (all_some l) as [y|]; [|discriminate]. injection E as <-. destruct Hx as [->|Hx]; [left; reflexivity|right; eapply IH; eauto].
Qed.
Lemma in_branch f fs : In f fs -> In (mkFat f []) (br_forms (branch_with fs)).
Proof. intros H. cbn. apply (in_map (fun f => mkFat f [])), H. Qed.
Section Sound.
Variables (ar : signature) (lp ln : list form) (tpos tneg : node).
Hypothesis (Fo : Forall (first_order ar) (lp ++ ln)).
Let lits (b : bool) : list form := if b then lp else ln.
Lemma lits_fo b f : In f (lits b) -> first_order ar f.
Proof. rewrite Forall_forall in Fo. intros H. apply Fo, in_or_app. destruct b; auto. Qed.
Hypothesis (Tp : make_tree name_id (atoms true lp) = Some tpos) (Tn : make_tree name_id (atoms false ln) = Some tneg).
Lemma atoms_fit b : Forall (fit ar name_id) (atoms b (lits b)).
Proof.
  apply Forall_forall. intros f Hf. destruct (atoms_pred b (lits b) f Hf) as (ix & p & tys & args & ->). apply atoms_in in Hf.
  assert (H : tys = [] /\ well ar (Fun p [] args)).
  { destruct b; [exact (lits_fo true _ Hf)|]. destruct Hf as [i Hf]. exact (lits_fo false _ Hf). }
  destruct H as [-> W]. exists (Fun p [] args). split; [eapply query_first_order, W|exact W].
Qed.
Lemma match_closes f l : first_order ar f -> search_closure name_id (add_unif_s true n fe) (comp_s true n fe) tpos tneg f <> Out ->
  search_closure name_id (add_unif n fe) (compute fe (add_unif n fe)) tpos tneg f = Ok l ->
  forall g s, In (g, s) l -> okS ar s /\ solved s /\ closes eqi s (branch_with (f :: lp ++ ln)).
Proof.
  intros Ff NO E g s Hin.
  assert (Q : forall b t ix p tys args, make_tree name_id (atoms b (lits b)) = Some t -> tys = [] -> well ar (Fun p [] args) ->
    unify_strict name_id n fe t (IPred ix p tys args) <> Out -> unify_real name_id n fe t (IPred ix p tys args) = Ok l ->
    okS ar s /\ solved s /\ exists ix' q args', (if b then In (Pred ix' q [] args') lp else exists i, In (Not i (Pred ix' q [] args')) ln) /\
    id_index q = id_index p /\ Forall2 (fun a b => same_term (ssubst s a) (ssubst s b)) args' args).
  { intros b t ix p tys args T -> W N1 E1.
    destruct (tree_sound ar name_id n fe (atoms b (lits b)) t (IPred ix p [] args) (Fun p [] args) l (atoms_fit b) T
      (query_first_order ar name_id ix p args W) W eq_refl N1 E1 g s Hin) as (Hg & O & So & u & Qu & Su).
    split; [exact O|]. split; [exact So|]. destruct (atoms_pred b (lits b) g Hg) as (ix' & q & tys' & args' & ->).
    pose proof (atoms_in _ _ _ _ _ _ Hg) as Hl.
    assert (H : tys' = [] /\ well ar (Fun q [] args')).
    { destruct b; [exact (lits_fo true _ Hl)|]. destruct Hl as [i Hl]. exact (lits_fo false _ Hl). }
    destruct H as [-> W']. rewrite (query_first_order ar name_id ix' q args' W') in Qu. injection Qu as <-.
    destruct (same_atoms _ _ _ _ _ Su) as [H1 H2]. exists ix', q, args'. split; [destruct b; exact Hl|auto]. }
  destruct f as [| | | | | |i f|ix p tys args| |]; cbn in E; try (injection E as <-; destruct Hin).
  - destruct f as [| | | | | | |ix p tys args| |]; cbn in E; try (injection E as <-; destruct Hin). destruct Ff as [-> W].
    destruct (Q true tpos ix p [] args Tp eq_refl W NO E) as (O & So & ix' & q & args' & Hl & Eq & F2).
    split; [exact O|]. split; [exact So|]. eapply cl_pair; [apply in_branch; right; apply in_or_app; left; exact Hl|apply in_branch; left; reflexivity|exact Eq|constructor|exact F2].
  - destruct Ff as [-> W]. destruct (Q false tneg ix p [] args Tn eq_refl W NO E) as (O & So & ix' & q & args' & [j Hl] & Eq & F2).
    split; [exact O|]. split; [exact So|]. eapply cl_pair; [apply in_branch; left; reflexivity|apply in_branch; right; apply in_or_app; right; exact Hl|symmetry; exact Eq|constructor|].
    clear -F2. induction F2; constructor; auto using same_term_sym.
Qed.
Lemma ineq_closes f s : ar eqi = 2%nat -> first_order ar f -> search_inequalities eqi (add_unif_s true n fe) f <> Out ->
  search_inequalities eqi (add_unif n fe) f = Ok (Some s) -> okS ar s /\ solved s /\ closes eqi s (branch_with (f :: lp ++ ln)).
Proof.
  intros A2 Ff NO E. destruct f as [| | | | | |i f| | |]; try discriminate. destruct f as [| | | | | | |ix p tys args| |]; try discriminate.
  unfold search_inequalities in *. destruct (Z.eqb_spec (id_index p) eqi) as [Ep|]; [|discriminate]. destruct Ff as [-> W].
  apply well_fun in W. destruct W as (_ & L & _ & W). rewrite Ep, A2 in L. destruct args as [|a [|b [|]]]; try discriminate.
  inversion W as [|? ? Wa W1]; subst. inversion W1 as [|? ? Wb _]; subst.
  destruct (add_unif n fe a b []) as [s'| | |] eqn:U; cbn in E; try discriminate. destruct (is_failure s') eqn:F; [discriminate|]. injection E as ->.
  assert (N1 : add_unif_s true n fe a b [] <> Out) by (intros H; rewrite H in NO; apply NO; reflexivity).
  destruct (add_unifies ar n fe a b [] s (okS_nil ar) Wa Wb N1 U F) as (H1 & _ & H2).
  pose proof (add_safe ar n fe a b [] (okS_nil ar) Wa Wb) as Q. rewrite U in Q. destruct Q as [Q|[Q _]]; [congruence|].
  split; [exact Q|]. split; [exact H2|]. eapply cl_neq; [apply in_branch; left; reflexivity|exact eq_refl|exact H1].
Qed.
(** C30: every answer closes the branch. *)
Theorem closure_sound forb f l : ar eqi = 2%nat -> first_order ar f -> monomorphic ar ty_arity ->
  closure_strict tpos tneg forb f <> Out -> closure_real tpos tneg forb f = Ok (true, l) ->
  (obvious_closure f = true /\ l = []) \/
  (l <> [] /\ forall sg, In sg l -> exists s, sg = mixed_terms s /\ okS ar s /\ solved s /\ closes eqi s (branch_with (f :: lp ++ ln))).
Proof.
  intros A2 Ff HM NO E. unfold closure_real, closure_strict, apply_closure in *. destruct (obvious_closure f); [injection E as <-; auto|right].
  destruct (search_inequalities eqi (add_unif n fe) f) as [ineq| | |] eqn:E1; cbn in E; try discriminate.
  destruct (search_closure name_id (add_unif n fe) (compute fe (add_unif n fe)) tpos tneg f) as [ms| | |] eqn:E2; cbn in E; try discriminate.
  assert (N1 : search_inequalities eqi (add_unif_s true n fe) f <> Out) by (intros H; rewrite H in NO; apply NO; reflexivity).
  assert (N2 : search_closure name_id (add_unif_s true n fe) (comp_s true n fe) tpos tneg f <> Out).
  { intros H. apply NO. destruct (ineq_refines f) as [H1|H1]; [contradiction|]. rewrite H1, E1. cbn. rewrite H. reflexivity. }
  destruct (all_some _) as [ms'|] eqn:E3; [|discriminate]. injection E as E.
  split.
  - eapply keep_true; [exact E|]. destruct ineq; discriminate.
  - intros sg Hs. destruct (keep_in _ _ _ _ _ _ E sg Hs) as [H|H].
    + destruct ineq as [s|]; [|destruct H]. destruct H as [<-|[]]. exists s. split; [reflexivity|]. apply ineq_closes; auto.
    + apply (all_some_in _ _ E3) in H. apply in_map_iff in H. destruct H as ([g s] & Et & Hin). cbn [snd] in Et.
      destruct (match_closes f ms Ff N2 E2 g s Hin) as (O & So & C). rewrite (to_mixed_mono ar ty_arity HM s O) in Et. injection Et as <-. eauto 6.
Qed.
End Sound.

(** *** The search on a state *)
Variable same : list term -> list term -> bool.
Definition state_real := state_closure eqi name_id ty_arity (add_unif n fe) (compute fe (add_unif n fe)) same.
Definition state_strict := state_closure eqi name_id ty_arity (add_unif_s true n fe) (comp_s true n fe) same.
Lemma first_refines tp tn forb l : refines
  (first_contradiction eqi name_id ty_arity (add_unif_s true n fe) (comp_s true n fe) tp tn forb l)
  (first_contradiction eqi name_id ty_arity (add_unif n fe) (compute fe (add_unif n fe)) tp tn forb l).
Proof.
  induction l as [|f l IH]; [apply refines_refl|]. cbn [first_contradiction]. apply bind_refines; [apply closure_refines|].
  intros [[|] r]; [apply refines_refl|exact IH].
Qed.
Theorem state_refines st forb : refines (state_strict st forb) (state_real st forb).
Proof.
  unfold state_strict, state_real, state_closure. destruct (new_literals _ _); [apply refines_refl|]. unfold step_closure.
  destruct (make_tree _ _); [|apply refines_refl]. destruct (make_tree _ _); [|apply refines_refl]. apply first_refines.
Qed.
Lemma filter_pol_in b l x : In x (filter_pol same b l) -> In x l.
Proof.
  unfold filter_pol. assert (G : forall l acc, In x (fold_left (fun res f => match ft_form f with
      | Pred _ _ _ _ => if b then fl_append same res f else res
      | Not _ (Pred _ _ _ _) => if b then res else fl_append same res f
      | _ => res end) l acc) -> In x acc \/ In x l).
  { clear l. induction l as [|f l IH]; intros acc H; cbn in H; [auto|]. destruct (IH _ H) as [H1|H1]; [|cbn; auto]. clear H IH.
    assert (A : In x (fl_append same acc f) -> In x acc \/ In x (f :: l)).
    { unfold fl_append. destruct (fl_contains same acc f); [auto|]. intros Q. apply in_app_or in Q. cbn in *. intuition. }
    destruct (ft_form f) as [| | | | | |? h| | |]; auto; [destruct h; auto|]; destruct b; auto. }
  intros H. destruct (G l [] H) as [[]|Q]; exact Q.
Qed.
Lemma merge_in l2 : forall l1 x, In x (fl_merge same l1 l2) -> In x l1 \/ In x l2.
Proof.
  induction l2 as [|y l2 IH]; intros l1 x H; [auto|]. cbn in H. destruct (IH _ _ H) as [H1|H1]; [|cbn; auto].
  unfold fl_append in H1. destruct (fl_contains same l1 y); [auto|]. apply in_app_or in H1. cbn in *. intuition.
Qed.
Lemma extract_in l f : In f (extract l) -> In f (map ft_form l).
Proof.
  unfold extract. assert (G : forall l acc, In f (fold_left (fun res f => if existsb (fun g => form_eqb g (ft_form f)) res then res
    else res ++ [ft_form f]) l acc) -> In f acc \/ In f (map ft_form l)).
  { clear l. induction l as [|y l IH]; intros acc H; cbn in H; [auto|]. destruct (IH _ H) as [H1|H1]; [|cbn; auto].
    destruct (existsb _ acc); [auto|]. apply in_app_or in H1. cbn in *. intuition. }
  intros H. destruct (G l [] H) as [[]|Q]; exact Q.
Qed.
Lemma new_literals_in l : forall acc, match new_literals l acc with
  | inl f => obvious_closure f = true /\ In f (map ft_form l)
  | inr r => forall x, In x r -> In x acc \/ In x l end.
Proof.
  induction l as [|y l IH]; intros acc; [cbn; auto|]. cbn [new_literals].
  assert (K : forall acc', (forall x, In x acc' -> In x acc \/ x = y) -> match new_literals l acc' with
    | inl f => obvious_closure f = true /\ In f (map ft_form (y :: l)) | inr r => forall x, In x r -> In x acc \/ In x (y :: l) end).
  { intros acc' H. pose proof (IH acc') as Q. destruct (new_literals l acc') as [f|r].
    - destruct Q. split; [assumption|right; assumption].
    - intros x Hx. destruct (Q x Hx) as [Q1|Q1]; [|cbn; auto]. destruct (H x Q1) as [| ->]; cbn; auto. }
  destruct (kind_of_rule (ft_form y)); try (apply K; auto; fail). destruct (obvious_closure (ft_form y)) eqn:O; [cbn; auto|].
  apply K. intros x Hx. apply in_app_or in Hx. cbn in Hx. intuition.
Qed.
Lemma closes_sub s fs b : (forall f, In f fs -> exists ts, In (mkFat f ts) (br_forms b)) -> closes eqi s (branch_with fs) -> closes eqi s b.
Proof.
  intros H. assert (K : forall f ts, In (mkFat f ts) (br_forms (branch_with fs)) -> exists ts, In (mkFat f ts) (br_forms b)).
  { intros f ts Hin. cbn in Hin. apply in_map_iff in Hin. destruct Hin as (g & E & Hg). injection E as -> <-. auto. }
  intros [i ts H1|i j ts H1|i p tys args ts i' j' p' tys' args' ts' H1 H2 H3 H4 H5|i j p tys a a' ts H1 H2 H3].
  - destruct (K _ _ H1). eapply cl_bot; eauto.
  - destruct (K _ _ H1). eapply cl_top; eauto.
  - destruct (K _ _ H1), (K _ _ H2). eapply cl_pair; eauto.
  - destruct (K _ _ H1). eapply cl_neq; eauto.
Qed.
Section StateSound.
Variables (ar : signature) (st : state).
Hypothesis (A2 : ar eqi = 2%nat) (HM : monomorphic ar ty_arity).
Hypothesis (Fo : forall x, In x (q_lf (st_q st) ++ q_atomic (st_q st)) -> first_order ar (ft_form x)).
Let known_form (f : form) : Prop := exists x, In x (q_lf (st_q st) ++ q_atomic (st_q st)) /\ ft_form x = f.
Lemma known_in f : known_form f -> exists ts, In (mkFat f ts) (br_forms (branch_of st)).
Proof.
  intros ([f' ts] & Hx & <-). exists ts. cbn [branch_of br_forms]. unfold forms_of. rewrite !in_app_iff. apply in_app_or in Hx. tauto.
Qed.
(** C30: every answer closes the branch. *)
Theorem state_sound forb f l : state_strict st forb <> Out -> state_real st forb = Ok (Some (f, l)) ->
  (l = [] /\ forall s, closes eqi s (branch_of st)) \/
  (l <> [] /\ forall sg, In sg l -> exists s, sg = mixed_terms s /\ okS ar s /\ solved s /\ closes eqi s (branch_of st)).
Proof.
  intros NO E. unfold state_real, state_strict, state_closure in *. pose proof (new_literals_in (q_lf (st_q st)) []) as NL.
  assert (OB : forall f, obvious_closure f = true -> known_form f -> forall s, closes eqi s (branch_of st)).
  { intros g O Kg s. apply known_in in Kg. destruct Kg as [ts Kg]. destruct g as [| | | | | |i g| | |]; try discriminate.
    - destruct g; try discriminate. eapply cl_top, Kg.
    - eapply cl_bot, Kg. }
  destruct (new_literals (q_lf (st_q st)) []) as [g|news].
  { injection E as <- <-. left. split; [reflexivity|]. destruct NL as [O Hin]. apply (OB g O). apply in_map_iff in Hin.
    destruct Hin as (x & <- & Hx). exists x. split; [apply in_or_app; auto|reflexivity]. }
  assert (Kn : forall x, In x news -> known_form (ft_form x)).
  { intros x Hx. destruct (NL x Hx) as [[]|H]. exists x. split; [apply in_or_app; auto|reflexivity]. }
  unfold step_closure in *.
  set (plus := filter_pol same true news) in *. set (minus := filter_pol same false news) in *.
  assert (Km : forall b f, In f (extract (fl_merge same (q_atomic (st_q st)) (filter_pol same b news))) -> known_form f).
  { intros b g Hg. apply extract_in, in_map_iff in Hg. destruct Hg as (x & <- & Hx). apply merge_in in Hx.
    destruct Hx as [Hx|Hx]; [exists x; split; [apply in_or_app; auto|reflexivity]|]. apply filter_pol_in in Hx. auto. }
  pose proof (Km true) as Kp. pose proof (Km false) as Kq. clear Km. fold plus in Kp. fold minus in Kq.
  set (lp := extract (fl_merge same (q_atomic (st_q st)) plus)) in *. set (ln := extract (fl_merge same (q_atomic (st_q st)) minus)) in *.
  destruct (make_tree name_id (atoms true lp)) as [tp|] eqn:Tp; [|discriminate].
  destruct (make_tree name_id (atoms false ln)) as [tn|] eqn:Tn; [|discriminate].
  assert (FK : forall f, known_form f -> first_order ar f) by (intros g (x & Hx & <-); auto).
  assert (FL : Forall (first_order ar) (lp ++ ln)).
  { apply Forall_forall. intros g Hg. apply in_app_or in Hg. destruct Hg; auto. }
  assert (Hc : forall x, In x (plus ++ minus) -> known_form (ft_form x)).
  { intros x Hx. apply in_app_or in Hx. destruct Hx as [Hx|Hx]; apply filter_pol_in in Hx; auto. }
  clearbody plus minus lp ln. revert Hc NO E. induction (plus ++ minus) as [|x r IH]; intros Hc NO E; [discriminate|].
  cbn [first_contradiction] in E, NO. fold (closure_real tp tn forb (ft_form x)) in E. fold (closure_strict tp tn forb (ft_form x)) in NO.
  assert (N1 : closure_strict tp tn forb (ft_form x) <> Out) by (intros H; rewrite H in NO; apply NO; reflexivity).
  assert (E0 : closure_strict tp tn forb (ft_form x) = closure_real tp tn forb (ft_form x)) by (destruct (closure_refines tp tn forb (ft_form x)); [contradiction|assumption]).
  rewrite E0 in NO. destruct (closure_real tp tn forb (ft_form x)) as [[[|] l']| | |] eqn:E1; cbn in E, NO; try discriminate.
  - injection E as <- <-. assert (Kx : known_form (ft_form x)) by (apply Hc; left; reflexivity).
    destruct (closure_sound ar lp ln tp tn FL Tp Tn forb (ft_form x) l' A2 (FK _ Kx) HM N1 E1) as [[O ->]|[Hl Hs]].
    + left. split; [reflexivity|]. exact (OB _ O Kx).
    + right. split; [exact Hl|]. intros sg Hsg. destruct (Hs sg Hsg) as (s & -> & O & So & C). exists s. split; [reflexivity|]. split; [exact O|]. split; [exact So|].
      eapply closes_sub; [|exact C]. intros g [<-|Hg]; [apply known_in, Kx|]. apply known_in. apply in_app_or in Hg. destruct Hg; auto.
  - apply IH; auto. intros y Hy. apply Hc. right. exact Hy.
Qed.
End StateSound.
End Real.
