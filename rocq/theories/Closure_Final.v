(** C30, C31, C55: no crash, forbidden substitutions, whole runs. *)
From Coq Require Import ZArith List Bool String Lia.
From Verif Require Import LibSet_Model Ast_Model Rules_Model Expand_Model Sem_Spec Occ_Spec Tableau_Spec Expand_Spec Ast_Proofs Expand_Proofs Expand_Final
  Unif_Model Unif_Spec UnifLoss_Model UnifRun_Proofs UnifLoss_Proofs Unif_Final UnifTree_Model UnifTree_Spec UnifTree_Proofs UnifTree_Final
  Closure_Model Closure_Spec Closure_Proofs.
Import ListNotations.
Open Scope list_scope.
Open Scope Z_scope.

(** ** No crash *)
Lemma tree_answers_ok ar name_id n fe fs k q t l : Forall (fit ar name_id) fs -> make_tree name_id fs = Some k ->
  query_term name_id q = Some t -> well ar t -> is_fun t = true -> unify_real name_id n fe k q = Ok l ->
  forall f s, In (f, s) l -> okS ar s.
Proof.
  intros Hf T Q W Fq E f s Hin. rewrite <- unify_lax_real in E.
  destruct (search_direct name_id _ _ fs k q l T E) as [D _]. destruct (D f s Hin) as (Hfs & t' & is & mt & m & D1 & D2 & D3 & D4 & D5 & D6).
  rewrite Forall_forall in Hf. destruct (Hf f Hfs) as (u & Qu & Wu).
  rewrite Q in D1. injection D1 as <-. rewrite (item_metas_list name_id f u Qu) in D3. injection D3 as <-.
  pose proof (query_ok ar false n fe name_id f u is t m Qu D2 Wu W Fq D4) as R. rewrite D5 in R. cbn in R.
  destruct R as [R|(R0 & _)]; [congruence|exact R0].
Qed.
Lemma all_some_total {X} (l : list (option X)) : (forall x, In x l -> x <> None) -> exists r, all_some l = Some r.
Proof.
  induction l as [|[a|] l IH]; intros H; [eexists; reflexivity| |destruct (H None); [left; reflexivity|reflexivity]].
  destruct IH as [r Hr]; [intros; apply H; right; auto|]. cbn. rewrite Hr. eauto.
Qed.
Section NoCrash.
Variables (eqi : Z) (name_id : string -> ident) (ty_arity : string -> nat) (n fe : nat) (ar : signature) (lp ln : list form) (tpos tneg : node).
Hypothesis (Fo : Forall (first_order ar) (lp ++ ln)).
Hypothesis (Tp : make_tree name_id (atoms true lp) = Some tpos) (Tn : make_tree name_id (atoms false ln) = Some tneg).
Lemma search_closure_safe f : first_order ar f ->
  match search_closure name_id (add_unif n fe) (compute fe (add_unif n fe)) tpos tneg f with
  | Ok l => forall g s, In (g, s) l -> okS ar s | Out => True | _ => False end.
Proof.
  intros Ff.
  assert (Q : forall b t ix p tys args, make_tree name_id (atoms b (if b then lp else ln)) = Some t -> tys = [] -> well ar (Fun p [] args) ->
    match unify_real name_id n fe t (IPred ix p tys args) with Ok l => forall g s, In (g, s) l -> okS ar s | Out => True | _ => False end).
  { intros b t ix p tys args T -> W. pose proof (atoms_fit name_id ar lp ln Fo b) as Fi. pose proof (query_first_order ar name_id ix p args W) as Qt.
    pose proof (tree_no_crash ar name_id n fe _ t _ _ Fi T Qt W eq_refl) as NC.
    pose proof (proj2 (tree_safe ar false n fe name_id _ t _ _ Fi T Qt W eq_refl)) as NF. rewrite unify_lax_real in NF.
    pose proof (fun l => tree_answers_ok ar name_id n fe _ t _ _ l Fi T Qt W eq_refl) as OK.
    destruct (unify_real name_id n fe t (IPred ix p [] args)) as [l| | |]; [exact (OK l eq_refl)|congruence|congruence|exact I]. }
  destruct f as [| | | | | |i f|ix p tys args| |]; try (intros ? ? []).
  - destruct f as [| | | | | | |ix p tys args| |]; try (intros ? ? []). destruct Ff as [E W]. exact (Q true tpos ix p tys args Tp E W).
  - destruct Ff as [E W]. exact (Q false tneg ix p tys args Tn E W).
Qed.
Lemma ineq_safe f : ar eqi = 2%nat -> first_order ar f ->
  match search_inequalities eqi (add_unif n fe) f with Ok _ | Out => True | _ => False end.
Proof.
  intros A2 Ff. destruct f as [| | | | | |i f| | |]; try exact I. destruct f as [| | | | | | |ix p tys args| |]; try exact I.
  unfold search_inequalities. destruct (Z.eqb_spec (id_index p) eqi) as [Ep|]; [|exact I]. destruct Ff as [-> W].
  apply well_fun in W. destruct W as (_ & L & _ & W). rewrite Ep, A2 in L. destruct args as [|a [|b [|]]]; try discriminate.
  inversion W as [|? ? Wa W1]; subst. inversion W1 as [|? ? Wb _]; subst.
  pose proof (add_safe ar n fe a b [] (okS_nil ar) Wa Wb) as Q. pose proof (add_nf false n fe a b []) as NF. rewrite lax_is_real in NF.
  destruct (add_unif n fe a b []) as [s| | |]; cbn in *; auto; congruence.
Qed.
Theorem closure_no_crash forb f : ar eqi = 2%nat -> first_order ar f -> monomorphic ar ty_arity ->
  match closure_real eqi name_id ty_arity n fe tpos tneg forb f with Ok _ | Out => True | _ => False end.
Proof.
  intros A2 Ff HM. unfold closure_real, apply_closure. destruct (obvious_closure f); [exact I|].
  pose proof (ineq_safe f A2 Ff) as S1. destruct (search_inequalities _ _ f) as [ineq| | |]; cbn; auto.
  pose proof (search_closure_safe f Ff) as S2. destruct (search_closure _ _ _ _ _ f) as [ms| | |]; cbn; auto.
  destruct (all_some_total (map (fun m => to_mixed ty_arity (snd m)) ms)) as [r ->]; [|exact I].
  intros x Hx. apply in_map_iff in Hx. destruct Hx as ([g s] & <- & Hin). cbn [snd].
  rewrite (to_mixed_mono ar ty_arity HM s (S2 g s Hin)). discriminate.
Qed.

(** ** C31 *)
Lemma term_eqb_same a b : term_eqb a b = true <-> same_term a b. Proof. apply term_eqb_reflect. Qed.
Lemma included_ok s1 s2 : NoDup (map (fun b => m_name (fst b)) s2) ->
  (forall k v k' v', In (k, v) s1 -> In (k', v') s2 -> (m_name k = m_name k' <-> m_index k = m_index k')) ->
  (included s1 s2 = true <-> forall k v, In (k, v) s1 -> exists k' v', In (k', v') s2 /\ m_index k' = m_index k /\ same_term v v').
Proof.
  intros N. induction s1 as [|[k v] s1 IH]; intros C; [cbn; intuition|].
  assert (G : Nat.eqb (List.length (filter (fun b => String.eqb (m_name k) (m_name (fst b)) && term_eqb v (snd b)) s2)) 1 = true <->
    exists k' v', In (k', v') s2 /\ m_index k' = m_index k /\ same_term v v').
  { set (P := fun b => String.eqb (m_name k) (m_name (fst b)) && term_eqb v (snd b)).
    assert (S : forall k' v', In (k', v') s2 -> P (k', v') = true <-> m_index k' = m_index k /\ same_term v v').
    { intros k' v' Hin. unfold P. cbn [fst snd]. rewrite andb_true_iff, String.eqb_eq, term_eqb_same.
      pose proof (C k v k' v' (or_introl eq_refl) Hin) as Q. intuition. }
    rewrite Nat.eqb_eq. split.
    - intros L. destruct (filter P s2) as [|[k' v'] r] eqn:F; [discriminate|].
      assert (H : In (k', v') (filter P s2)) by (rewrite F; left; reflexivity). apply filter_In in H. destruct H as [H1 H2].
      exists k', v'. split; [exact H1|]. apply S; assumption.
    - intros (k' & v' & Hin & H). apply (S k' v' Hin) in H.
      assert (U : forall r, NoDup (map (fun b => m_name (fst b)) r) -> (List.length (filter P r) <= 1)%nat).
      { clear. induction r as [|b r IH]; intros N; [cbn; lia|]. inversion N as [|? ? N1 N2]; subst. cbn [filter]. specialize (IH N2).
        destruct (P b) eqn:Pb; [|exact IH]. cbn [List.length].
        replace (List.length (filter P r)) with 0%nat; [lia|]. destruct (filter P r) as [|c q] eqn:F; [reflexivity|]. exfalso.
        assert (H : In c (filter P r)) by (rewrite F; left; reflexivity). apply filter_In in H. destruct H as [H1 H2]. apply N1.
        unfold P in Pb, H2. apply andb_true_iff in Pb, H2. destruct Pb as [Pb _], H2 as [H2 _]. apply String.eqb_eq in Pb, H2.
        rewrite <- Pb, H2. apply (in_map (fun b => m_name (fst b))), H1. }
      specialize (U s2 N). assert (H0 : In (k', v') (filter P s2)) by (apply filter_In; auto).
      destruct (filter P s2) as [|x r]; [destruct H0|]. cbn in *. lia. }
  cbn [included]. rewrite andb_true_iff, G, IH by (intros; eapply C; [right|]; eauto). split.
  - intros [H1 H2] k0 v0 [E|Hin]; [injection E as <- <-; exact H1|eauto].
  - intros H. split; [apply H; left; reflexivity|]. intros; apply H; right; assumption.
Qed.
(** in the forbidden substitutions and in [s], a name stands for one metavariable *)
Definition names_ok (forb : list (list (meta * term))) (s : list (meta * term)) : Prop :=
  forall f, In f forb -> NoDup (map (fun b => m_name (fst b)) f) /\
    forall k v k' v', In (k, v) s -> In (k', v') f -> (m_name k = m_name k' <-> m_index k = m_index k').
Lemma forbidden_ok forb sg : names_ok (map term_part forb) (term_part sg) ->
  (forbidden forb sg = true <-> retried (map term_part forb) (term_part sg)).
Proof.
  intros H. unfold forbidden, retried. rewrite existsb_exists. split.
  - intros (f & Hf & E). exists (term_part f). split; [apply in_map, Hf|]. destruct (H _ (in_map term_part _ _ Hf)) as [N C]. apply (included_ok _ _ N C), E.
  - intros (f & Hf & E). apply in_map_iff in Hf. destruct Hf as (f0 & <- & Hf). exists f0. split; [exact Hf|].
    destruct (H _ (in_map term_part _ _ Hf)) as [N C]. apply (included_ok _ _ N C), E.
Qed.
Lemma keep_first forb ms : forall b sg l, keep_matches forb ms false [] = (b, sg :: l) -> sg = [] \/ forbidden forb sg = false.
Proof.
  induction ms as [|m ms IH]; intros b sg l E; [discriminate|]. cbn in E.
  assert (K : forall r b acc l, keep_matches forb ms r (m :: acc) = (b, l) -> exists l', l = m :: l').
  { clear. induction ms as [|c ms IH]; intros r b acc l E; cbn in E; [injection E as <- <-; eauto|].
    match type of E with keep_matches _ _ _ (if ?c then _ else _) = _ => destruct c end; [|eapply IH, E].
    destruct (list_eqb mixed_eqb c m || existsb (list_eqb mixed_eqb c) acc); eapply IH, E. }
  destruct m as [|x m'] eqn:Em; [destruct (K _ _ _ _ E) as [l' E']; injection E' as -> _; auto|]. rewrite <- Em in *.
  destruct (forbidden forb m) eqn:F; [eapply IH, E|]. destruct (K _ _ _ _ E) as [l' E']. injection E' as -> _. auto.
Qed.
Lemma keep_all_forbidden forb ms : (forall m, In m ms -> m <> [] /\ forbidden forb m = true) -> keep_matches forb ms false [] = (false, []).
Proof.
  induction ms as [|m ms IH]; intros H; [reflexivity|]. cbn [keep_matches]. destruct (H m (or_introl eq_refl)) as [H1 H2].
  destruct m as [|x m'] eqn:Em; [contradiction|]. rewrite <- Em in *. rewrite H2. apply IH. intros; apply H; right; assumption.
Qed.
Lemma keep_false forb ms : forall r acc l, keep_matches forb ms r acc = (false, l) -> (r = false -> acc = []) -> l = [].
Proof.
  induction ms as [|m ms IH]; intros r acc l E H; cbn in E; [injection E as -> <-; auto|].
  eapply IH; [exact E|]. intros R. rewrite R. apply H. destruct m; [discriminate|]. destruct (forbidden forb _); [exact R|discriminate].
Qed.
End NoCrash.

Section Forbidden.
Variables (eqi : Z) (name_id : string -> ident) (ty_arity : string -> nat) (n fe : nat) (tpos tneg : node) (forb : list (list mixed)).
Let real := closure_real eqi name_id ty_arity n fe tpos tneg forb.
(** nothing is returned without a closure *)
Theorem closure_none f l : real f = Ok (false, l) -> l = [].
Proof.
  unfold real, closure_real, apply_closure. destruct (obvious_closure f); [discriminate|].
  destruct (search_inequalities _ _ f) as [ineq| | |]; try discriminate. destruct (search_closure _ _ _ _ _ f) as [ms| | |]; try discriminate. cbn.
  destruct (all_some _) as [r|]; [|discriminate]. intros E. injection E as E. eapply keep_false; [exact E|]. destruct ineq; [discriminate|reflexivity].
Qed.
(** the first answer is not a forbidden one, unless it is empty or comes from a disequality *)
Theorem closure_first f b sg l : search_inequalities eqi (add_unif n fe) f = Ok None -> real f = Ok (b, sg :: l) -> 
  names_ok (map term_part forb) (term_part sg) -> sg = [] \/ ~ retried (map term_part forb) (term_part sg).
Proof.
  intros N E C. unfold real, closure_real, apply_closure in E. destruct (obvious_closure f); [discriminate|]. rewrite N in E.
  destruct (search_closure _ _ _ _ _ f) as [ms| | |]; try discriminate. cbn in E. destruct (all_some _) as [r|]; [|discriminate].
  injection E as E. destruct (keep_first _ _ _ _ _ E) as [H|H]; [auto|right]. intros R. apply (forbidden_ok _ _ C) in R. congruence.
Qed.
(** when all the matches are forbidden, no closure *)
Theorem closure_all_forbidden f ms sgs : obvious_closure f = false -> search_inequalities eqi (add_unif n fe) f = Ok None ->
  search_closure name_id (add_unif n fe) (compute fe (add_unif n fe)) tpos tneg f = Ok ms ->
  all_some (map (fun m => to_mixed ty_arity (snd m)) ms) = Some sgs ->
  (forall sg, In sg sgs -> sg <> [] /\ names_ok (map term_part forb) (term_part sg) /\ retried (map term_part forb) (term_part sg)) ->
  real f = Ok (false, []).
Proof.
  intros O N S A H. unfold real, closure_real, apply_closure. rewrite O, N, S. cbn. rewrite A. rewrite keep_all_forbidden; [reflexivity|].
  intros m Hm. destruct (H m Hm) as (H1 & H2 & H3). split; [exact H1|]. apply forbidden_ok; assumption.
Qed.
End Forbidden.

(** ** C55: whole runs *)
Section Runs.
Variables (eqi : Z) (name_id : string -> ident) (ty_arity : string -> nat) (n fe : nat) (same : list term -> list term -> bool).
(** the search finds, on this state, a contradiction under (a substitution extended by) [s] *)
Definition finds (forb : list (list mixed)) (s : list (meta * term)) (st : state) : Prop :=
  exists f l, state_real eqi name_id ty_arity n fe same st forb = Ok (Some (f, l)) /\
    (l = [] \/ exists s', In (mixed_terms s') l /\ extends s s').
Lemma mixed_terms_inj s s' : mixed_terms s = mixed_terms s' -> s = s'.
Proof. intros H. rewrite <- (term_part_mixed s), H. apply term_part_mixed. Qed.
Lemma finds_closes (ar : signature) forb s st : ar eqi = 2%nat -> monomorphic ar ty_arity ->
  (forall x, In x (q_lf (st_q st) ++ q_atomic (st_q st)) -> first_order ar (ft_form x)) ->
  state_strict eqi name_id ty_arity n fe same st forb <> Out -> finds forb s st -> closes eqi s (branch_of st).
Proof.
  intros A2 HM Fo NO (f & l & E & H). destruct (state_sound eqi name_id ty_arity n fe same ar st A2 HM Fo forb f l NO E) as [[_ C]|[Hl C]]; [apply C|].
  destruct H as [->|(s' & Hin & X)]; [contradiction|]. destruct (C _ Hin) as (s0 & E0 & _ & _ & C0). apply mixed_terms_inj in E0. subst s0.
  eapply closes_extends; eauto.
Qed.
Theorem found_unsat (ar : signature) m g k f F s forb : wf_start g f -> grows same (plant m g k f) F -> ar eqi = 2%nat -> monomorphic ar ty_arity ->
  (forall st, In st (fo_leaves F) -> finds (forb st) s st /\ state_strict eqi name_id ty_arity n fe same st (forb st) <> Out /\
     forall x, In x (q_lf (st_q st) ++ q_atomic (st_q st)) -> first_order ar (ft_form x)) ->
  forall I (v : val I), eq_refl_in eqi I -> ~ holds f v.
Proof.
  intros W G A2 HM H. eapply grown_unsat; [exact W|exact G|]. intros st Hst. destruct (H st Hst) as (H1 & H2 & H3). eapply finds_closes; eauto.
Qed.
End Runs.
