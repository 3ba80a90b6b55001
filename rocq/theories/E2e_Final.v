(** The loaded formula: closed, its variables bound once, and its models are the counter-models of the problem. *)
From Coq Require Import ZArith List Bool String Lia Permutation.
From Verif Require Import Ast_Model Problem_Model Sem_Spec Occ_Spec Free_Spec Skolem_Spec Tableau_Spec Rename_Spec Problem_Spec
  Ast_Proofs Sem_Proofs Rename_Proofs Rename_Final Problem_Proofs
  Elab_Model Elab_Spec Elab_Final E2e_Model E2e_Spec E2e_Proofs E2e_Rename.
From Verif Require Elab_Proofs.
Import ListNotations.
Open Scope Z_scope.

(** ** the elaborated statements *)
Definition good_cstmt (g : gen) (s : cstmt) : Prop :=
  match s with CSForm _ f => form_good [] g f /\ f_tyvars f = [] | _ => False end.

Lemma elab_stmts_plain fl kappa tysym (PN : plain_names kappa) l : forall con g l' b g',
  elab_stmts fl con l g = EOk (l', b, g') -> Forall is_form l ->
  (forall r f, In (PSForm r f) l -> wk_form kappa tysym [] f /\ plain_form f) ->
  (forall r f, In (CSForm r f) l' -> f_tyvars f = []) -> tabs g ->
  tabs g' /\ tab_ext g g' /\ Forall (good_cstmt g') l'.
Proof.
  induction l as [|s r IH]; intros con g l' b g'; cbn [elab_stmts]; intros H Hl Hw Hv T.
  - injection H as <- _ <-. split; [exact T|]. split; [split; auto|constructor].
  - Elab_Proofs.ebreak H. injection H as <- _ <-. inversion Hl as [|? ? Hs Hr]; subst. destruct s as [ro f|ro n t|file]; try destruct Hs.
    cbn [elab_stmt] in E. Elab_Proofs.ebreak E. injection E as <- <- <- <-.
    unfold elab_form in E1. Elab_Proofs.ebreak E1. injection E1 as <- <- <- <-.
    destruct (Elab_Proofs.elab_gen_one _ _ _ _ _ _ _ _ E) as (h & ->). cbn [hd] in *.
    destruct (Hw ro f (or_introl eq_refl)) as (W1 & W2). assert (V : f_tyvars h = []) by (apply (Hv ro); now left).
    destruct (elab_gen_plain kappa tysym PN fl f [] None _ _ _ _ _ _ E W1 W2) as (T1 & X1 & G1); [cbn; now rewrite V|exact T|].
    destruct (IH _ _ _ _ _ E0 Hr) as (T2 & X2 & G2); auto.
    { intros r0 f0 H0. apply (Hw r0 f0). now right. }
    { intros r0 f0 H0. apply (Hv r0 f0). now right. }
    split; [exact T2|]. split; [eapply Elab_Proofs.ext_trans; eassumption|]. constructor; auto.
    cbn. inversion G1; subst. split; auto. eapply form_good_ext; eauto.
Qed.

Lemma elab_decls fl decls : forall con l g l' b g',
  elab_stmts fl con (map (fun d => PSType RType (fst d) (snd d)) decls ++ l) g = EOk (l', b, g') -> tabs g ->
  exists g1 ds l1 b1, tabs g1 /\ tab_ext g g1 /\ List.length ds = List.length decls /\ Forall (fun s => to_stmt s = SType true) ds /\
  l' = ds ++ l1 /\ elab_stmts fl (con ++ decls) l g1 = EOk (l1, b1, g').
Proof.
  induction decls as [|[n t] r IH]; intros con l g l' b g' H T.
  - exists g, [], l', b. repeat split; auto; try apply T. cbn in H. now rewrite app_nil_r.
  - cbn [map app elab_stmts elab_stmt fst snd] in H. Elab_Proofs.ebreak H. injection H as <- _ <-. Elab_Proofs.ebreak E.
    injection E as <- <- _ <-. destruct (Elab_Proofs.maker_id_step _ _ _ _ E1) as ((_ & X1) & _).
    pose proof (maker_id_tabs _ _ _ _ E1 T) as T1. pose proof (elab_type_top _ _ _ _ E2). subst.
    destruct (IH _ _ _ _ _ _ E0 T1) as (g3 & ds & l1 & b9 & T3 & X3 & L3 & D3 & -> & H3).
    exists g3, (CSType RType i t0 :: ds), l1, b9. split; [exact T3|]. split; [eapply Elab_Proofs.ext_trans; eassumption|].
    split; [cbn; now f_equal|]. split; [constructor; auto|]. split; [reflexivity|]. rewrite <- app_assoc in H3. exact H3.
Qed.

(** ** renaming one of them *)
Lemma good_of g f : tabs g -> form_good [] g f -> f_tyvars f = [] -> good_form g f.
Proof.
  intros ((T1 & T2 & _) & _ & TA) [A1 A2 A3 A4 A5 A6 A7 A8 A9] V. split; [|split; [|split]]; auto.
  - split; [|split].
    + intros i Hi. destruct (A6 i Hi) as (x & L). exact (T2 _ _ L).
    + rewrite V. intros s [].
    + intros x Hx. destruct (A8 x Hx) as (L & _). split; [exact (T2 _ _ L)|]. split; [eexists; exact L|].
      intros Hf. destruct (A7 _ Hf) as (s & Ls). exact (TA _ _ _ Ls L).
  - intros x Hx. apply A8, Hx.
Qed.

Definition sound_part (g0 : gen) (f : form) : Prop := bare f /\ fv f = [] /\ f_noid f /\ forall i, In i (f_funs f) -> is_symbol g0 i.

Lemma rename_pack g0 g f : tabs g0 -> form_good [] g0 f -> f_tyvars f = [] -> step g0 g -> Rename_Spec.clean g ->
  exists f' g', rename_variables f g = Some (f', g') /\ Rename_Spec.clean g' /\ step g g' /\ sound_part g0 f' /\
    NoDup (map tv_index (f_binders f')) /\ NoDup (map tv_name (f_binders f')) /\
    forall x, In x (f_binders f') -> cpt_term g <= tv_index x < cpt_term g' /\ ~ reg g (tv_name x) /\ reg g' (tv_name x).
Proof.
  intros T G V S CL. destruct (good_of _ _ T G V) as (A & B & C & E). apply (drawn_mono _ _ _ S) in A.
  assert (NC : no_name_clash g (map tv_name (f_binders f))).
  { apply clean_no_clash; auto. intros s Hs. apply in_map_iff in Hs as (x & <- & Hx); auto. }
  destruct (rename_main f g A B C NC) as (f' & g' & R & O).
  destruct (rename_clean f g A B C CL E) as (f2 & g2 & R2 & _ & _ & _ & _ & CL2).
  rewrite R in R2. injection R2 as <- <-. destruct O as (O1 & O2 & O3 & O4 & O5 & O6 & O7 & O8 & O9 & O10).
  destruct G as [G1 G2 G3 G4 G5 G6 G7 G8 G9]. destruct (rename_bare f g f' g' R) as (Bf & F); [repeat split; auto|].
  exists f', g'. split; auto. split; auto. split; auto. split; [|auto].
  split; auto. split; [|split; auto].
  destruct (fv f') as [|y r] eqn:Ef; auto. exfalso. destruct (G9 y (F y (or_introl eq_refl))) as (x & [] & _).
Qed.

(** ** the formulas of the problem *)
Record parts_ok (g0 g : gen) (l : list form) : Prop := {
  po_each : Forall (sound_part g0) l;
  po_nd : NoDup (map tv_index (flat_map f_binders l));
  po_ndn : NoDup (map tv_name (flat_map f_binders l));
  po_in : forall x, In x (flat_map f_binders l) -> cpt_term g0 <= tv_index x < cpt_term g /\ reg g (tv_name x) }.

Lemma parts_perm g0 g l l' : Permutation l l' -> parts_ok g0 g l -> parts_ok g0 g l'.
Proof.
  intros P [A B C E]. pose proof (Permutation_flat_map f_binders P) as Q. split.
  - now rewrite <- P.
  - now rewrite <- Q.
  - now rewrite <- Q.
  - intros x Hx. apply E. now rewrite Q.
Qed.
Lemma parts_step g0 g g' l : step g g' -> parts_ok g0 g l -> parts_ok g0 g' l.
Proof. intros (S1 & S2) [A B C E]. split; auto. intros x Hx. destruct (E x Hx). split; [lia|auto]. Qed.
Lemma parts_add g0 g g' f l : step g0 g -> step g g' -> parts_ok g0 g l -> sound_part g0 f ->
  NoDup (map tv_index (f_binders f)) -> NoDup (map tv_name (f_binders f)) ->
  (forall x, In x (f_binders f) -> cpt_term g <= tv_index x < cpt_term g' /\ ~ reg g (tv_name x) /\ reg g' (tv_name x)) ->
  parts_ok g0 g' (f :: l).
Proof.
  intros (S0 & _) (S1 & S2) [A B C E] P N1 N2 F. split.
  - constructor; auto.
  - cbn. rewrite map_app. apply NoDup_app_disj; auto. intros x H1 H2. apply in_map_iff in H1 as (y & <- & Hy).
    apply in_map_iff in H2 as (z & Ez & Hz). destruct (F y Hy) as (? & _). destruct (E z Hz) as (? & _). lia.
  - cbn. rewrite map_app. apply NoDup_app_disj; auto. intros x H1 H2. apply in_map_iff in H1 as (y & <- & Hy).
    apply in_map_iff in H2 as (z & Ez & Hz). destruct (F y Hy) as (_ & ? & _). destruct (E z Hz) as (_ & X). rewrite Ez in X. contradiction.
  - cbn. intros x Hx. apply in_app_iff in Hx as [Hx|Hx].
    + destruct (F x Hx) as (? & _ & ?). split; [lia|auto].
    + destruct (E x Hx) as (? & ?). split; [lia|auto].
Qed.

Definition the_parts (p : pstate) : list form := match neg_conj p with Some c => [c] | None => [] end ++ and_list p.
Definition good_src (g0 : gen) (s : stmt) : Prop :=
  match s with
  | SAxiom (Some f) | SConjecture (Some f) | SNegConjecture (Some f) => form_good [] g0 f /\ f_tyvars f = []
  | SType b => b = true
  | _ => False
  end.

Lemma run_parts g0 l : tabs g0 -> Forall (good_src g0) l -> forall p q, p_run l p = Some q ->
  step g0 (p_gen p) -> Rename_Spec.clean (p_gen p) -> parts_ok g0 (p_gen p) (the_parts p) ->
  step g0 (p_gen q) /\ parts_ok g0 (p_gen q) (the_parts q).
Proof.
  intros T. induction 1 as [|s r Hs _ IH]; intros p q H S CL P; cbn [p_run] in H.
  - now injection H as <-.
  - fold p_run in H. destruct (p_step s p) as [p1|] eqn:E; [|discriminate].
    assert (K : step g0 (p_gen p1) /\ Rename_Spec.clean (p_gen p1) /\ parts_ok g0 (p_gen p1) (the_parts p1)).
    { destruct s as [[f|]|[f|]|[f|]|given| |o]; try contradiction; cbn [p_step] in E.
      - destruct Hs as (G & V). destruct (rename_pack g0 (p_gen p) f T G V S CL) as (f' & g' & R & C' & S' & P' & N1 & N2 & F).
        unfold do_axiom in E. rewrite R in E. injection E as <-. cbn.
        split; [eapply step_tr; eassumption|]. split; auto.
        apply (parts_perm _ _ (f' :: the_parts p)); [|eapply parts_add; eauto].
        unfold the_parts. cbn. rewrite app_assoc. apply Permutation_cons_append.
      - destruct Hs as (G & V). destruct (rename_pack g0 (p_gen p) f T G V S CL) as (f' & g' & R & C' & S' & P' & N1 & N2 & F).
        destruct (neg_conj p) eqn:En; [discriminate|]. rewrite R in E. cbn in E. injection E as <-. cbn.
        split; [eapply step_tr; eassumption|]. split; [exact C'|].
        unfold the_parts in *. rewrite En in P. cbn in P |- *.
        destruct (parts_add g0 (p_gen p) g' f' (and_list p) S S' P P' N1 N2 F) as [Q1 Q2 Q3 Q4]. split; auto.
        inversion Q1; subst. constructor; auto.
      - destruct Hs as (G & V). destruct (rename_pack g0 (p_gen p) f T G V S CL) as (f' & g' & R & C' & S' & P' & N1 & N2 & F).
        destruct (neg_conj p) eqn:En; [discriminate|]. rewrite R in E. injection E as <-. cbn.
        split; [eapply step_tr; eassumption|]. split; [exact C'|].
        unfold the_parts in *. rewrite En in P. cbn in P |- *. eapply parts_add; eauto.
      - cbn in Hs. subst given. injection E as <-. auto. }
    destruct K as (K1 & K2 & K3). eapply IH; eauto.
Qed.

(** ** the formula of the search *)
Lemma ftv_incl f : f_tyvars f = [] -> ftv f = [].
Proof.
  assert (U : forall vs, fold_right unbind_ty [] vs = []).
  { induction vs as [|x r IH]; cbn; auto. rewrite IH. unfold unbind_ty. now destruct (is_ttype (tv_ty x)). }
  induction f using form_ind'; cbn; intros V; auto; try (apply app_eq_nil in V as (V1 & V2); now rewrite IHf1, IHf2).
  - now rewrite IHf, U.
  - now rewrite IHf, U.
  - change (flat_map f_tyvars fs = []) in V. rewrite flat_nil in *. rewrite Forall_forall in *. auto.
  - change (flat_map f_tyvars fs = []) in V. rewrite flat_nil in *. rewrite Forall_forall in *. auto.
Qed.
Lemma wf_of g0 g f : tabs g0 -> step g0 g -> parts_ok g0 g [f] -> wf_start g f.
Proof.
  intros ((T1 & _) & _) (S1 & _) [A B C E]. cbn in *. rewrite app_nil_r in *. inversion A as [|? ? (A1 & A2 & A3 & A4) _]; subst.
  destruct A1 as (M & TM & TV & TB). split; [|auto]. split; auto.
  - now apply ftv_incl.
  - intros x Hx Hf. destruct (A4 _ Hf) as (s & L). apply T1 in L. destruct (E x Hx) as (? & _). lia.
  - intros i [Hi|[Hi|Hi]].
    + destruct (A4 _ Hi) as (s & L). apply T1 in L. lia.
    + rewrite M in Hi. destruct Hi.
    + apply in_map_iff in Hi as (x & <- & Hx). apply (E x Hx).
Qed.
Lemma sound_and g0 i fs : Forall (sound_part g0) fs <-> sound_part g0 (And i fs).
Proof.
  unfold sound_part. rewrite (bare_list And) by auto. cbn [fv]. rewrite flat_nil, !Forall_forall. split.
  - intros H. split; [intros f Hf; now apply H|]. split; [intros f Hf; now apply H|]. split.
    + intros b Hb. cbn in Hb. apply in_flat_map in Hb as (f & Hf & Hb). destruct (H f Hf) as (_ & _ & N & _). exact (N b Hb).
    + intros j Hj. change (In j (flat_map f_funs fs)) in Hj. apply in_flat_map in Hj as (f & Hf & Hj). destruct (H f Hf) as (_ & _ & _ & X). exact (X j Hj).
  - intros (A & B & C & E) f Hf. split; auto. split; auto. split.
    + intros b Hb. apply C. cbn. apply in_flat_map. eauto.
    + intros j Hj. apply E. change (In j (flat_map f_funs fs)). apply in_flat_map. eauto.
Qed.
Lemma parts_and g0 g i fs : parts_ok g0 g fs -> parts_ok g0 g [And i fs].
Proof.
  intros [A B C E]. split; cbn; rewrite ?app_nil_r; auto. constructor; auto. now apply sound_and.
Qed.
Lemma flatten1_parts g0 f : flat_map f_binders (flatten_and1 f) = f_binders f /\ (sound_part g0 f -> Forall (sound_part g0) (flatten_and1 f)).
Proof.
  induction f using form_ind'; try (cbn; rewrite ?app_nil_r; split; auto; fail).
  cbn [flatten_and1 f_binders]. rewrite <- sound_and. split.
  - induction H as [|a r (Ha & _) _ IH]; cbn; auto. now rewrite flat_map_app, Ha, IH.
  - intros S. induction H as [|a r (_ & Ha) _ IH]; cbn; auto. inversion S; subst. apply Forall_app. auto.
Qed.
Lemma nodup_tail {A} (l l' : list A) : NoDup (l ++ l') -> NoDup l'.
Proof. induction l as [|a r IH]; cbn; auto. intros N. inversion N; auto. Qed.
Lemma flatten_parts g0 g l c : parts_ok g0 g (l ++ c) -> parts_ok g0 g (flatten_and l ++ c).
Proof.
  intros [A B C E]. assert (X : flat_map f_binders (flatten_and l ++ c) = flat_map f_binders (l ++ c)).
  { rewrite !flat_map_app. f_equal. unfold flatten_and. induction l as [|a r IH]; cbn; auto.
    rewrite flat_map_app, (proj1 (flatten1_parts g0 a)). f_equal. apply IH.
    - now inversion A.
    - cbn in B. rewrite map_app in B. now apply nodup_tail in B.
    - cbn in C. rewrite map_app in C. now apply nodup_tail in C.
    - intros x Hx. apply E. cbn. apply in_app_iff. auto. }
  split; rewrite ?X; auto.
  apply Forall_app in A as (A1 & A2). apply Forall_app. split; auto. unfold flatten_and.
  clear - A1. induction A1 as [|a r Ha _ IH]; cbn; auto. apply Forall_app. split; auto. now apply flatten1_parts.
Qed.
Lemma finish_wf g0 p f g : tabs g0 -> step g0 (p_gen p) -> parts_ok g0 (p_gen p) (the_parts p) -> p_finish p = (Some f, g) -> wf_start g f.
Proof.
  intros T S P. unfold p_finish, the_parts in *. destruct (neg_conj p) as [c|]; destruct (and_list p) as [|a l] eqn:El; cbn -[flatten_and] in *.
  - intros [= <- <-]. now apply (wf_of g0).
  - intros [= <- <-]. apply (wf_of g0); auto. apply (parts_and _ _ _ (flatten_and (a :: l) ++ [c])). apply flatten_parts.
    apply (parts_perm _ _ (c :: a :: l)); [apply Permutation_cons_append|].
    destruct P as [P1 P2 P3 P4]. split; auto.
  - discriminate.
  - intros [= <- <-]. apply (wf_of g0); auto. apply (parts_and _ _ _ (a :: l)). destruct P as [P1 P2 P3 P4]. split; auto.
Qed.

(** ** the whole loading *)
Lemma agrees_goal tysym G l fs : Forall2 (stmt_agrees tysym G) l fs -> (forall s, In s l -> handled s = true) ->
  filter is_conjecture (map to_stmt fs) = map to_stmt (filter (fun s => is_conjecture (to_stmt s)) fs) /\
  List.length (filter is_conjecture (map to_stmt fs)) = List.length (filter is_goal l) /\
  existsb has_conj (map to_stmt fs) = existsb is_goal l /\ (l <> [] -> existsb has_form (map to_stmt fs) = true).
Proof.
  induction 1 as [|s s' l fs A _ IH]; intros Hh; [repeat split; auto; intros []; reflexivity|].
  destruct IH as (I1 & I2 & I3 & I4); [intros; apply Hh; now right|].
  assert (Hs : handled s = true) by (apply Hh; now left).
  destruct s as [r f| |]; try discriminate. destruct s' as [r' f'| |]; try contradiction. cbn in A. destruct A as (-> & _).
  destruct r; try discriminate; cbn; rewrite ?I1, ?I3; repeat split; auto.
  all: try (rewrite <- I2, <- I1; reflexivity). all: try (rewrite <- I1; cbn; lia).
Qed.

Lemma good_src_of G tysym l fs : Forall2 (stmt_agrees tysym G) l fs -> (forall s, In s l -> handled s = true) -> Forall (good_cstmt G) fs ->
  Forall (good_src G) (map to_stmt fs).
Proof.
  induction 1 as [|s s' l fs A _ IH]; intros Hh H; [constructor|]. inversion H; subst. cbn. constructor; [|apply IH; auto; intros; apply Hh; now right].
  assert (Hs : handled s = true) by (apply Hh; now left).
  destruct s as [r f| |]; try discriminate. destruct s' as [r' f'| |]; try contradiction. cbn in A. destruct A as (-> & _).
  destruct r; try discriminate; cbn; auto.
Qed.

Lemma counter_of tysym G l fs : Forall2 (stmt_agrees tysym G) l fs -> (forall s, In s l -> handled s = true) ->
  forall (I : interp) (N : ninterp (D I) (T I)) (v : val I) env, matches I N G -> defined_untyped N ->
  (countermodel v (map to_stmt fs) <-> refutes N tysym l env).
Proof.
  intros F Hh I N v env M U. unfold refutes. induction F as [|s s' l fs A _ IH]; cbn; [split; auto|].
  rewrite Forall_cons_iff, <- IH by (intros; apply Hh; now right).
  assert (Hs : handled s = true) by (apply Hh; now left).
  destruct s as [r f| |]; try discriminate. destruct s' as [r' f'| |]; try contradiction. cbn in A. destruct A as (-> & A).
  specialize (A I N v env M U). unfold countermodel.
  destruct r; try discriminate; cbn; rewrite A; reflexivity.
Qed.

Lemma counter_decls {I} (v : val I) ds l : Forall (fun s => to_stmt s = SType true) ds ->
  (countermodel v (map to_stmt (ds ++ l)) <-> countermodel v (map to_stmt l)).
Proof. induction 1 as [|s r Hs _ IH]; cbn; [reflexivity|]. rewrite Hs. cbn. unfold countermodel in IH. rewrite IH. intuition. Qed.
Lemma goal_decls ds l : Forall (fun s => to_stmt s = SType true) ds ->
  existsb has_conj (map to_stmt (ds ++ l)) = existsb has_conj (map to_stmt l) /\
  existsb has_form (map to_stmt (ds ++ l)) = existsb has_form (map to_stmt l) /\
  filter is_conjecture (map to_stmt (ds ++ l)) = filter is_conjecture (map to_stmt l).
Proof. induction 1 as [|s r Hs _ IH]; cbn; auto. rewrite Hs. exact IH. Qed.

Theorem loaded_ok fl check kappa decls l g l' b g1 :
  to_internal_syntax fl (file decls l) g = EOk (l', b, g1) -> tab_ok g -> Rename_Spec.clean g -> apart g ->
  plain_problem kappa decls l -> (forall r f, In (CSForm r f) l' -> f_tyvars f = []) ->
  exists f g2,
    presearch fl check (file decls l) g = (if b && negb (check f) then Stopped else Loaded f (existsb is_goal l) g2) /\
    wf_start g2 f /\ tab_ok g1 /\ tab_ext g g1 /\
    forall (I : interp) (N : ninterp (D I) (T I)) (v : val I) env, matches I N g1 -> defined_untyped N ->
      (holds f v <-> refutes N (sig_tysym (initial_context ++ decls)) l env).
Proof.
  intros H T1 T2 T3 [P1 P2 P3 P4 P5 P6 P7] V. assert (T : tabs g) by (split; auto).
  assert (Hf : Forall is_form l).
  { apply Forall_forall. intros s Hs. apply P1 in Hs. destruct s as [[]| |]; try discriminate; exact Logic.I. }
  destruct (elab_file _ kappa _ _ _ _ _ _ H T1 Hf P4 P5 (fun r f Hi => proj1 (P7 r f Hi))) as (_ & ds0 & fs & El & Len & Ag).
  unfold to_internal_syntax in H. destruct (elab_decls _ _ _ _ _ _ _ _ H T) as (g3 & ds & l1 & b1 & T' & X1 & Len' & Ds & El' & H1).
  assert (ds0 = ds /\ fs = l1) as (-> & ->).
  { rewrite El' in El. clear - El Len Len'. rewrite <- Len' in Len. clear Len'. revert ds Len El.
    induction ds0 as [|a r IH]; intros [|b s] Len El; cbn in *; try discriminate; auto.
    injection El as -> El. injection Len as Len. destruct (IH s Len El). now subst. }
  destruct (elab_stmts_plain _ _ _ P6 _ _ _ _ _ _ H1 Hf P7) as (T'' & X2 & G2); auto.
  { intros r f Hi. apply (V r f). rewrite El. apply in_app_iff. auto. }
  destruct (goal_decls ds l1 Ds) as (Q1 & Q2 & Q3). destruct (agrees_goal _ _ _ _ Ag P1) as (_ & R1 & R2 & R3).
  assert (GF : Forall (good_src g1) (map to_stmt (ds ++ l1))).
  { rewrite map_app. apply Forall_app. split; [|now apply (good_src_of _ _ _ _ Ag P1)].
    apply Forall_forall. intros s Hs. apply in_map_iff in Hs as (c & <- & Hc). rewrite Forall_forall in Ds. rewrite (Ds c Hc). reflexivity. }
  assert (Gd : good_file g1 (map to_stmt (ds ++ l1))).
  { split; [|rewrite Q3, R1; exact P3]. clear - GF T''. induction GF as [|s r Hs _ IH]; cbn; auto. split; auto.
    destruct s as [[f|]|[f|]|[f|]|given| |o]; try contradiction; cbn in *; try (apply good_of; tauto). exact Hs. }
  destruct (assembled_ok g1 _ (proj1 (proj2 T'')) Gd) as (fo & A1 & A2 & A3).
  destruct fo as [f|]; [|exfalso; pose proof (proj1 A2 eq_refl) as X; rewrite Q2, R3 in X; [discriminate|exact P2]].
  unfold statement_list_to_formula in A1. destruct (p_run (map to_stmt (ds ++ l1)) (mkP [] None false g1 false)) as [q|] eqn:Eq; [|discriminate].
  destruct (p_finish q) as [fo g2] eqn:Efin. cbn in A1. injection A1 as -> Et Ec.
  exists f, g2. split; [|split; [|split; [apply T''|split; [eapply Elab_Proofs.ext_trans; eassumption|]]]].
  - unfold presearch, to_internal_syntax. rewrite H, El'. unfold assemble. rewrite Eq, Efin, Et, Ec, Q1, R2, orb_false_r.
    destruct b, (check f); reflexivity.
  - destruct (run_parts g1 _ T'' GF _ _ Eq) as (S' & P').
    + apply step_refl.
    + apply T''.
    + split; cbn; [constructor..|intros x []].
    + eapply finish_wf; eauto.
  - intros I N v env M U. rewrite (A3 f eq_refl I v), (counter_decls v ds l1 Ds). now apply (counter_of _ g1).
Qed.
