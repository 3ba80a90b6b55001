(** Proofs about the expansion: it follows the derivations of Tableau_Spec.v (C53) and terminates (C54). *)
From Coq Require Import ZArith List Bool String Lia Wellfounded.
From Verif Require Import LibSet_Model Ast_Model Problem_Model Rules_Model Sem_Spec Occ_Spec Free_Spec Rules_Spec Skolem_Spec
  Tableau_Spec LibSet_Proofs Ast_Proofs Sem_Proofs Rules_Proofs Free_Proofs Inst_Proofs Tableau_Proofs Expand_Model ExpandSets_Proofs Expand_Spec.
Import ListNotations.
Open Scope list_scope.
Open Scope Z_scope.

(** ** what instantiation leaves unchanged *)
Fixpoint shape (f : form) : form :=
  match f with
  | All _ vs g => All 0 (map (fun _ => mkTV EmptyString 0 (TyConstr EmptyString [])) vs) (shape g)
  | Ex _ vs g => Ex 0 (map (fun _ => mkTV EmptyString 0 (TyConstr EmptyString [])) vs) (shape g)
  | Or _ fs => Or 0 (map shape fs)
  | And _ fs => And 0 (map shape fs)
  | Equ _ a b => Equ 0 (shape a) (shape b)
  | Imp _ a b => Imp 0 (shape a) (shape b)
  | Not _ g => Not 0 (shape g)
  | Pred _ _ _ _ => Top 0
  | Top _ => Top 0
  | Bot _ => Bot 0
  end.
Fixpoint w (f : form) : nat :=
  match f with
  | All _ vs g | Ex _ vs g => S (List.length vs + w g)
  | Or _ fs | And _ fs => S (list_sum (map (fun g => S (w g)) fs))
  | Equ _ a b | Imp _ a b => 3 + w a + w b
  | Not _ g => S (w g)
  | Pred _ _ _ _ | Top _ | Bot _ => 1
  end%nat.
Lemma map_ext_F {A B} (f g : A -> B) l : Forall (fun a => f a = g a) l -> map f l = map g l.
Proof. induction 1; cbn; congruence. Qed.
Lemma w_shape f : w (shape f) = w f.
Proof.
  induction f using form_ind'; cbn; rewrite ?map_length; auto; try (rewrite map_map; f_equal; f_equal; apply map_ext_F;
    eapply Forall_impl; [|exact H]; cbn; intros; congruence); try lia.
Qed.
Lemma binds_list (fs : list form) : (fix go l := match l with [] => True | a :: r => binds a /\ go r end) fs <-> Forall binds fs.
Proof. induction fs; split; auto; intros K; [constructor; tauto|inversion K; tauto]. Qed.
Lemma binds_shape f : binds (shape f) <-> binds f.
Proof.
  assert (V : forall vs : list tvar, map (fun _ => mkTV EmptyString 0 (TyConstr EmptyString [])) vs <> [] <-> vs <> []).
  { intros [|]; cbn; split; congruence. }
  induction f using form_ind'; cbn; rewrite ?V; try tauto;
  rewrite !binds_list; induction H; cbn; split; auto; intros K; inversion K; subst; constructor; tauto.
Qed.
Lemma replace_shape i n u f : forall f' b, replace_term (Var i n) u f = Some (f', b) -> shape f' = shape f.
Proof.
  induction f using form_ind'; cbn; intros f' b E;
  repeat match type of E with
  | context [match replace_term ?a ?b ?c with _ => _ end] => destruct (replace_term a b c) as [[? ?]|] eqn:?; [|discriminate]
  end; try (injection E as <- <-; cbn; f_equal; eauto; fail).
  - match type of E with match ?G with _ => _ end = _ => destruct G as [[l b']|] eqn:EL; [|discriminate] end.
    injection E as <- <-. cbn. f_equal. revert l b' EL. induction H; intros l' b' EL; [injection EL as <- <-; auto|].
    destruct (replace_term (Var i n) u x) as [[x' b1]|] eqn:Ex; [|discriminate].
    match type of EL with match ?G with _ => _ end = _ => destruct G as [[l1 b2]|] eqn:EL'; [|discriminate] end.
    injection EL as <- <-. cbn. f_equal; eauto.
  - match type of E with match ?G with _ => _ end = _ => destruct G as [[l b']|] eqn:EL; [|discriminate] end.
    injection E as <- <-. cbn. f_equal. revert l b' EL. induction H; intros l' b' EL; [injection EL as <- <-; auto|].
    destruct (replace_term (Var i n) u x) as [[x' b1]|] eqn:Ex; [|discriminate].
    match type of EL with match ?G with _ => _ end = _ => destruct G as [[l1 b2]|] eqn:EL'; [|discriminate] end.
    injection EL as <- <-. cbn. f_equal; eauto.
  - destruct (replace_tt_list (Var i n) u args) as [[? ?]|]; [|discriminate]. injection E as <- <-. reflexivity.
Qed.
Lemma subst_ty_shape o u f : shape (form_subst_ty o u f) = shape f.
Proof.
  induction f using form_ind'; cbn; rewrite ?map_map; auto; try (f_equal; auto; fail);
  f_equal; apply map_ext_F; eapply Forall_impl; [|exact H| |exact H]; auto.
Qed.

(** ** the rules shrink formulas *)
Definition ws (l : list fat) : nat := list_sum (map (fun x => w (ft_form x)) l).
Lemma ws_app l l' : ws (l ++ l') = (ws l + ws l')%nat.
Proof. unfold ws. rewrite map_app, list_sum_app. reflexivity. Qed.
Lemma ws_nil : ws [] = 0%nat. Proof. reflexivity. Qed.
Lemma ws_cons x l : ws (x :: l) = (w (ft_form x) + ws l)%nat. Proof. reflexivity. Qed.
Lemma lsum_nil : list_sum [] = 0%nat. Proof. reflexivity. Qed.
Lemma lsum_cons x l : list_sum (x :: l) = (x + list_sum l)%nat. Proof. reflexivity. Qed.
Arguments ws : simpl never.
Arguments list_sum : simpl never.
Ltac wsl := repeat (progress (cbn in *; rewrite ?ws_cons, ?ws_nil, ?lsum_cons, ?lsum_nil, ?map_app, ?list_sum_app in * )); lia.
Lemma w_pos f : (1 <= w f)%nat. Proof. destruct f; cbn; lia. Qed.

Section Same.
Variable same : list term -> list term -> bool.

Lemma ws_append l x : (ws (fl_append same l x) <= ws l + w (ft_form x))%nat.
Proof. unfold fl_append. destruct (fl_contains same l x); [lia|]. rewrite ws_app. wsl. Qed.
Lemma alpha_not_or_ws fs terms : forall res g,
  (ws (fst (alpha_not_or same fs terms res g)) <= ws res + list_sum (map (fun f => S (w f)) fs))%nat.
Proof.
  induction fs as [|f fs IH]; intros res g; cbn [alpha_not_or]; [wsl|].
  destruct (maker_not f g) as [nf g1] eqn:E. assert (W : w nf = S (w f)) by (injection E as <- <-; reflexivity).
  specialize (IH (fl_append same res (mkFat nf terms)) g1). pose proof (ws_append res (mkFat nf terms)) as K.
  wsl.
Qed.
Lemma fold_append_ws fs terms : forall res,
  (ws (fold_left (fun res f => fl_append same res (mkFat f terms)) fs res) <= ws res + list_sum (map w fs))%nat.
Proof.
  induction fs as [|f fs IH]; intros res; cbn; [wsl|].
  specialize (IH (fl_append same res (mkFat f terms))). pose proof (ws_append res (mkFat f terms)) as K. wsl.
Qed.
Lemma sum_S (fs : list form) : (list_sum (map w fs) <= list_sum (map (fun f => S (w f)) fs))%nat.
Proof. induction fs; wsl. Qed.
Lemma alpha_ws x g ys g' : conjunctive (ft_form x) -> apply_alpha same x g = (ys, g') -> (ws ys < w (ft_form x))%nat.
Proof.
  destruct x as [f terms]. cbn [ft_form]. intros K E. inversion K; subst; unfold apply_alpha in E; cbn [ft_form ft_terms] in E.
  - injection E as <- <-. pose proof (fold_append_ws fs terms []). pose proof (sum_S fs). wsl.
  - pose proof (alpha_not_or_ws fs terms [] g) as H. rewrite E in H. wsl.
  - destruct (maker_not b g) as [nb g1] eqn:En. assert (W : w nb = S (w b)) by (injection En as <- <-; reflexivity).
    injection E as <- <-. pose proof (ws_append (fl_append same [] (mkFat a terms)) (mkFat nb terms)) as H. wsl.
  - injection E as <- <-. wsl.
Qed.
Lemma beta_not_and_ws fs terms : forall g ys, In ys (fst (beta_not_and fs terms g)) ->
  (ws ys <= list_sum (map (fun f => S (w f)) fs))%nat.
Proof.
  induction fs as [|f fs IH]; intros g ys; cbn [beta_not_and]; [intros []|].
  destruct (maker_not f g) as [nf g1] eqn:E. assert (W : w nf = S (w f)) by (injection E as <- <-; reflexivity).
  destruct (beta_not_and fs terms g1) as [l g2] eqn:E2. cbn [fst]. intros [<-|H].
  - wsl.
  - specialize (IH g1 ys). rewrite E2 in IH. specialize (IH H). wsl.
Qed.
Lemma beta_ws x g yss g' ys : disjunctive (ft_form x) -> apply_beta x g = (yss, g') -> In ys yss -> (ws ys < w (ft_form x))%nat.
Proof.
  destruct x as [f terms]. cbn [ft_form]. intros K E H. inversion K; subst; unfold apply_beta in E; cbn [ft_form ft_terms] in E;
  try (cbn in E; injection E as <- <-; cbn in H; intuition (subst; wsl)).
  - injection E as <- <-. apply in_map_iff in H as (f & <- & H). cbn. apply in_split in H as (l1 & l2 & ->).
    wsl.
  - pose proof (beta_not_and_ws fs terms g ys) as B. rewrite E in B. specialize (B H). wsl.
Qed.
Lemma gamma_ws x index g y m g' : apply_gamma x index g = Some (y, m, g') -> (w (ft_form y) < w (ft_form x))%nat.
Proof.
  unfold apply_gamma. destruct x as [f terms]. cbn [ft_form ft_terms].
  assert (R : forall vs ex h, real_instantiate vs index ex h terms g = Some (y, m, g') ->
    (w (ft_form y) < w h + List.length vs + if ex then 2 else 1)%nat).
  { intros vs ex h. unfold real_instantiate. destruct vs as [|v rest]; [discriminate|].
    set (r := if is_ttype (tv_ty v) then _ else _). destruct r as [[[[sub' terms'] m'] g1]|] eqn:ER; [|discriminate].
    assert (W : w sub' = w h).
    { subst r. rewrite <- (w_shape sub'), <- (w_shape h). f_equal. destruct (is_ttype (tv_ty v)).
      - destruct (maker_tymeta _ _ _). injection ER as <- <- <- <-. apply subst_ty_shape.
      - destruct (maker_meta _ _ _ _) as [m0 g0]. destruct (subst_var_meta _ _ _ _) as [s'|] eqn:ES; [|discriminate].
        injection ER as <- <- <- <-. unfold subst_var_meta in ES.
        destruct (replace_term _ _ h) as [[h' b]|] eqn:EH; [|discriminate]. injection ES as <-. eapply replace_shape; eauto. }
    destruct rest as [|v2 rest]; destruct ex; cbn; intros E; injection E as <- <- <-; cbn; lia. }
  destruct f as [| | | | | |i f| | |]; try discriminate.
  - intros E. apply R in E. cbn in *. lia.
  - destruct f; try discriminate. intros E. apply R in E. cbn in *. lia.
Qed.
Lemma delta_ws s x mm mc g y s' g' : apply_delta s x mm mc g = Some (y, s', g') -> (w (ft_form y) < w (ft_form x))%nat.
Proof.
  unfold apply_delta. destruct x as [f terms]. cbn [ft_form ft_terms].
  destruct (mset_union (nodeCpy mm) mc) as [metas|]; [|discriminate].
  destruct (skolemize s f metas g) as [[[h s1] g1]|] eqn:E; [|discriminate]. intros H; injection H as <- <- <-. cbn [ft_form].
  assert (R : forall vs neg h0, real_skolemize s f h0 vs metas neg g = Some (h, s1, g1) ->
    (w h < w h0 + List.length vs + if neg then 2 else 1)%nat).
  { clear E. intros vs neg h0. unfold real_skolemize. destruct vs as [|x rest]; [discriminate|].
    set (r := if is_ttype (tv_ty x) then _ else _). destruct r as [[[res s2] g2]|] eqn:ER; [|discriminate].
    assert (W : w res = w h0).
    { subst r. rewrite <- (w_shape res), <- (w_shape h0). f_equal. destruct (is_ttype (tv_ty x)).
      - destruct (maker_id _ _) as [i1 g3]. destruct (maker_id _ g3) as [i2 g4]. injection ER as <- <- <-. apply subst_ty_shape.
      - unfold sko_skolemize in ER. destruct (sko_symbol s f x g) as [[sym s3] g3].
        destruct (sko_args s h0 metas) as [args|]; [|discriminate].
        destruct (replace_term _ _ h0) as [[h' b]|] eqn:EH; [|discriminate]. injection ER as <- <- <-. eapply replace_shape; eauto. }
    destruct rest as [|v2 rest]; destruct neg; cbn; intros E; injection E as <- <- <-; cbn; lia. }
  destruct f as [| | | | | |i f| | |]; try discriminate; cbn [skolemize] in E.
  - apply R in E. cbn in *. lia.
  - destruct f; try discriminate. apply R in E. cbn in *. lia.
Qed.

(** ** receiving the new formulas *)
Definition relf (q : queues) (lf : list fat) : queues := mkQ lf (q_atomic q) (q_alpha q) (q_beta q) (q_delta q) (q_gamma q).
Definition pend (q : queues) : nat := (ws (q_alpha q) + ws (q_beta q) + ws (q_delta q) + ws (q_gamma q))%nat.
Definition sorted (q : queues) : Prop := sorted_queues q.

Lemma dispatch_lf x q : q_lf (dispatch same x q) = q_lf q.
Proof. unfold dispatch. destruct (kind_of_rule (ft_form x)); reflexivity. Qed.
Lemma dispatch_pend x q : (pend (dispatch same x q) <= pend q + w (ft_form x))%nat.
Proof.
  unfold dispatch, pend. destruct (kind_of_rule (ft_form x)); cbn [q_alpha q_beta q_delta q_gamma]; try (pose proof (ws_append (q_alpha q) x));
  try (pose proof (ws_append (q_beta q) x)); try (pose proof (ws_append (q_delta q) x));
  try (pose proof (ws_append (q_gamma q) x)); lia.
Qed.
Lemma dispatch_keeps x q : incl (q_gamma q) (q_gamma (dispatch same x q)).
Proof.
  unfold dispatch. destruct (kind_of_rule (ft_form x)); cbn; try apply incl_refl. unfold fl_append.
  destruct (fl_contains same (q_gamma q) x); [apply incl_refl|apply incl_appl, incl_refl].
Qed.
Lemma append_nonempty l x : fl_append same l x <> [].
Proof.
  unfold fl_append. destruct (fl_contains same l x) eqn:E; [|destruct l; discriminate]. intros ->. discriminate E.
Qed.

(** what [receive] does to the queues *)
Record received (lf : list fat) (q q' : queues) : Prop := {
  rc_lf : q_lf q' = lf;
  rc_in : forall y, in_queues y q' -> In y lf \/ in_queues y (relf q lf);
  rc_sorted : sorted_queues q -> sorted_queues q';
  rc_pend : (pend q' <= pend q + ws lf)%nat;
  rc_gamma : q_gamma q <> [] \/ (exists x, In x lf /\ universal (ft_form x)) -> q_gamma q' <> [] }.
Lemma receive_loop_ok l : forall q atoms q' atoms', receive_loop same l q atoms = Some (q', atoms') ->
  q_lf q' = q_lf q /\ (forall y, in_queues y q' -> in_queues y q \/ In y l) /\ (sorted_queues q -> sorted_queues q') /\
  (exists ex, atoms' = atoms ++ ex /\ incl ex l /\ (pend q' + ws ex <= pend q + ws l)%nat) /\
  (q_gamma q <> [] \/ (exists x, In x l /\ universal (ft_form x)) -> q_gamma q' <> []).
Proof.
  induction l as [|f r IH]; intros q atoms q' atoms' E; cbn in E.
  - injection E as <- <-. split; auto. split; auto. split; auto. split.
    + exists []. rewrite app_nil_r. split; auto. split; [apply incl_refl|]. rewrite ws_nil. lia.
    + intros [K|(x & [] & _)]; auto.
  - assert (C : kind_of_rule (ft_form f) = KAtomic /\ receive_loop same r q (atoms ++ [f]) = Some (q', atoms') \/
                kind_of_rule (ft_form f) <> KAtomic /\ receive_loop same r (dispatch same f q) atoms = Some (q', atoms')).
    { destruct (kind_of_rule (ft_form f)); try (right; split; [discriminate|exact E]).
      destruct (obvious_closure (ft_form f)); [discriminate|auto]. }
    clear E. destruct C as [[K E]|[K E]]; apply IH in E as (A1 & A2 & A3 & (ex & -> & A4 & A5) & A6).
    + split; auto. split; [intros y Hy; apply A2 in Hy as [Hy|Hy]; [auto|right; right; auto]|]. split; auto. split.
      * exists (f :: ex). rewrite <- app_assoc. split; auto. split; [apply incl_cons; [left; auto|apply incl_tl; auto]|].
        rewrite !ws_cons. lia.
      * intros [H|(x & [->|H] & U)]; apply A6; eauto. destruct (kind_families (ft_form x)) as (_ & _ & _ & _ & F).
        apply F in U. congruence.
    + rewrite dispatch_lf in A1. split; auto. split; [|split; [|split]].
      * intros y Hy. apply A2 in Hy as [Hy|Hy]; [|right; right; auto]. apply dispatch_in in Hy as [Hy|[-> _]]; [auto|right; left; auto].
      * intros S. apply A3, dispatch_sorted, S.
      * exists ex. split; auto. split; [apply incl_tl; auto|]. pose proof (dispatch_pend f q). rewrite ws_cons. lia.
      * intros H. apply A6. destruct H as [H|(x & [->|H] & U)]; [left|left|right; eauto].
        -- intros N. pose proof (dispatch_keeps f q) as I. rewrite N in I. destruct (q_gamma q) as [|a l]; [auto|]. destruct (I a). left; auto.
        -- destruct (kind_families (ft_form x)) as (_ & _ & _ & _ & F). apply F in U. unfold dispatch. rewrite U. cbn. apply append_nonempty.
Qed.
Lemma dispatch_all_ok l : forall q, let q' := fold_left (fun q x => dispatch same x q) l q in
  q_lf q' = q_lf q /\ (forall y, in_queues y q' -> in_queues y q \/ In y l) /\ (sorted_queues q -> sorted_queues q') /\
  (pend q' <= pend q + ws l)%nat /\ (q_gamma q <> [] -> q_gamma q' <> []).
Proof.
  induction l as [|f r IH]; intros q; cbn.
  - split; auto. split; auto. split; auto. rewrite ws_nil. split; [lia|auto].
  - destruct (IH (dispatch same f q)) as (A1 & A2 & A3 & A4 & A5). rewrite dispatch_lf in A1. split; auto. split; [|split; [|split]].
    + intros y Hy. apply A2 in Hy as [Hy|Hy]; [|auto]. apply dispatch_in in Hy as [Hy|[-> _]]; auto.
    + intros S. apply A3, dispatch_sorted, S.
    + pose proof (dispatch_pend f q). rewrite ws_cons. lia.
    + intros H. apply A5. intros N. pose proof (dispatch_keeps f q) as I. rewrite N in I. destruct (q_gamma q) as [|a l]; [auto|]. destruct (I a). left; auto.
Qed.
Lemma receive_ok lf q q' : receive same lf q = Some q' -> received lf q q'.
Proof.
  unfold receive. destruct (receive_loop same lf _ []) as [[q1 atoms]|] eqn:E; [|discriminate]. intros H; injection H as <-.
  apply receive_loop_ok in E as (A1 & A2 & A3 & (ex & -> & A4 & A5) & A6). cbn [app q_lf q_gamma] in *.
  destruct (dispatch_all_ok ex q1) as (B1 & B2 & B3 & B4 & B5). constructor; auto.
  - congruence.
  - intros y Hy. apply B2 in Hy as [Hy|Hy]; [apply A2 in Hy as [Hy|Hy]; auto|auto].
  - unfold pend in *. cbn in *. lia.
Qed.

(** ** the invariant of a state *)
Definition universals (l : list (fat * Z)) : Prop := forall x, In x (map fst l) -> universal (ft_form x).
Record good (st : state) : Prop := {
  gd_sorted : sorted_queues (st_q st);
  gd_mg : universals (st_mg st);
  gd_mm : mok (st_mm st);
  gd_mc : mok (st_mc st) }.
Lemma mg_index_ok x mg i mg' : universal (ft_form x) -> universals mg -> mg_index same x mg = (i, mg') ->
  universals mg' /\ forall y, In y (map fst mg') -> y = x \/ In y (map fst mg).
Proof.
  intros U UM. unfold mg_index. destruct (mg_index_from same 0 x mg); intros E; injection E as <- <-; [auto|].
  assert (H : forall y, In y (map fst (mg ++ [(x, 1)])) -> y = x \/ In y (map fst mg)).
  { intros y. rewrite map_app, in_app_iff. intros [H|[<-|[]]]; auto. }
  split; [|exact H]. intros y Hy. apply H in Hy as [->|Hy]; auto.
Qed.
Lemma mg_incr_ok l : forall i f l', mg_incr l i = Some (f, l') -> In f (map fst l) /\ map fst l' = map fst l.
Proof.
  induction l as [|[h c] r IH]; intros [|i] f l' E; cbn in E; try discriminate.
  - injection E as <- <-. cbn. auto.
  - destruct (mg_incr r i) as [[f' r']|] eqn:ER; [|discriminate]. injection E as <- <-. apply IH in ER as [A B]. cbn. split; auto. congruence.
Qed.
Lemma mg_incr_total l i : (i < List.length l)%nat -> mg_incr l i <> None.
Proof.
  revert i. induction l as [|[h c] r IH]; intros [|i] H; cbn in *; try lia; try discriminate.
  specialize (IH i ltac:(lia)). destruct (mg_incr r i) as [[? ?]|]; congruence.
Qed.

(** ** each expansion is a step *)
Lemma in_forms st y : In y (forms_of st) <-> in_queues y (st_q st) \/ In y (map fst (st_mg st)).
Proof. unfold forms_of, in_queues. rewrite !in_app_iff. tauto. Qed.
Ltac inq := intros ? HH; rewrite in_app_iff, in_forms; rewrite in_forms in HH; unfold in_queues in *; cbn in *; intuition auto.
Lemma sorted_tail q (f : queues -> queues) : (forall y, In y (q_atomic (f q)) -> In y (q_atomic q)) ->
  (forall y, In y (q_alpha (f q)) -> In y (q_alpha q)) -> (forall y, In y (q_beta (f q)) -> In y (q_beta q)) ->
  (forall y, In y (q_delta (f q)) -> In y (q_delta q)) -> (forall y, In y (q_gamma (f q)) -> In y (q_gamma q)) ->
  sorted_queues q -> sorted_queues (f q).
Proof. intros A B C D E (S1 & S2 & S3 & S4 & S5). repeat split; auto. Qed.

Variable may : meta -> form -> Prop.
Lemma rules_step st s g l s' g' l1 l2 : good st -> apply_rules same st s g = Some (Children l s' g') ->
  tab_step same may (mkTab g s (l1 ++ branch_of st :: l2)) (mkTab g' s' (l1 ++ map branch_of l ++ l2)) /\ Forall good l.
Proof.
  intros [SQ UM OM OC]. destruct SQ as (S1 & S2 & S3 & S4 & S5). unfold apply_rules.
  destruct (q_alpha (st_q st)) as [|x alpha] eqn:EA.
  2:{ pose proof (S2 x (or_introl eq_refl)) as KX. destruct (apply_alpha same x g) as [ys g1] eqn:E. intros H; injection H as <- <- <-. split.
      - eapply ts_alpha with (x := x) (ys := ys); auto.
        + cbn [branch_of br_forms]. rewrite in_forms. unfold in_queues. rewrite EA. cbn. tauto.
        + cbn [branch_of br_forms]. inq; rewrite EA; cbn; auto 10.
      - constructor; [|constructor]. constructor; cbn; auto. repeat split; cbn; auto using in_cons. }
  destruct (q_delta (st_q st)) as [|x delta] eqn:ED.
  2:{ pose proof (S4 x (or_introl eq_refl)) as KX. destruct (apply_delta s x (st_mm st) (st_mc st) g) as [[[y s1] g1]|] eqn:E; [|discriminate]. intros H; injection H as <- <- <-. split.
      - eapply ts_delta with (x := x) (y := y); auto.
        + cbn [branch_of br_forms]. rewrite in_forms. unfold in_queues. rewrite ED. cbn. tauto.
        + cbn [branch_of br_forms]. change (y :: forms_of st) with ([y] ++ forms_of st). inq; rewrite ?EA, ?ED in *; cbn in *; auto 10.
      - constructor; [|constructor]. constructor; cbn; auto. repeat split; cbn; rewrite ?EA; auto using in_cons. }
  destruct (q_beta (st_q st)) as [|x beta] eqn:EB.
  2:{ pose proof (S3 x (or_introl eq_refl)) as KX. destruct (apply_beta x g) as [yss g1] eqn:E.
      destruct (cpy_union_ok _ _ OM OC) as (mm & EU & OU & HU). rewrite EU. intros H; injection H as <- <- <-.
      destruct (mcpy_ok _ OU) as [OU' HU']. split.
      - rewrite map_map. cbn [branch_of]. unfold branch_of at 2. cbn [st_mm st_mc].
        set (mkf := fun ys => forms_of (mkSt (st_n st) (mkQ ys (q_atomic (st_q st)) [] beta [] (q_gamma (st_q st))) (st_mg st) (nodeCpy mm) Leaf)).
        replace (map _ yss) with (map (fun fs => mkBr fs (nodeCpy mm) Leaf) (map mkf yss)) by (rewrite map_map; reflexivity).
        eapply ts_beta with (x := x) (yss := yss); auto.
        + cbn [branch_of br_forms]. rewrite in_forms. unfold in_queues. rewrite EB. cbn. tauto.
        + clear E EU. induction yss as [|ys r IH]; constructor; auto. subst mkf. cbn [branch_of br_forms]. inq; rewrite ?EA, ?ED, ?EB in *; cbn in *; auto 10.
        + intros n. rewrite HU', HU. reflexivity.
      - apply Forall_forall. intros c Hc. apply in_map_iff in Hc as (ys & <- & _). constructor; cbn; auto.
        + repeat split; cbn; auto using in_cons; contradiction.
        + apply mleaf_ok. }
  destruct (q_gamma (st_q st)) as [|x gamma] eqn:EG.
  2:{ destruct (mg_index same x (st_mg st)) as [index mg] eqn:EI.
      destruct (apply_gamma x (Z.of_nat index) g) as [[[y m] g1]|] eqn:E; [|discriminate].
      destruct (mcpy_ok _ OC) as [OC' HC']. destruct (add_meta_ok _ m OC') as (mc & EM & OM' & HM). rewrite EM.
      destruct (mcpy_ok _ OM') as [OMC HMC]. intros H; injection H as <- <- <-.
      assert (U : universal (ft_form x)) by (apply S5; left; auto).
      destruct (mg_index_ok x _ _ _ U UM EI) as [UM' IM]. split.
      - eapply ts_gamma with (x := x) (y := y) (m := m); eauto.
        + cbn [branch_of br_forms]. rewrite in_forms. unfold in_queues. rewrite EG. cbn. tauto.
        + cbn [branch_of br_forms]. change (y :: forms_of st) with ([y] ++ forms_of st). intros z HZ. rewrite in_app_iff, in_forms. rewrite in_forms in HZ.
          unfold in_queues in *. cbn in *. rewrite ?EA, ?ED, ?EB, ?EG in *. cbn in *.
          destruct HZ as [HZ|HZ]; [tauto|]. apply IM in HZ as [->|HZ]; tauto.
        + intros n. cbn. rewrite HMC, HM, HC'. reflexivity.
      - constructor; [|constructor]. constructor; cbn; auto. repeat split; cbn; rewrite ?EA, ?ED, ?EB; auto using in_cons. }
  destruct (st_mg st) as [|e mg0] eqn:EMG; [discriminate|]. destruct (0 <? st_n st); [|discriminate].
  destruct (mg_reintroduce (e :: mg0)) as [[f mg]|] eqn:ER; [|discriminate]. intros H; injection H as <- <- <-.
  apply mg_incr_ok in ER as [EF EM]. split.
  - apply ts_keep with (b := branch_of st) (fs := forms_of (mkSt (st_n st) (with_lf (st_q st) [f]) mg (st_mm st) (st_mc st))).
    cbn [branch_of br_forms]. intros z HZ. rewrite in_forms. rewrite in_forms in HZ. rewrite EMG. unfold in_queues in *. cbn [st_q st_mg with_lf q_lf q_atomic q_alpha q_beta q_delta q_gamma] in *.
    rewrite EM in HZ. cbn in *. intuition (subst; auto).
  - constructor; [|constructor]. constructor; cbn; auto.
    + repeat split; cbn; rewrite ?EA, ?ED, ?EB, ?EG; auto.
    + intros z HZ. apply UM. rewrite EM in HZ. exact HZ.
Qed.
End Same.

(** ** no crash *)
Fixpoint plain (f : form) : bool :=
  match f with
  | All _ vs g | Ex _ vs g => (match vs with [] => false | _ => true end) && plain g
  | Or _ fs | And _ fs => forallb plain fs
  | Equ _ a b | Imp _ a b => plain a && plain b
  | Not _ g => plain g
  | Pred _ _ _ args => forallb t_noid args
  | Top _ | Bot _ => true
  end.
Lemma plain_noid f : plain f = true -> f_noid f.
Proof.
  unfold f_noid. induction f using form_ind'; cbn; intros E b Hb; try tauto.
  - apply andb_prop in E as [_ E]. eauto.
  - apply andb_prop in E as [_ E]. eauto.
  - apply in_flat_map in Hb as (g & Hg & Hb). rewrite forallb_forall in E. rewrite Forall_forall in H. eauto.
  - apply in_flat_map in Hb as (g & Hg & Hb). rewrite forallb_forall in E. rewrite Forall_forall in H. eauto.
  - apply andb_prop in E as [E1 E2]. apply in_app_iff in Hb as [Hb|Hb]; eauto.
  - apply andb_prop in E as [E1 E2]. apply in_app_iff in Hb as [Hb|Hb]; eauto.
  - eauto.
  - apply in_map_iff in Hb as (t & <- & Ht). rewrite forallb_forall in E. auto.
Qed.
Lemma plain_of f : f_noid f -> binds f -> plain f = true.
Proof.
  unfold f_noid. induction f using form_ind'; cbn; intros N B; auto.
  - destruct B as [B1 B2]. rewrite IHf; auto. destruct vs; auto.
  - destruct B as [B1 B2]. rewrite IHf; auto. destruct vs; auto.
  - apply binds_list in B. rewrite Forall_forall in *. apply forallb_forall. intros g Hg. apply H; auto.
    intros b Hb. apply N, in_flat_map; eauto.
  - apply binds_list in B. rewrite Forall_forall in *. apply forallb_forall. intros g Hg. apply H; auto.
    intros b Hb. apply N, in_flat_map; eauto.
  - destruct B. rewrite IHf1, IHf2; auto; intros; apply N, in_or_app; auto.
  - destruct B. rewrite IHf1, IHf2; auto; intros; apply N, in_or_app; auto.
  - apply forallb_forall. intros t Ht. apply N, in_map, Ht.
Qed.
Lemma part_plain f h : part f h -> plain f = true -> plain h = true.
Proof.
  induction 1; cbn; intros E; rewrite ?forallb_forall, ?andb_true_iff in E; intuition auto.
Qed.
Lemma derived_plain f h : derived f h -> plain f = true -> plain h = true.
Proof. intros (k & P & [->|[i ->]]); cbn; apply part_plain; auto. Qed.
Lemma tt_noid i n u : t_noid u = true -> forall t t' b, t_noid t = true -> replace_tt (Var i n) u t = Some (t', b) -> t_noid t' = true.
Proof.
  intros U t. induction t using term_ind'; cbn; intros t' b N E; try discriminate.
  - destruct (i =? id_index p); [injection E as <- <-; auto|].
    match type of E with match ?G with _ => _ end = _ => destruct G as [[l' b']|] eqn:EL; [|discriminate] end.
    injection E as <- <-. cbn. revert l' b' EL. induction H; intros l' b' EL; [injection EL as <- <-; auto|].
    cbn in N. apply andb_prop in N as [N1 N2].
    destruct (replace_tt (Var i n) u x) as [[x' b1]|] eqn:Ex; [|discriminate].
    match type of EL with match ?G with _ => _ end = _ => destruct G as [[l1 b2]|] eqn:EL'; [|discriminate] end.
    injection EL as <- <-. cbn. apply andb_true_intro. split; eauto.
  - destruct (i =? i0); injection E as <- <-; auto.
  - destruct u; try match type of E with (if ?c then _ else _) = _ => destruct c end; injection E as <- <-; auto.
Qed.
Lemma ttl_noid i n u l : t_noid u = true -> forall l' b, forallb t_noid l = true -> replace_tt_list (Var i n) u l = Some (l', b) -> forallb t_noid l' = true.
Proof.
  intros U. induction l as [|a l IH]; cbn; intros l' b N E; [injection E as <- <-; auto|].
  apply andb_prop in N as [N1 N2]. destruct (replace_tt (Var i n) u a) as [[a' b1]|] eqn:Ea; [|discriminate].
  destruct (replace_tt_list (Var i n) u l) as [[l1 b2]|] eqn:El; [|discriminate]. injection E as <- <-. cbn.
  apply andb_true_intro. split; [exact (tt_noid i n u U a a' b1 N1 Ea)|exact (IH l1 b2 N2 eq_refl)].
Qed.
Lemma rep_plain i n u f : t_noid u = true -> forall f' b, plain f = true -> replace_term (Var i n) u f = Some (f', b) -> plain f' = true.
Proof.
  intros U. induction f using form_ind'; cbn; intros f' b P E;
  repeat match type of E with
  | context [match replace_term ?a ?b ?c with _ => _ end] => destruct (replace_term a b c) as [[? ?]|] eqn:?; [|discriminate]
  end; try (injection E as <- <-; cbn; rewrite ?andb_true_iff in *; intuition eauto; fail).
  - match type of E with match ?G with _ => _ end = _ => destruct G as [[l b']|] eqn:EL; [|discriminate] end.
    injection E as <- <-. cbn. revert l b' EL. induction H; intros l' b' EL; [injection EL as <- <-; auto|].
    cbn in P. apply andb_prop in P as [P1 P2].
    destruct (replace_term (Var i n) u x) as [[x' b1]|] eqn:Ex; [|discriminate].
    match type of EL with match ?G with _ => _ end = _ => destruct G as [[l1 b2]|] eqn:EL'; [|discriminate] end.
    injection EL as <- <-. cbn. apply andb_true_intro. split; eauto.
  - match type of E with match ?G with _ => _ end = _ => destruct G as [[l b']|] eqn:EL; [|discriminate] end.
    injection E as <- <-. cbn. revert l b' EL. induction H; intros l' b' EL; [injection EL as <- <-; auto|].
    cbn in P. apply andb_prop in P as [P1 P2].
    destruct (replace_term (Var i n) u x) as [[x' b1]|] eqn:Ex; [|discriminate].
    match type of EL with match ?G with _ => _ end = _ => destruct G as [[l1 b2]|] eqn:EL'; [|discriminate] end.
    injection EL as <- <-. cbn. apply andb_true_intro. split; eauto.
  - destruct (replace_tt_list (Var i n) u args) as [[? ?]|] eqn:EL; [|discriminate]. injection E as <- <-. cbn. eapply ttl_noid; eauto.
Qed.
Lemma term_subst_noid o u t : t_noid (term_subst_ty o u t) = t_noid t.
Proof.
  induction t using term_ind'; cbn; auto. induction H; cbn; auto. rewrite H, IHForall. reflexivity.
Qed.
Lemma subst_ty_plain o u f : plain (form_subst_ty o u f) = plain f.
Proof.
  induction f using form_ind'; cbn; auto; try congruence.
  - rewrite IHf. destruct vs; reflexivity.
  - rewrite IHf. destruct vs; reflexivity.
  - induction H; cbn; congruence.
  - induction H; cbn; congruence.
  - induction args; cbn; auto. rewrite term_subst_noid. congruence.
Qed.
Lemma gamma_total x index g : universal (ft_form x) -> plain (ft_form x) = true ->
  exists y m g', apply_gamma x index g = Some (y, m, g') /\ plain (ft_form y) = true.
Proof.
  assert (R : forall vs ex h terms, (match vs with [] => false | _ => true end) && plain h = true -> exists y m g',
    real_instantiate vs index ex h terms g = Some (y, m, g') /\ plain (ft_form y) = true).
  { intros vs ex h terms P. destruct vs as [|v rest]; [discriminate|]. cbn in P. unfold real_instantiate.
    set (r := if is_ttype (tv_ty v) then _ else _).
    assert (Q : exists sub' terms' m g1, r = Some (sub', terms', m, g1) /\ plain sub' = true).
    { subst r. destruct (is_ttype (tv_ty v)).
      - destruct (maker_tymeta _ _ _) as [tm g1]. do 4 eexists. split; [reflexivity|]. rewrite subst_ty_plain. exact P.
      - destruct (maker_meta _ _ _ _) as [m0 g0]. unfold subst_var_meta.
        destruct (replace_term_total (tv_index v) (tv_name v) (Meta m0) eq_refl h (plain_noid h P)) as (h' & b & EH). rewrite EH.
        do 4 eexists. split; [reflexivity|]. eapply rep_plain; [|exact P|exact EH]. reflexivity. }
    destruct Q as (sub' & terms' & m & g1 & -> & PS).
    destruct rest as [|v2 rest]; destruct ex; cbn; do 3 eexists; (split; [reflexivity|]); cbn; auto. }
  destruct x as [f terms]. cbn [ft_form]. intros K P. unfold apply_gamma. cbn [ft_form ft_terms].
  inversion K; subst; apply R; exact P.
Qed.
Lemma delta_total s x mm mc g : existential (ft_form x) -> plain (ft_form x) = true -> mok mm -> mok mc ->
  exists y s' g', apply_delta s x mm mc g = Some (y, s', g') /\ plain (ft_form y) = true.
Proof.
  intros K P OM OC. unfold apply_delta. destruct (mcpy_ok _ OM) as [OM' _]. destruct (munion_ok _ _ OM' OC) as (metas & -> & _).
  assert (R : forall vs neg f0 h, (match vs with [] => false | _ => true end) && plain h = true -> exists r s' g',
    real_skolemize s f0 h vs metas neg g = Some (r, s', g') /\ plain r = true).
  { intros vs neg f0 h PH. destruct vs as [|v rest]; [discriminate|]. cbn in PH. unfold real_skolemize.
    set (r := if is_ttype (tv_ty v) then _ else _).
    assert (Q : exists res s1 g1, r = Some (res, s1, g1) /\ plain res = true).
    { subst r. destruct (is_ttype (tv_ty v)).
      - destruct (maker_id _ _) as [i1 g3]. destruct (maker_id _ g3) as [i2 g4]. do 3 eexists. split; [reflexivity|].
        rewrite subst_ty_plain. exact PH.
      - unfold sko_skolemize. destruct (sko_symbol s f0 v g) as [[sym s3] g3].
        assert (A : exists args, sko_args s h metas = Some (map Meta args)).
        { unfold sko_args. destruct (sk_kind s); eauto; destruct (form_metas_ok h) as (ms & -> & _); cbn; eauto. }
        destruct A as (args & ->). set (u := Fun sym [] (map Meta args)).
        destruct (replace_term_total (tv_index v) (tv_name v) u eq_refl h (plain_noid h PH)) as (h' & b & EH). rewrite EH.
        do 3 eexists. split; [reflexivity|]. apply (rep_plain _ _ u h) in EH; auto. subst u. cbn. clear. induction args; auto. }
    destruct Q as (res & s1 & g1 & -> & PS).
    destruct rest as [|v2 rest]; destruct neg; cbn; do 3 eexists; (split; [reflexivity|]); cbn; auto. }
  destruct x as [f terms]. cbn [ft_form] in *.
  assert (Q : exists r s' g', skolemize s f metas g = Some (r, s', g') /\ plain r = true).
  { inversion K; subst; apply R; exact P. }
  destruct Q as (r & s' & g' & -> & PR). do 3 eexists. split; [reflexivity|]. exact PR.
Qed.
