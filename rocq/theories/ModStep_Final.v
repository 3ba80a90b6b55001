(** Final statements of C132-C135. *)
From Coq Require Import ZArith List Bool Lia String.
From Verif Require Import Ast_Model Ast_Proofs Sem_Spec Free_Spec Rules_Model Rules_Spec Rules_Proofs Expand_Model Unif_Model Unif_Spec UnifRun_Proofs
  Restrict_Spec Closure_Spec Dmt_Model Dmt_Spec Dmt_Proofs DmtRewrite_Proofs Dmt_Final ModStep_Model ModStep_Spec ModStep_Proofs.
Import ListNotations.
Open Scope list_scope.

Section Mod.
Variable same : list term -> list term -> bool.
Hypothesis same_refl : forall l, same l l = true.

Lemma old_lf q l : old (with_lf q l) = old q. Proof. reflexivity. Qed.
Lemma fold_lits_lf l : forall q, q_lf (fold_left (fun q x => dispatch same x q) l q) = q_lf q.
Proof. induction l as [|x l IH]; intros q; cbn; [reflexivity|]. rewrite IH. apply dispatch_lf. Qed.
Lemma fold_stored l : forall q, (forall x, stored same x q = true -> stored same x (fold_left (fun q x => dispatch same x q) l q) = true) /\
  forall x, In x l -> stored same x (fold_left (fun q x => dispatch same x q) l q) = true.
Proof.
  induction l as [|y l IH]; intros q; cbn; [split; [auto|intros x []]|]. destruct (IH (dispatch same y q)) as [H1 H2]. split.
  - intros x H. apply H1, dispatch_mono, H.
  - intros x [<-|H]; [apply H1, dispatch_has, same_refl|auto].
Qed.
Lemma stored_lit x q : litb x = true -> stored same x q = true -> present same x (q_atomic q).
Proof. unfold litb, stored. destruct (kind_of_rule (ft_form x)); try discriminate. intros _ H. apply contains_present, H. Qed.

(** the shape of a node that rewrites *)
Lemma node_inv rw post loaded l0 a : rewrite_node same rw post loaded l0 = Ok (Some a) ->
  post = false /\ loaded = true /\ exists q, receive_loop same (q_lf (la_q l0)) (la_q l0) [] = Some (q, filter litb (q_lf (la_q l0))) /\
    filter litb (q_lf (la_q l0)) <> [] /\ manage same rw (filter litb (q_lf (la_q l0))) q = Ok a.
Proof.
  unfold rewrite_node, sort_new. destruct (receive_loop same (q_lf (la_q l0)) (la_q l0) []) as [[q atoms]|] eqn:E; [|discriminate].
  destruct (loop_inv same same_refl _ _ _ _ _ E) as (-> & _). cbn [app] in *. unfold atomics_for_dmt. destruct post; [discriminate|].
  destruct loaded; cbn [andb]; [|discriminate]. destruct (la_bt l0 && negb (msg_empty (la_msg l0))); cbn [negb]; [discriminate|]. cbn [fold_left].
  destruct (filter litb (q_lf (la_q l0))) as [|f r] eqn:F; [discriminate|]. intros H.
  split; [reflexivity|]. split; [reflexivity|]. exists q. split; [reflexivity|]. split; [discriminate|].
  destruct (manage same rw (f :: r) q) as [b| | |]; try discriminate. cbn [bind] in H. injection H as ->. reflexivity.
Qed.

(** C132 *)
Theorem kept rw post loaded l0 a : rewrite_node same rw post loaded l0 = Ok (Some a) ->
  match a with
  | EmptyStep q =>
    (forall x, In x (q_lf (la_q l0)) -> literal (ft_form x) -> present same x (q_atomic (la_q l0)) \/ not_rewritable rw (ft_form x)) /\
    exists q', receive same (q_lf (la_q l0)) (la_q l0) = Some q' /\ forall bt m, sort_new same true loaded bt m q = Some (q', [])
  | Rewriting l w => exists before f after ix s c alts,
    (forall x, In x (before ++ f :: after) <-> In x (q_lf (la_q l0)) /\ literal (ft_form x)) /\
    rw (ft_form f) = Ok ((ix, (s, c)) :: alts) /\ is_failure s = false /\ ~ present same f (q_atomic (la_q l0)) /\
    q_lf (la_q l) = after ++ [mkFat c (ft_terms f)] /\ la_msg l = (match s with [] => ([], []) | _ => (s, [c]) end) /\ la_bt l = false /\
    (forall x, In x (old (la_q l0)) -> In x (old (la_q l))) /\
    (forall x, In x (q_lf (la_q l0)) -> ~ literal (ft_form x) -> present same x (old (la_q l))) /\
    (forall x, In x before -> present same x (q_atomic (la_q l)) \/ not_rewritable rw (ft_form x)) /\
    (forall x, In x (old (la_q l)) -> In x (formulas (la_q l0)))
  end.
Proof.
  intros E. destruct (node_inv _ _ _ _ _ E) as (-> & -> & q & R & _ & M). destruct (loop_inv same same_refl _ _ _ _ _ R) as (_ & Hlf & Hat & H3 & H4 & H5 & H6 & H7).
  assert (Fl : forall x, In x (filter litb (q_lf (la_q l0))) <-> In x (q_lf (la_q l0)) /\ literal (ft_form x)).
  { intros x. rewrite filter_In, litb_literal. reflexivity. }
  destruct a as [q1|l w].
  - assert (Hc : forall x, In x (filter litb (q_lf (la_q l0))) -> fl_contains same (q_lf q) x = true).
    { intros x Hx. apply contains_in; [exact same_refl|]. rewrite Hlf. apply Fl, Hx. }
    destruct (manage_empty same rw _ _ _ Hc M) as [-> Hx]. split.
    + intros x Hin Lx. destruct (Hx x) as [K|K]; [apply Fl; auto|left|right; exact K]. rewrite <- Hat. apply contains_present, K.
    + exists (fold_left (fun q x => dispatch same x q) (filter litb (q_lf (la_q l0))) q). split.
      * unfold receive. replace (mkQ (q_lf (la_q l0)) (q_atomic (la_q l0)) (q_alpha (la_q l0)) (q_beta (la_q l0)) (q_delta (la_q l0)) (q_gamma (la_q l0))) with (la_q l0) by (destruct (la_q l0); reflexivity).
        rewrite R. reflexivity.
      * intros bt m. unfold sort_new. rewrite Hlf. rewrite (loop_again same _ q [] H4 H7). reflexivity.
  - destruct (manage_rewriting same rw _ _ _ _ M) as (before & f & after & ix & s & c & alts & Ea & Er & Es & Ef & Hb & El & _).
    exists before, f, after, ix, s, c, alts. subst l. cbn [la_q la_msg la_bt q_lf with_lf]. rewrite <- Ea. split; [exact Fl|]. split; [exact Er|]. split; [exact Es|].
    split; [rewrite <- Hat; intros K; apply contains_present in K; congruence|]. split; [reflexivity|].
    split; [unfold first_message; destruct s; reflexivity|]. split; [reflexivity|]. split; [exact H5|]. split; [|split].
    + intros x Hx Nx. apply (stored_old same). apply H4; [exact Hx|]. destruct (litb x) eqn:L; [exfalso; apply Nx, litb_literal, L|reflexivity].
    + intros x Hx. destruct (Hb x Hx) as [K|K]; [left|right; exact K]. apply contains_present, K.
    + intros x Hx. destruct (H6 x Hx) as [K|K]; unfold formulas; rewrite in_app_iff; [right; exact K|left; exact K].
Qed.

Theorem offered post loaded bt m q q' dmt : sort_new same post loaded bt m q = Some (q', dmt) ->
  (forall x, In x dmt -> In x (q_lf q) /\ literal (ft_form x)) /\
  (forall x, In x (q_lf q) -> literal (ft_form x) ->
     if negb post && loaded && (negb bt || msg_empty m) then In x dmt else present same x (q_atomic q')).
Proof.
  unfold sort_new. destruct (receive_loop same (q_lf q) q []) as [[q1 atoms]|] eqn:R; [|discriminate]. destruct (loop_inv same same_refl _ _ _ _ _ R) as (-> & _). cbn [app].
  assert (Fl : forall x, In x (filter litb (q_lf q)) <-> In x (q_lf q) /\ literal (ft_form x)).
  { intros x. rewrite filter_In, litb_literal. reflexivity. }
  assert (St : forall x, In x (q_lf q) -> literal (ft_form x) -> present same x (q_atomic (fold_left (fun q x => dispatch same x q) (filter litb (q_lf q)) q1))).
  { intros x Hx Lx. apply stored_lit; [apply litb_literal, Lx|]. apply fold_stored. apply Fl. auto. }
  unfold atomics_for_dmt. destruct post, loaded, bt, (msg_empty m); cbn [negb andb orb fold_left]; intros E; injection E as <- <-; (split; [intros x Hx; first [apply Fl, Hx|destruct Hx]|]).
  all: first [exact St|intros x Hx Lx; apply Fl; auto].
Qed.

(** *** the candidates *)
Lemma tries_det n : forall m w a b, tries n w = Ok a -> tries m w = Ok b -> a = b.
Proof.
  induction n as [|n IH]; intros m w a b Ha Hb; [discriminate|]. destruct m as [|m]; [discriminate|]. rewrite tries_S in Ha, Hb.
  destruct (backtrack w) as [[[l w']|]| | |]; cbn [bind] in *; try discriminate; [|congruence].
  destruct (tries n w') as [x| | |] eqn:E1; try discriminate. destruct (tries m w') as [y| | |] eqn:E2; try discriminate. cbn [bind] in *.
  rewrite (IH _ _ _ _ E1 E2) in Ha. congruence.
Qed.
(** C134, C135 *)
Theorem candidates rw atoms q l w : manage same rw atoms q = Ok (Rewriting l w) ->
  exists before f after cs ls,
    atoms = before ++ f :: after /\ rw (ft_form f) = Ok cs /\ tries (List.length cs) w = Ok ls /\
    Forall2 (fun c lw => launched q after f c (fst lw) /\
      wa_step (snd lw) = mkRs f (mkFat (snd (snd c)) (ft_terms f)) (fst c)) cs ((l, w) :: ls).
Proof.
  intros M. destruct (manage_rewriting same rw _ _ _ _ M) as (before & f & after & ix & s & c & alts & Ea & Er & Es & Ef & Hb & El & Ew).
  destruct (tries_all f q after alts (mkFat c (ft_terms f)) ix) as (ls & E & F). exists before, f, after, ((ix, (s, c)) :: alts), ls.
  split; [exact Ea|]. split; [exact Er|]. split; [cbv zeta in Ew; rewrite Ew; exact E|]. constructor.
  - subst l w. unfold launched, same_old. cbn. repeat split; try reflexivity. unfold first_message. destruct s; reflexivity.
  - clear - F. induction F as [|x y ? ? (H1 & _ & _ & H2 & _) F IH]; constructor; auto.
Qed.
Lemma msg_filled s x : msg_empty (s, [x]) = false. Proof. destruct s; reflexivity. Qed.
(** in the children launched after the first, no literal is offered to the rules *)
Theorem never rw atoms q l w n ls : manage same rw atoms q = Ok (Rewriting l w) -> tries n w = Ok ls ->
  forall l' w', In (l', w') ls -> forall loaded q1,
    match sort_new same false loaded (la_bt l') (la_msg l') q1 with
    | Some (q2, dmt) => dmt = [] /\ forall x, In x (q_lf q1) -> literal (ft_form x) -> present same x (q_atomic q2)
    | None => True
    end.
Proof.
  intros M T l' w' Hin loaded q1. destruct (manage_rewriting same rw _ _ _ _ M) as (before & f & after & ix & s & c & alts & Ea & Er & Es & Ef & Hb & El & Ew). cbv zeta in Ew.
  destruct (tries_all f q after alts (mkFat c (ft_terms f)) ix) as (ls' & E & F). rewrite <- Ew in E. rewrite (tries_det _ _ _ _ _ T E) in Hin. clear T.
  assert (K : la_bt l' = true /\ msg_empty (la_msg l') = false).
  { clear - F Hin. induction F as [|c0 lw ? ? (_ & H2 & H3 & _) F IH]; [destruct Hin|]. destruct Hin as [->|H]; [|exact (IH H)]. cbn [fst] in *. rewrite H3, H2. split; [reflexivity|apply msg_filled]. }
  destruct K as [K1 K2]. unfold sort_new. destruct (receive_loop same (q_lf q1) q1 []) as [[q2 at2]|] eqn:R; [|exact Logic.I].
  destruct (loop_inv same same_refl _ _ _ _ _ R) as (-> & _). cbn [app]. unfold atomics_for_dmt. rewrite K1, K2. cbn [negb andb]. rewrite andb_false_r.
  split; [reflexivity|]. intros x Hx Lx. apply stored_lit; [apply litb_literal, Lx|]. apply fold_stored. apply filter_In. split; [exact Hx|]. apply litb_literal, Lx.
Qed.
(** a literal already stored is not offered again *)
Theorem skipped rw atoms q : (forall x, In x atoms -> present same x (q_atomic q)) -> manage same rw atoms q = Ok (EmptyStep q).
Proof.
  induction atoms as [|f r IH]; intros H; cbn [manage]; [reflexivity|]. rewrite (proj2 (contains_present same _ _) (H f (or_introl eq_refl))).
  apply IH. intros x Hx. apply H. right. exact Hx.
Qed.
(** C135 *)
Theorem recorded rw atoms q l w n ls : manage same rw atoms q = Ok (Rewriting l w) -> tries n w = Ok ls ->
  forall l' w', In (l', w') ((l, w) :: ls) ->
  exists after cs s, In (rs_formula (wa_step w')) atoms /\ rw (ft_form (rs_formula (wa_step w'))) = Ok cs /\
    In (rs_id (wa_step w'), (s, ft_form (rs_result (wa_step w')))) cs /\ ft_terms (rs_result (wa_step w')) = ft_terms (rs_formula (wa_step w')) /\
    q_lf (la_q l') = after ++ [rs_result (wa_step w')] /\ fst (la_msg l') = s /\ same_old (la_q l') q.
Proof.
  intros M T l' w' Hin. destruct (candidates _ _ _ _ _ M) as (before & f & after & cs & ls' & Ea & Er & E & F).
  rewrite (tries_det _ _ _ _ _ T E) in Hin.
  assert (K : exists c, In c cs /\ launched q after f c l' /\ wa_step w' = mkRs f (mkFat (snd (snd c)) (ft_terms f)) (fst c)).
  { clear - F Hin. induction F as [|c lw ? ? [H1 H2] F IH]; [destruct Hin|]. destruct Hin as [->|H].
    - exists c. split; [left; reflexivity|]. auto.
    - destruct (IH H) as (c' & H3 & H4). exists c'. split; [right; exact H3|exact H4]. }
  destruct K as (c & Hc & (L1 & L2 & L3) & ->). cbn. exists after, cs, (fst (snd c)). split; [rewrite Ea, in_app_iff; right; left; reflexivity|].
  split; [exact Er|]. split; [destruct c as [? [? ?]]; exact Hc|]. split; [reflexivity|]. split; [exact L1|]. split; [exact L3|exact L2].
Qed.

(** C133 *)
Theorem sound name_id ty_arity n fe (ar : signature) eqi pol axs rest d g g' atoms q l w k ls :
  Forall (wff g) axs -> Forall untyped axs -> Forall binds axs -> register_all eqi pol axs dmt0 g = Ok (rest, d, g') -> monomorphic ar ty_arity ->
  (forall x, In x atoms -> let lit := ft_form x in
     Forall (first_order ar) (map fst (rules_for d lit)) /\ first_order ar lit /\ keys_apart key (rules_for d lit) /\ rewrite_strict name_id ty_arity n fe d lit <> Out) ->
  manage same (rewrite_real name_id ty_arity n fe d) atoms q = Ok (Rewriting l w) -> tries k w = Ok ls ->
  forall l' w', In (l', w') ((l, w) :: ls) ->
    let lit := ft_form (rs_formula (wa_step w')) in let c := ft_form (rs_result (wa_step w')) in
    (rs_id (wa_step w') = -1 /\ fst (la_msg l') = failure /\ c = lit)%Z \/
    exists a r sg, rewritten n fe (rules_for d lit) lit (rs_id (wa_step w')) (fst (la_msg l')) c a r sg /\
      (linear_for sg (snd r) -> direct_relevant (lit_metas lit) sg ->
       forall I (v : val I), Forall (true_in I) axs -> satisfies v (fst (la_msg l')) ->
         all_hold atoms v -> all_hold (old q) v -> all_hold (formulas (la_q l')) v).
Proof.
  intros W U B E HM Ha M T l' w' Hin lit c. destruct (candidates _ _ _ _ _ M) as (before & f & after & cs & ls' & Ea & Er & E' & F).
  rewrite (tries_det _ _ _ _ _ T E') in Hin.
  assert (K : exists c, In c cs /\ launched q after f c l' /\ wa_step w' = mkRs f (mkFat (snd (snd c)) (ft_terms f)) (fst c)).
  { clear - F Hin. induction F as [|c lw ? ? [H1 H2] F IH]; [destruct Hin|]. destruct Hin as [->|H].
    - exists c. split; [left; reflexivity|]. auto.
    - destruct (IH H) as (c' & H3 & H4). exists c'. split; [right; exact H3|exact H4]. }
  destruct K as ([ix [s c']] & Hc & (L1 & (A1 & A2 & A3 & A4 & A5) & L3) & Ew). cbn [fst snd] in *. subst lit c. rewrite Ew, L3. cbn [rs_id rs_result rs_formula ft_form].
  assert (Hf : In f atoms) by (rewrite Ea, in_app_iff; right; left; reflexivity).
  destruct (Ha f Hf) as (H1 & H2 & H3 & H4).
  destruct (modulo name_id ty_arity n fe ar eqi pol axs rest d g g' (ft_form f) cs W U B E H1 H2 HM H3 H4 Er ix s c' Hc) as [K|(a & r & sg & R & K)]; [left; exact K|right].
  exists a, r, sg. split; [exact R|]. intros Lin Dir I v T' Sv Hat Hq x Hx. destruct (K Lin) as [_ K2]. unfold formulas in Hx. rewrite L1 in Hx. apply in_app_iff in Hx. destruct Hx as [Hx|Hx].
  - apply in_app_iff in Hx. destruct Hx as [Hx|[<-|[]]]; [apply Hat; rewrite Ea, in_app_iff; right; right; exact Hx|].
    cbn. apply (K2 Dir I v T' Sv). apply Hat, Hf.
  - apply Hq. unfold old. rewrite A1, A2, A3, A4, A5 in Hx. exact Hx.
Qed.
End Mod.
