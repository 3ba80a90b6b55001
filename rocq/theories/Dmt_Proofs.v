(** Lemmas for C43 and C44: registration. *)
From Coq Require Import ZArith List Bool String Lia Classical.
From Verif Require Import Ast_Model Sem_Spec Occ_Spec Free_Spec Sem_Proofs Free_Proofs Rules_Model Rules_Spec Ast_Proofs Inst_Proofs Unif_Model
  Dmt_Model Dmt_Spec.
Import ListNotations.
Open Scope list_scope.
Open Scope Z_scope.

(** *** The shape is kept by the instantiation *)
Fixpoint skel (f : form) : form :=
  match f with
  | All _ _ f => All 0 [] (skel f)
  | Ex _ _ _ => Ex 0 [] (Top 0)
  | Or _ _ => Or 0 []
  | And _ _ => And 0 []
  | Equ _ a b => Equ 0 (skel a) (skel b)
  | Imp _ a b => Imp 0 (skel a) (skel b)
  | Not _ f => Not 0 (skel f)
  | Pred _ p _ _ => Pred 0 (mkId (id_index p) "") [] []
  | Top _ => Top 0
  | Bot _ => Bot 0
  end.
Lemma replace_skel o u f : forall f' b, replace_term o u f = Some (f', b) -> skel f' = skel f.
Proof.
  induction f using form_ind'; cbn [replace_term]; intros f' b' E.
  - destruct (replace_term o u f) as [[h c]|]; [|discriminate]. injection E as <- <-. cbn. rewrite (IHf h c eq_refl). reflexivity.
  - destruct (replace_term o u f) as [[h c]|]; [|discriminate]. injection E as <- <-. reflexivity.
  - match type of E with match ?x with _ => _ end = _ => destruct x as [[h c]|]; [|discriminate] end. injection E as <- <-. reflexivity.
  - match type of E with match ?x with _ => _ end = _ => destruct x as [[h c]|]; [|discriminate] end. injection E as <- <-. reflexivity.
  - destruct (replace_term o u f1) as [[h c]|]; [|discriminate]. destruct (replace_term o u f2) as [[h2 c2]|]; [|discriminate].
    injection E as <- <-. cbn. rewrite (IHf1 h c eq_refl), (IHf2 h2 c2 eq_refl). reflexivity.
  - destruct (replace_term o u f1) as [[h c]|]; [|discriminate]. destruct (replace_term o u f2) as [[h2 c2]|]; [|discriminate].
    injection E as <- <-. cbn. rewrite (IHf1 h c eq_refl), (IHf2 h2 c2 eq_refl). reflexivity.
  - destruct (replace_term o u f) as [[h c]|]; [|discriminate]. injection E as <- <-. cbn. rewrite (IHf h c eq_refl). reflexivity.
  - destruct (replace_tt_list o u args) as [[h c]|]; [|discriminate]. injection E as <- <-. reflexivity.
  - injection E as <- <-. reflexivity.
  - injection E as <- <-. reflexivity.
Qed.
Lemma ty_skel o u f : skel (form_subst_ty o u f) = skel f.
Proof. induction f using form_ind'; cbn; congruence. Qed.
Lemma matrix_skel f : skel (matrix f) = matrix (skel f).
Proof. induction f; cbn; auto. Qed.
(** the universal prefix *)
Fixpoint prefixes (f : form) : list nat := match f with All _ vs h => List.length vs :: prefixes h | _ => [] end.
Lemma replace_prefixes o u f : forall f' b, replace_term o u f = Some (f', b) -> prefixes f' = prefixes f.
Proof.
  induction f; cbn [replace_term]; intros f' b' E;
    try (repeat match type of E with match ?x with _ => _ end = _ => destruct x as [[? ?]|]; [|discriminate] end; injection E as <- <-; reflexivity).
  destruct (replace_term o u f) as [[h c]|]; [|discriminate]. injection E as <- <-. cbn. rewrite (IHf h c eq_refl). reflexivity.
Qed.
Lemma ty_prefixes o u f : prefixes (form_subst_ty o u f) = prefixes f.
Proof. induction f; cbn; try congruence. rewrite map_length. congruence. Qed.
Lemma binds_prefixes f : binds f <-> ~ In O (prefixes f).
Proof.
  induction f; cbn; try tauto. split.
  - intros [H1 H2] [H|H]; [destruct vars; [congruence|discriminate]|tauto].
  - intros H. split; [intros ->; apply H; left; reflexivity|tauto].
Qed.
Lemma prefix_sum f : prefix f = fold_right Nat.add O (prefixes f).
Proof. induction f; cbn; auto. Qed.

Lemma replace_tt_noid o u : t_noid u = true -> forall t t' b, t_noid t = true -> replace_tt o u t = Some (t', b) -> t_noid t' = true.
Proof.
  intros U. induction t as [x|p tys l IH|x n|m] using term_ind'; intros t' b N E.
  - discriminate.
  - cbn [replace_tt] in E. destruct (term_index o =? id_index p); [injection E as <- <-; exact U|].
    match type of E with match ?x with _ => _ end = _ => destruct x as [[r c]|] eqn:El; [|discriminate] end. injection E as <- <-.
    cbn in *. revert r c El. induction IH as [|a l Ha IH IHl]; intros r c El.
    + injection El as <- <-. reflexivity.
    + cbn in N. apply andb_true_iff in N. destruct N as [N1 N2]. destruct (replace_tt o u a) as [[a' b1]|] eqn:Ea; [|discriminate].
      match type of El with match ?x with _ => _ end = _ => destruct x as [[r' c']|] eqn:Er; [|discriminate] end. injection El as <- <-.
      cbn. rewrite (Ha _ _ N1 eq_refl), (IHl N2 _ _ eq_refl). reflexivity.
  - cbn in E. destruct (term_index o =? x); injection E as <- <-; auto.
  - cbn in E. destruct (term_eqb o u); injection E as <- <-; auto.
Qed.
Lemma replace_tts_noid o u : t_noid u = true -> forall l l' b, forallb t_noid l = true -> replace_tt_list o u l = Some (l', b) -> forallb t_noid l' = true.
Proof.
  intros U. induction l as [|a l IH]; intros l' b N E; cbn in *; [injection E as <- <-; reflexivity|].
  apply andb_true_iff in N. destruct N as [N1 N2]. destruct (replace_tt o u a) as [[a' b1]|] eqn:Ea; [|discriminate].
  destruct (replace_tt_list o u l) as [[r c]|] eqn:Er; [|discriminate]. injection E as <- <-. cbn.
  rewrite (replace_tt_noid o u U _ _ _ N1 Ea), (IH _ _ N2 eq_refl). reflexivity.
Qed.
Lemma noid_pred i p tys args : f_noid (Pred i p tys args) <-> forallb t_noid args = true.
Proof.
  unfold f_noid. cbn. rewrite forallb_forall. split.
  - intros H x Hx. apply H. apply in_map, Hx.
  - intros H b Hb. apply in_map_iff in Hb. destruct Hb as (x & <- & Hx). auto.
Qed.
Lemma noid_two (a b : form) : (forall x, In x (f_collect (fun _ _ args => map t_noid args) a ++ f_collect (fun _ _ args => map t_noid args) b) -> x = true) <-> f_noid a /\ f_noid b.
Proof.
  unfold f_noid. split.
  - intros H. split; intros x Hx; apply H, in_or_app; auto.
  - intros [H1 H2] x Hx. apply in_app_or in Hx. destruct Hx; auto.
Qed.
Lemma noid_list (fs : list form) : (forall x, In x (flat_map (f_collect (fun _ _ args => map t_noid args)) fs) -> x = true) <-> Forall f_noid fs.
Proof.
  unfold f_noid. rewrite Forall_forall. split.
  - intros H f Hf x Hx. apply H, in_flat_map. eauto.
  - intros H x Hx. apply in_flat_map in Hx. destruct Hx as (f & Hf & Hx). eauto.
Qed.
Lemma replace_noid o u : t_noid u = true -> forall f f' b, f_noid f -> replace_term o u f = Some (f', b) -> f_noid f'.
Proof.
  intros U. induction f using form_ind'; intros f' b' N E; cbn [replace_term] in E.
  - destruct (replace_term o u f) as [[h c]|]; [|discriminate]. injection E as <- <-. exact (IHf h c N eq_refl).
  - destruct (replace_term o u f) as [[h c]|]; [|discriminate]. injection E as <- <-. exact (IHf h c N eq_refl).
  - match type of E with match ?x with _ => _ end = _ => destruct x as [[h c]|] eqn:El; [|discriminate] end. injection E as <- <-.
    apply noid_list in N. refine (proj2 (noid_list h) _). revert h c El. induction fs as [|a l IH]; intros r c El.
    + injection El as <- <-. constructor.
    + inversion H; subst. inversion N; subst. destruct (replace_term o u a) as [[a' b1]|] eqn:Ea; [|discriminate].
      match type of El with match ?x with _ => _ end = _ => destruct x as [[r' c']|] eqn:Er; [|discriminate] end. injection El as <- <-.
      constructor; eauto.
  - match type of E with match ?x with _ => _ end = _ => destruct x as [[h c]|] eqn:El; [|discriminate] end. injection E as <- <-.
    apply noid_list in N. refine (proj2 (noid_list h) _). revert h c El. induction fs as [|a l IH]; intros r c El.
    + injection El as <- <-. constructor.
    + inversion H; subst. inversion N; subst. destruct (replace_term o u a) as [[a' b1]|] eqn:Ea; [|discriminate].
      match type of El with match ?x with _ => _ end = _ => destruct x as [[r' c']|] eqn:Er; [|discriminate] end. injection El as <- <-.
      constructor; eauto.
  - destruct (replace_term o u f1) as [[h c]|]; [|discriminate]. destruct (replace_term o u f2) as [[h2 c2]|]; [|discriminate].
    injection E as <- <-. apply noid_two in N. refine (proj2 (noid_two h h2) _). destruct N. eauto.
  - destruct (replace_term o u f1) as [[h c]|]; [|discriminate]. destruct (replace_term o u f2) as [[h2 c2]|]; [|discriminate].
    injection E as <- <-. apply noid_two in N. refine (proj2 (noid_two h h2) _). destruct N. eauto.
  - destruct (replace_term o u f) as [[h c]|]; [|discriminate]. injection E as <- <-. exact (IHf h c N eq_refl).
  - destruct (replace_tt_list o u args) as [[h c]|] eqn:El; [|discriminate]. injection E as <- <-. apply noid_pred in N. apply noid_pred.
    eapply replace_tts_noid; eauto.
  - injection E as <- <-. exact N.
  - injection E as <- <-. exact N.
Qed.

Lemma gamma_shape i vs h ts ix g : vs <> [] -> f_noid (All i vs h) ->
  exists x m g', apply_gamma (mkFat (All i vs h) ts) ix g = Some (x, m, g') /\ f_noid (ft_form x) /\
    matrix (skel (ft_form x)) = matrix (skel h) /\
    prefixes (ft_form x) = match vs with _ :: (_ :: _) as r => List.length r :: prefixes h | _ => prefixes h end.
Proof.
  intros V N. destruct vs as [|x rest]; [congruence|]. clear V. cbn [apply_gamma ft_form ft_terms]. unfold real_instantiate.
  assert (N' : f_noid h) by exact N.
  destruct (is_ttype (tv_ty x)).
  - destruct (maker_tymeta (to_upper (tv_name x)) ix g) as [m g1].
    set (h' := form_subst_ty (TyBound (tv_name x) (tv_index x)) m h).
    assert (N1 : f_noid h') by (apply form_subst_ty_occ, N').
    assert (S1 : skel h' = skel h) by apply ty_skel. assert (P1 : prefixes h' = prefixes h) by apply ty_prefixes.
    destruct rest as [|y rest]; cbn; do 3 eexists; (split; [reflexivity|]); cbn; rewrite ?S1, ?P1; auto.
  - destruct (maker_meta (to_upper (tv_name x)) ix (tv_ty x) g) as [m g1].
    destruct (replace_term_total (tv_index x) (tv_name x) (Meta m) eq_refl h N') as (h' & b & E).
    unfold subst_var_meta. rewrite E.
    assert (N1 : f_noid h').
    { eapply replace_noid; [|exact N'|exact E]. reflexivity. }
    pose proof (replace_skel _ _ _ _ _ E) as S1. pose proof (replace_prefixes _ _ _ _ _ E) as P1.
    destruct rest as [|y rest]; cbn; do 3 eexists; (split; [reflexivity|]); cbn; rewrite ?S1, ?P1; auto.
Qed.

Lemma inst_total n : forall f g, f_noid f -> binds f -> (prefix f < n)%nat ->
  exists r g', inst_foralls n f g = Ok (r, g') /\ skel r = skel (matrix f) /\ f_noid r.
Proof.
  induction n as [|n IH]; intros f g N B L; [lia|]. destruct f as [i vs h| | | | | | | | |]; try (cbn; eauto; fail).
  destruct B as [B1 B2]. destruct (gamma_shape i vs h [] (-1) g B1 N) as (x & m & g' & E & N1 & S1 & P1).
  cbn [inst_foralls]. rewrite E. assert (Q : matrix (ft_form x) = matrix (ft_form x)) by reflexivity.
  destruct (IH (ft_form x) g' N1) as (r & g2 & E2 & S2 & N2).
  - apply binds_prefixes. rewrite P1. apply binds_prefixes in B2. destruct vs as [|a [|b vs]]; auto. cbn. intros [K|K]; [discriminate|contradiction].
  - cbn [prefix] in L. rewrite !prefix_sum in *. rewrite P1. destruct vs as [|a [|b vs]]; cbn in *; try lia. congruence.
  - exists r, g2. split; [exact E2|]. split; [|exact N2]. rewrite S2, !matrix_skel, S1. cbn. reflexivity.
Qed.

(** the tests of the registration see the shape only *)
Lemma skel_lit f : literal (skel f) <-> literal f.
Proof.
  destruct f as [| | | | | |i f| | |]; try destruct f; cbn;
    try (split; intros H; inversion H; subst; repeat match goal with K : atomic _ |- _ => inversion K; subst; clear K end; repeat constructor; fail).
Qed.
Lemma atomic_lit f : is_atomic f = true <-> literal f.
Proof.
  unfold is_atomic. split.
  - destruct f as [| | | | | |i f| | |]; try destruct f; cbn; intros H; try discriminate;
      first [apply lit_pos; constructor|apply lit_neg; constructor].
  - intros [h [i p ty l|i|i]|j h [i p ty l|i|i]]; reflexivity.
Qed.
Lemma skel_const f : const (skel f) <-> const f.
Proof. split; intros [i [H|H]]; destruct f; try discriminate; unfold const; cbn; eauto. Qed.
Lemma skel_neg f : neg_const (skel f) <-> neg_const f.
Proof.
  split.
  - intros (i & c & C & E). destruct f as [| | | | | |k f| | |]; try discriminate. injection E as _ E. exists k, f.
    split; [apply skel_const; rewrite E; exact C|reflexivity].
  - intros (i & c & C & ->). exists 0, (skel c). split; [apply skel_const, C|reflexivity].
Qed.
Lemma skel_pred f : pred (skel f) <-> pred f.
Proof. split; intros (i & p & ty & l & H); destruct f; try discriminate; unfold pred; cbn; eauto 6. Qed.
Lemma skel_eq eqi f : equality eqi (skel f) <-> equality eqi f.
Proof.
  split; intros (i & p & ty & l & H & [E|[j E]]).
  - destruct f as [| | | | | | |ix q tys args| |]; try discriminate. injection E as _ <- _ _. cbn in H. exists ix, q, tys, args. auto.
  - destruct f as [| | | | | |k f| | |]; try discriminate. destruct f as [| | | | | | |ix q tys args| |]; try discriminate.
    injection E as _ _ <- _ _. cbn in H. exists ix, q, tys, args. split; [exact H|right; exists k; reflexivity].
  - subst f. exists 0, (mkId (id_index p) ""), [], []. cbn. auto.
  - subst f. exists 0, (mkId (id_index p) ""), [], []. cbn. split; [exact H|right; exists 0; reflexivity].
Qed.
Lemma skel_bad eqi pol f : bad eqi pol (skel f) <-> bad eqi pol f.
Proof.
  split; intros H.
  - destruct f; cbn in H; inversion H; subst.
    + apply bad_equ_l; [apply skel_neg; auto|rewrite <- skel_lit; auto].
    + apply bad_equ_r; [rewrite <- skel_lit; auto|apply skel_neg; auto].
    + destruct f1; try discriminate. cbn in *. match goal with K : Not _ _ = Not _ _ |- _ => injection K as _ <- end.
      eapply bad_imp_not; try reflexivity; auto; [|rewrite <- skel_pred; auto].
      match goal with K : _ \/ _ |- _ => destruct K as [K|K]; [left; apply skel_lit; exact K|right; apply skel_lit; exact K] end.
    + apply bad_imp_l; auto. apply skel_const; auto.
    + apply bad_imp_r; auto; [|rewrite <- skel_eq; auto].
      match goal with K : _ \/ _ |- _ => destruct K as [K|K]; [left; apply skel_const; exact K|right; apply skel_neg; exact K] end.
  - inversion H; subst; cbn [skel].
    + apply bad_equ_l; [apply skel_neg; auto|rewrite skel_lit; auto].
    + apply bad_equ_r; [rewrite skel_lit; auto|apply skel_neg; auto].
    + eapply bad_imp_not; [reflexivity| |reflexivity|rewrite skel_pred; assumption]. change (Not 0 (skel h)) with (skel (Not j h)). rewrite !skel_lit. assumption.
    + apply bad_imp_l; auto. apply skel_const; auto.
    + apply bad_imp_r; auto; [|rewrite skel_eq; auto]. rewrite skel_const, skel_neg. assumption.
Qed.
Lemma equality_pred eqi f : match is_equality_pred eqi f with
  | None => exists j h, f = Not j h /\ ~ pred h
  | Some true => equality eqi f
  | Some false => ~ equality eqi f /\ (forall j h, f = Not j h -> pred h)
  end.
Proof.
  destruct f as [| | | | | |i f|i p ty l| |]; cbn;
    try (split; [intros (i1 & p1 & t1 & l1 & _ & [K|[j K]]); discriminate|intros; discriminate]).
  - destruct f as [| | | | | | |k p ty l| |];
      try (do 2 eexists; split; [reflexivity|intros (? & ? & ? & ? & ?); discriminate]).
    destruct (Z.eqb_spec (id_index p) eqi) as [E|E].
    + exists k, p, ty, l. eauto.
    + split; [|intros ? ? K; injection K as _ <-; unfold pred; eauto]. intros (i1 & p1 & t1 & l1 & K & [K1|[j K1]]); [discriminate|]. injection K1 as _ _ <- _ _. auto.
  - destruct (Z.eqb_spec (id_index p) eqi) as [E|E].
    + exists i, p, ty, l. auto.
    + split; [|intros; discriminate]. intros (i1 & p1 & t1 & l1 & K & [K1|[j K1]]); [|discriminate]. injection K1 as _ <- _ _. auto.
Qed.
Lemma lit_dec f : {literal f} + {~ literal f}.
Proof. destruct (is_atomic f) eqn:E; [left; apply atomic_lit, E|right; intros H; apply atomic_lit in H; congruence]. Qed.
Lemma atomic_nlit f : is_atomic f = false <-> ~ literal f.
Proof. rewrite <- atomic_lit. destruct (is_atomic f); split; congruence. Qed.
Lemma neg_const_lit f : neg_const f -> literal f.
Proof. intros (i & c & [j [H|H]] & E); subst; apply lit_neg; constructor. Qed.
Lemma const_lit f : const f -> literal f.
Proof. intros [j [H|H]]; subst; repeat constructor. Qed.
Lemma lit_cases f : literal f -> pred f \/ const f \/ neg_const f \/ exists j h, f = Not j h /\ pred h.
Proof.
  intros [h [i p ty l|i|i]|j h [i p ty l|i|i]]; unfold pred, const, neg_const; eauto 12.
  - right; right; left. exists j, (Top i). split; [exists i; auto|reflexivity].
  - right; right; left. exists j, (Bot i). split; [exists i; auto|reflexivity].
Qed.

Section Reg.
Variables (eqi : Z) (pol : bool).
Lemma equ_ok i a b d g : match rules_of_equ eqi a b d g with
  | Crash => bad eqi pol (Equ i a b) | Ok _ => ~ bad eqi pol (Equ i a b) | _ => False end.
Proof.
  unfold rules_of_equ. destruct (is_atomic a) eqn:Ea, (is_atomic b) eqn:Eb; cbn [Bool.eqb].
  - apply atomic_lit in Ea, Eb. intros K. inversion K; subst; contradiction.
  - pose proof (equality_pred eqi a) as Q. pose proof Ea as Ea'. apply atomic_lit in Ea. apply atomic_nlit in Eb. destruct (is_equality_pred eqi a) as [[]|].
    + intros K. inversion K; subst; [|contradiction].
      destruct Q as (i1 & p1 & t1 & l1 & _ & [Q|[j Q]]); subst a; match goal with K : neg_const _ |- _ => destruct K as (? & ? & [? [K1|K1]] & K2); subst; discriminate end.
    + destruct (add_equ a b d g) as [d' g']. intros K. inversion K; subst; [|contradiction]. destruct Q as [_ Q].
      match goal with K : neg_const _ |- _ => destruct K as (j & c & [? Kc] & ->) end. destruct (Q _ _ eq_refl) as (? & ? & ? & ? & ->). destruct Kc; discriminate.
    + apply bad_equ_l; [|exact Eb]. destruct Q as (j & h & -> & Q). destruct (lit_cases _ Ea) as [(? & ? & ? & ? & ?)|[[? [?|?]]|[?|(j' & h' & E & P)]]]; try discriminate; auto.
      injection E as _ ->. contradiction.
  - pose proof (equality_pred eqi b) as Q. apply atomic_lit in Eb. apply atomic_nlit in Ea. destruct (is_equality_pred eqi b) as [[]|].
    + intros K. inversion K; subst; [apply Ea, neg_const_lit; assumption|].
      destruct Q as (i1 & p1 & t1 & l1 & _ & [Q|[j Q]]); subst b; match goal with K : neg_const _ |- _ => destruct K as (? & ? & [? [K1|K1]] & K2); subst; discriminate end.
    + destruct (add_equ b a d g) as [d' g']. intros K. inversion K; subst; [apply Ea, neg_const_lit; assumption|]. destruct Q as [_ Q].
      match goal with K : neg_const _ |- _ => destruct K as (j & c & [? Kc] & ->) end. destruct (Q _ _ eq_refl) as (? & ? & ? & ? & ->). destruct Kc; discriminate.
    + apply bad_equ_r; [exact Ea|]. destruct Q as (j & h & -> & Q). destruct (lit_cases _ Eb) as [(? & ? & ? & ? & ?)|[[? [?|?]]|[?|(j' & h' & E & P)]]]; try discriminate; auto.
      injection E as _ ->. contradiction.
  - apply atomic_nlit in Ea, Eb. intros K. inversion K; subst; match goal with K : neg_const _ |- _ => apply neg_const_lit in K end; contradiction.
Qed.

Lemma pred_not_const f : pred f -> ~ const f.
Proof. intros (? & ? & ? & ? & ->) [? [K|K]]; discriminate. Qed.
Lemma pred_not_neg f : pred f -> ~ neg_const f.
Proof. intros (? & ? & ? & ? & ->) (? & ? & _ & K); discriminate. Qed.
Lemma not_pred_const j h : pred h -> ~ const (Not j h).
Proof. intros _ [? [K|K]]; discriminate. Qed.
Lemma not_pred_neg j h : pred h -> ~ neg_const (Not j h).
Proof. intros P (? & c & C & K). injection K as _ ->. exact (pred_not_const _ P C). Qed.
Lemma is_pred_ok f : is_pred f = true <-> pred f.
Proof. unfold pred. destruct f; cbn; split; try discriminate; try (intros (? & ? & ? & ? & ?); discriminate); eauto. Qed.
Lemma from_negated f : literal f -> match pred_from_negated f with
  | Some p => exists j, f = Not j p /\ pred p
  | None => pred f \/ const f \/ neg_const f
  end.
Proof.
  intros L. destruct (lit_cases f L) as [H|[H|[H|(j & h & -> & P)]]].
  - pose proof H as (? & ? & ? & ? & ->). cbn. auto.
  - pose proof H as [? [-> | ->]]; cbn; auto.
  - pose proof H as (? & ? & [? [-> | ->]] & ->); cbn; auto.
  - pose proof P as (? & ? & ? & ? & ->). cbn. eauto.
Qed.
Lemma equality_lit f : equality eqi f -> literal f.
Proof. intros (? & ? & ? & ? & _ & [-> |[? ->]]); [apply lit_pos|apply lit_neg]; constructor. Qed.
Lemma equality_not_const f : equality eqi f -> ~ const f /\ ~ neg_const f.
Proof.
  intros (i & p & ty & l & _ & [-> |[j ->]]); split; try (intros [? [K|K]]; discriminate); intros (? & ? & [? [K1|K1]] & K); subst; discriminate.
Qed.
Lemma imp_ok i a b d g : pol = true -> match rules_of_imp eqi a b d g with
  | Crash => bad eqi pol (Imp i a b) | Ok _ => ~ bad eqi pol (Imp i a b) | _ => False end.
Proof.
  intros P. unfold rules_of_imp.
  destruct (negb (is_atomic a) && negb (is_atomic b)) eqn:N.
  { apply andb_true_iff in N. destruct N as [Na Nb]. apply negb_true_iff in Na, Nb. apply atomic_nlit in Na, Nb.
    intros K; inversion K; subst.
    - match goal with H : _ \/ _ |- _ => destruct H; contradiction end.
    - apply Na, const_lit; assumption.
    - match goal with H : _ \/ _ |- _ => destruct H; apply Nb; [apply const_lit|apply neg_const_lit]; assumption end. }
  assert (L : literal a \/ literal b).
  { apply andb_false_iff in N. rewrite !negb_false_iff, !atomic_lit in N. exact N. }
  clear N. pose proof (equality_pred eqi a) as Q. destruct (is_equality_pred eqi a) as [[]|].
  - intros K; inversion K; subst; try contradiction.
    + destruct Q as (i1 & p1 & t1 & l1 & _ & [Q|[j1 Q]]); try discriminate. injection Q as _ ->. match goal with H : ~ pred _ |- _ => apply H; unfold pred; eauto end.
    + apply (proj1 (equality_not_const _ Q)). assumption.
  - destruct Q as [Q1 Q2].
    assert (G : const b \/ neg_const b -> bad eqi pol (Imp i a b)) by (intros H; apply bad_imp_r; assumption).
    assert (R : (const a -> False) -> (const b \/ neg_const b -> False) -> ~ bad eqi pol (Imp i a b)).
    { intros H1 H2 K; inversion K; subst; auto. match goal with H : ~ pred ?h |- _ => apply H, (Q2 _ _ eq_refl) end. }
    assert (C : const a -> bad eqi pol (Imp i a b)) by (intros H; apply bad_imp_l; assumption).
    assert (S : forall d1, (const a -> False) -> match (if is_atomic b then
        match is_equality_pred eqi b with
        | None => Crash
        | Some true => Ok (true, d1, g)
        | Some false =>
          let '(na, g) := maker_not a g in
          if is_pred b then Ok (true, add_neg b na d1, g)
          else match pred_from_negated b with Some p => Ok (true, add_pos p na d1, g) | None => Crash end
        end
      else Ok (true, d1, g)) with Crash => bad eqi pol (Imp i a b) | Ok _ => ~ bad eqi pol (Imp i a b) | _ => False end).
    { intros d1 NC. destruct (is_atomic b) eqn:Eb.
      - apply atomic_lit in Eb. pose proof (equality_pred eqi b) as B. destruct (is_equality_pred eqi b) as [[]|].
        + apply R; [exact NC|]. destruct (equality_not_const _ B). tauto.
        + destruct (maker_not a g) as [na g1]. destruct (is_pred b) eqn:Pb.
          * apply is_pred_ok in Pb. apply R; [exact NC|]. intros [H|H]; [exact (pred_not_const _ Pb H)|exact (pred_not_neg _ Pb H)].
          * pose proof (from_negated b Eb) as F. destruct (pred_from_negated b) as [p|].
            -- destruct F as (j & -> & Pp). apply R; [exact NC|]. intros [H|H]; [exact (not_pred_const j _ Pp H)|exact (not_pred_neg j _ Pp H)].
            -- apply G. destruct F as [F|F]; [apply is_pred_ok in F; congruence|exact F].
        + apply G. destruct B as (j & h & -> & B). destruct (lit_cases _ Eb) as [(? & ? & ? & ? & ?)|[H|[H|(j' & h' & E & Ph)]]]; auto; [discriminate|].
          injection E as _ ->. contradiction.
      - apply atomic_nlit in Eb. apply R; [exact NC|]. intros [H|H]; apply Eb; [apply const_lit|apply neg_const_lit]; exact H. }
    destruct (is_atomic a) eqn:Ea.
    + apply atomic_lit in Ea. destruct (is_pred a) eqn:Pa.
      * apply S. apply is_pred_ok in Pa. exact (pred_not_const _ Pa).
      * pose proof (from_negated a Ea) as F. destruct (pred_from_negated a) as [p|].
        -- destruct F as (j & -> & Pp). apply S. exact (not_pred_const j _ Pp).
        -- apply C. destruct F as [F|[F|(? & ? & Fc & ->)]]; [apply is_pred_ok in F; congruence|exact F|].
           exfalso. apply (pred_not_const _ (Q2 _ _ eq_refl) Fc).
    + apply S. intros H. apply const_lit, atomic_lit in H. congruence.
  - destruct Q as (j & h & -> & Q). eapply bad_imp_not; eauto.
Qed.
(** C44: exactly the bad axioms make the registration panic. *)
Theorem register_crash ax d g : f_noid ax -> binds ax ->
  match register eqi pol ax d g with
  | Crash => bad eqi pol (matrix ax) | Ok _ => ~ bad eqi pol (matrix ax) | _ => False end.
Proof.
  intros N B. unfold register. destruct (inst_total (S (prefix ax)) ax g N B ltac:(lia)) as (r & g1 & E & S & _). rewrite E. cbn [bind].
  assert (M : bad eqi pol r <-> bad eqi pol (matrix ax)) by (rewrite <- (skel_bad eqi pol r), S; apply skel_bad).
  destruct r as [| | | |i a b|i a b| | | |];
    try (intros K; apply M in K; inversion K; fail).
  - pose proof (equ_ok i a b (mkDmt (d_pos d) (d_neg d) (d_axioms d ++ [ax])) g1) as Q. destruct (rules_of_equ eqi a b _ g1); try rewrite <- M; exact Q.
  - assert (Ep : pol = true \/ pol = false) by (destruct pol; auto). destruct Ep as [Ep|Ep].
    + replace (if pol then _ else _) with (rules_of_imp eqi a b (mkDmt (d_pos d) (d_neg d) (d_axioms d ++ [ax])) g1) by (rewrite Ep; reflexivity). pose proof (imp_ok i a b (mkDmt (d_pos d) (d_neg d) (d_axioms d ++ [ax])) g1 Ep) as Q. destruct (rules_of_imp eqi a b _ g1); try rewrite <- M; exact Q.
    + replace (if pol then _ else _) with (Ok (false, d, g1)) by (rewrite Ep; reflexivity). intros K; apply M in K; inversion K; congruence.
Qed.
End Reg.

(** *** The meaning is kept by the instantiation *)
Lemma inst_sound n : forall f g, wff g f -> untyped f -> binds f -> (prefix f < n)%nat ->
  exists r g', inst_foralls n f g = Ok (r, g') /\ cpt_term g <= cpt_term g' /\ wff g' r /\
    (forall I (w : val I), holds f w -> holds r w) /\ (forall I, (forall w : val I, holds r w) -> forall w : val I, holds f w) /\
    (forall b, In b (f_metas r) -> In b (f_metas f) \/ cpt_term g <= b < cpt_term g').
Proof.
  induction n as [|n IH]; intros f g W U B L; [lia|]. destruct f as [i vs h| | | | | | | | |];
    try (cbn; do 2 eexists; repeat (split; [first [reflexivity|lia|exact W|auto]|]); auto; fail).
  destruct B as [B1 B2]. destruct (gamma_shape i vs h [] (-1) g B1 (wf_noid _ _ W)) as (x & m & g' & E & N1 & S1 & P1).
  destruct vs as [|v vs]; [congruence|].
  destruct (gamma_term (mkFat (All i (v :: vs) h) []) (-1) g v) as (y & m' & g2 & E2 & M1 & M2 & M3 & W2 & M4 & _ & Bi & S).
  { constructor. } { exact W. } { reflexivity. } { apply U. left. reflexivity. }
  rewrite E in E2. injection E2 as <- -> <-. cbn [inst_foralls]. rewrite E. cbn [ft_form] in *.
  destruct (IH (ft_form x) g' W2) as (r & g3 & E3 & L3 & W3 & H1 & H2 & H3).
  - intros z Hz. apply U, Bi, Hz.
  - apply binds_prefixes. rewrite P1. apply binds_prefixes in B2. destruct vs as [|b vs]; auto. cbn. intros [K|K]; [discriminate|contradiction].
  - cbn [prefix] in L. rewrite !prefix_sum in *. rewrite P1. destruct vs as [|b vs]; cbn in *; lia.
  - exists r, g3. split; [exact E3|]. split; [lia|]. split; [exact W3|]. split; [|split].
    + intros I w Hw. apply H1. apply (set_mv_self I _ w (m_index m')). apply (proj1 (S I w) Hw).
    + intros I Hw w. apply S. intros d. apply H2, Hw.
    + intros b Hb. apply H3 in Hb. destruct Hb as [Hb|Hb]; [|lia]. apply M4 in Hb. destruct Hb as [Hb| ->]; [auto|lia].
Qed.

(** *** The meaning of the rules *)
Definition valid (I : interp) (d : dmt) : Prop := rules_valid I (d_pos d) (d_neg d).
Lemma valid_pos I a c d : valid I (add_pos a c d) <-> valid I d /\ rule_valid I true (remove_neg a, c).
Proof.
  unfold valid, rules_valid, add_pos. cbn. split.
  - intros [H1 H2]. split; [split|]; auto; [intros r Hr; apply H1, in_or_app; auto|apply H1, in_or_app; right; left; reflexivity].
  - intros [[H1 H2] H]. split; auto. intros r Hr. apply in_app_or in Hr. destruct Hr as [Hr|[<-|[]]]; auto.
Qed.
Lemma valid_neg I a c d : valid I (add_neg a c d) <-> valid I d /\ rule_valid I false (remove_neg a, c).
Proof.
  unfold valid, rules_valid, add_neg. cbn. split.
  - intros [H1 H2]. split; [split|]; auto; [intros r Hr; apply H2, in_or_app; auto|apply H2, in_or_app; right; left; reflexivity].
  - intros [[H1 H2] H]. split; auto. intros r Hr. apply in_app_or in Hr. destruct Hr as [Hr|[<-|[]]]; auto.
Qed.
Lemma remove_neg_pos a : literal a -> is_not a = false -> remove_neg a = a.
Proof. intros L N. destruct a; try discriminate; reflexivity. Qed.
Lemma remove_neg_not j h : atomic h -> remove_neg (Not j h) = h.
Proof. intros A. destruct A; reflexivity. Qed.
Lemma remove_neg_atom h : atomic h -> remove_neg h = h.
Proof. intros A. destruct A; reflexivity. Qed.
Lemma pred_atomic h : pred h -> atomic h.
Proof. intros (? & ? & ? & ? & ->). constructor. Qed.

Lemma add_equ_valid I a c d g d' g' : literal a -> add_equ a c d g = (d', g') ->
  cpt_term g' = cpt_term g /\ (valid I d' <-> valid I d /\ forall w : val I, holds a w <-> holds c w).
Proof.
  intros L E. unfold add_equ in E. destruct (maker_not c g) as [nc g1] eqn:En.
  assert (Nc : exists k, nc = Not k c) by (cbv [maker_not maker_index_formula] in En; injection En as <- _; eauto). destruct Nc as [k ->].
  assert (Eg : cpt_term g1 = cpt_term g) by (cbv [maker_not maker_index_formula] in En; injection En as _ <-; reflexivity).
  destruct L as [h A|j h A].
  - assert (N : is_not h = false) by (destruct A; reflexivity). rewrite N in E. injection E as <- <-. split; [exact Eg|].
    rewrite valid_neg, valid_pos, (remove_neg_atom _ A). unfold rule_valid. cbn. split.
    + intros [[V H1] H2]. split; [exact V|]. intros w. split; [apply H1|]. intros Hc. apply NNPP. intros K. exact (H2 w K Hc).
    + intros [V H]. repeat split; try apply V; intros w Hw; specialize (H w); tauto.
  - cbn [is_not] in E. injection E as <- <-. split; [exact Eg|].
    rewrite valid_neg, valid_pos, (remove_neg_not _ _ A). unfold rule_valid. cbn. split.
    + intros [[V H1] H2]. split; [exact V|]. intros w. split; [apply H2|]. intros Hc Hh. exact (H1 w Hh Hc).
    + intros [V H]. repeat split; try apply V; intros w Hw; specialize (H w); tauto.
Qed.
Section RegM.
Variable (eqi : Z).
Lemma equ_valid I a b d g c d' g' : rules_of_equ eqi a b d g = Ok (c, d', g') ->
  cpt_term g' = cpt_term g /\ d_axioms d' = d_axioms d /\
  (c = false -> d_pos d' = d_pos d /\ d_neg d' = d_neg d) /\
  (c = true -> (valid I d' <-> valid I d /\ forall w : val I, holds a w <-> holds b w)).
Proof.
  unfold rules_of_equ. intros E.
  assert (G : forall x y, literal x -> match is_equality_pred eqi x with
      | None => Crash
      | Some true => Ok (false, d, g)
      | Some false => let '(d, g) := add_equ x y d g in Ok (true, d, g)
      end = Ok (c, d', g') -> cpt_term g' = cpt_term g /\ d_axioms d' = d_axioms d /\
      (c = false -> d_pos d' = d_pos d /\ d_neg d' = d_neg d) /\
      (c = true -> (valid I d' <-> valid I d /\ forall w : val I, holds x w <-> holds y w))).
  { intros x y Lx E1. destruct (is_equality_pred eqi x) as [[]|]; [injection E1 as <- <- <-; split; [reflexivity|]; split; [reflexivity|]; split; [auto|discriminate]| |discriminate].
    destruct (add_equ x y d g) as [d1 g1] eqn:Ea. injection E1 as <- <- <-. pose proof (add_equ_valid I x y d g d1 g1 Lx Ea) as [H1 H2].
    split; [exact H1|]. split; [|split; [discriminate|auto]].
    unfold add_equ in Ea. destruct (maker_not y g) as [ny g2]. destruct (is_not x); injection Ea as <- <-; reflexivity. }
  destruct (is_atomic a) eqn:Ea, (is_atomic b) eqn:Eb; cbn [Bool.eqb] in E.
  - injection E as <- <- <-. split; [reflexivity|]. split; [reflexivity|]. split; [auto|discriminate].
  - apply atomic_lit in Ea. exact (G a b Ea E).
  - apply atomic_lit in Eb. destruct (G b a Eb E) as (H1 & H2 & H3 & H4). split; [exact H1|]. split; [exact H2|]. split; [exact H3|].
    intros Hc. rewrite (H4 Hc). split; intros [V H]; (split; [exact V|]); intros w; specialize (H w); tauto.
  - injection E as <- <- <-. split; [reflexivity|]. split; [reflexivity|]. split; [auto|discriminate].
Qed.
Lemma imp_valid I a b d g c d' g' : rules_of_imp eqi a b d g = Ok (c, d', g') ->
  cpt_term g' = cpt_term g /\ d_axioms d' = d_axioms d /\
  (c = false -> d_pos d' = d_pos d /\ d_neg d' = d_neg d) /\
  (valid I d -> (forall w : val I, holds a w -> holds b w) -> valid I d') /\
  (c = true -> valid I d' -> valid I d /\ (~ (~ literal a /\ equality eqi b) -> forall w : val I, holds a w -> holds b w)).
Proof.
  unfold rules_of_imp. intros E.
  assert (F : Ok (false, d, g) = Ok (c, d', g') -> cpt_term g' = cpt_term g /\ d_axioms d' = d_axioms d /\
    (c = false -> d_pos d' = d_pos d /\ d_neg d' = d_neg d) /\
    (valid I d -> (forall w : val I, holds a w -> holds b w) -> valid I d') /\
    (c = true -> valid I d' -> valid I d /\ (~ (~ literal a /\ equality eqi b) -> forall w : val I, holds a w -> holds b w))).
  { intros E1. injection E1 as <- <- <-. repeat (split; [auto|]). discriminate. }
  destruct (negb (is_atomic a) && negb (is_atomic b)) eqn:N; [exact (F E)|].
  destruct (is_equality_pred eqi a) as [[]|]; [exact (F E)| |discriminate]. clear F.
  match type of E with bind ?x _ = _ => destruct x as [d1| | |] eqn:E1; try discriminate end. cbn [bind] in E.
  (* the first rule *)
  assert (R1 : d_axioms d1 = d_axioms d /\ (valid I d -> (forall w : val I, holds a w -> holds b w) -> valid I d1) /\
    (valid I d1 -> valid I d /\ (literal a -> forall w : val I, holds a w -> holds b w))).
  { destruct (is_atomic a) eqn:Ea.
    - apply atomic_lit in Ea. destruct (is_pred a) eqn:Pa.
      + injection E1 as <-. apply is_pred_ok, pred_atomic in Pa. split; [reflexivity|]. rewrite valid_pos, (remove_neg_atom _ Pa). unfold rule_valid. cbn. split.
        * intros V H. split; [exact V|exact H].
        * intros [V H]. split; [exact V|intros _; exact H].
      + pose proof (from_negated a Ea) as Fn. destruct (pred_from_negated a) as [p|]; [|discriminate]. injection E1 as <-.
        destruct Fn as (j & -> & Pp). apply pred_atomic in Pp. split; [reflexivity|]. rewrite valid_neg, (remove_neg_atom _ Pp). unfold rule_valid. cbn. split.
        * intros V H. split; [exact V|exact H].
        * intros [V H]. split; [exact V|intros _; exact H].
    - injection E1 as <-. split; [reflexivity|]. split; [auto|]. intros V. split; [exact V|]. intros L. apply atomic_lit in L. congruence. }
  destruct R1 as (A1 & V1 & V2).
  assert (T : Ok (true, d1, g) = Ok (c, d', g') -> (literal a \/ ~ literal a /\ equality eqi b) -> cpt_term g' = cpt_term g /\ d_axioms d' = d_axioms d /\
    (c = false -> d_pos d' = d_pos d /\ d_neg d' = d_neg d) /\
    (valid I d -> (forall w : val I, holds a w -> holds b w) -> valid I d') /\
    (c = true -> valid I d' -> valid I d /\ (~ (~ literal a /\ equality eqi b) -> forall w : val I, holds a w -> holds b w))).
  { intros E2 C. injection E2 as <- <- <-. split; [reflexivity|]. split; [exact A1|]. split; [discriminate|]. split; [exact V1|].
    intros _ V. destruct (V2 V) as [V3 V4]. split; [exact V3|]. intros K. apply V4. tauto. }
  destruct (is_atomic b) eqn:Eb.
  - apply atomic_lit in Eb. pose proof (equality_pred eqi b) as Qb. destruct (is_equality_pred eqi b) as [[]|]; [| |discriminate].
    + apply (T E). destruct (lit_dec a); auto.
    + destruct (maker_not a g) as [na g1] eqn:En.
      assert (Na : exists k, na = Not k a) by (cbv [maker_not maker_index_formula] in En; injection En as <- _; eauto). destruct Na as [k ->].
      assert (Eg : cpt_term g1 = cpt_term g) by (cbv [maker_not maker_index_formula] in En; injection En as _ <-; reflexivity).
      destruct (is_pred b) eqn:Pb.
      * injection E as <- <- <-. apply is_pred_ok, pred_atomic in Pb. split; [exact Eg|]. split; [exact A1|]. split; [discriminate|].
        rewrite valid_neg, (remove_neg_atom _ Pb). unfold rule_valid. cbn. split.
        -- intros V H. split; [exact (V1 V H)|]. intros w K Ka. apply K, H, Ka.
        -- intros _ [V H]. destruct (V2 V) as [V3 _]. split; [exact V3|]. intros _ w Ha. apply NNPP. intros K. exact (H w K Ha).
      * pose proof (from_negated b Eb) as Fn. destruct (pred_from_negated b) as [p|]; [|discriminate]. injection E as <- <- <-.
        destruct Fn as (j & -> & Pp). apply pred_atomic in Pp. split; [exact Eg|]. split; [exact A1|]. split; [discriminate|].
        rewrite valid_pos, (remove_neg_atom _ Pp). unfold rule_valid. cbn. split.
        -- intros V H. split; [exact (V1 V H)|]. intros w K Ka. exact (H w Ka K).
        -- intros _ [V H]. destruct (V2 V) as [V3 _]. split; [exact V3|]. intros _ w Ha Hp. exact (H w Hp Ha).
  - apply (T E). left. destruct (is_atomic a) eqn:Ea; [apply atomic_lit, Ea|discriminate].
Qed.
Lemma skel_dropped f : dropped eqi (skel f) <-> dropped eqi f.
Proof.
  split; intros (i & a & b & E & L & Q).
  - destruct f; try discriminate. injection E as _ <- <-. rewrite skel_lit in L. rewrite skel_eq in Q. unfold dropped. eauto 6.
  - subst f. exists 0, (skel a), (skel b). rewrite skel_lit, skel_eq. auto.
Qed.
Definition true_in (I : interp) (f : form) : Prop := forall w : val I, holds f w.
Theorem register_valid pol ax d g c d' g' I : wff g ax -> untyped ax -> binds ax -> register eqi pol ax d g = Ok (c, d', g') ->
  cpt_term g <= cpt_term g' /\ (c = false -> d_pos d' = d_pos d /\ d_neg d' = d_neg d) /\
  (valid I d -> true_in I ax -> valid I d') /\
  (c = true -> valid I d' -> valid I d /\ (~ dropped eqi (matrix ax) -> true_in I ax)).
Proof.
  intros W U B E. unfold register in E.
  destruct (inst_total (S (prefix ax)) ax g (wf_noid _ _ W) B ltac:(lia)) as (r & g1 & E1 & Sk & _).
  destruct (inst_sound (S (prefix ax)) ax g W U B ltac:(lia)) as (r' & g1' & E1' & L & _ & H1 & H2 & _).
  rewrite E1 in E1'. injection E1' as <- <-. rewrite E1 in E. cbn [bind] in E.
  assert (Dr : dropped eqi r <-> dropped eqi (matrix ax)) by (rewrite <- (skel_dropped r), Sk; apply skel_dropped).
  assert (F : Ok (false, d, g1) = Ok (c, d', g') -> cpt_term g <= cpt_term g' /\ (c = false -> d_pos d' = d_pos d /\ d_neg d' = d_neg d) /\
    (valid I d -> true_in I ax -> valid I d') /\ (c = true -> valid I d' -> valid I d /\ (~ dropped eqi (matrix ax) -> true_in I ax))).
  { intros E2. injection E2 as <- <- <-. split; [exact L|]. split; [auto|]. split; [auto|discriminate]. }
  destruct r as [| | | |i a b|i a b| | | |]; try exact (F E).
  - destruct (equ_valid I a b _ _ _ _ _ E) as (G1 & _ & G2 & G3). split; [lia|]. split; [exact G2|]. split.
    + intros V T. destruct c; [apply G3; [reflexivity|]; split; [exact V|intros w; exact (H1 I w (T w))]|].
      destruct (G2 eq_refl) as [Q1 Q2]. unfold valid in *. rewrite Q1, Q2. exact V.
    + intros Hc V. apply (G3 Hc) in V. destruct V as [V T]. split; [exact V|]. intros _. intros w. apply H2. exact T.
  - destruct pol; [|exact (F E)]. destruct (imp_valid I a b _ _ _ _ _ E) as (G1 & _ & G2 & G3 & G4). split; [lia|]. split; [exact G2|]. split.
    + intros V T. apply G3; [exact V|]. intros w. exact (H1 I w (T w)).
    + intros Hc V. destruct (G4 Hc V) as [V' T]. split; [exact V'|]. intros ND w. refine (H2 I (T _) w).
      intros [K1 K2]. apply ND, Dr. exists i, a, b. auto.
Qed.
(** C43 and C56, on a list of axioms: what is left and the rules have the models of the axioms. *)
Theorem register_all_valid pol axs : forall d g l d' g' I, Forall (wff g) axs -> Forall untyped axs -> Forall binds axs ->
  register_all eqi pol axs d g = Ok (l, d', g') ->
  incl l axs /\ (valid I d -> Forall (true_in I) axs -> valid I d' /\ Forall (true_in I) l) /\
  (Forall (fun ax => ~ dropped eqi (matrix ax)) axs -> valid I d' -> Forall (true_in I) l -> valid I d /\ Forall (true_in I) axs).
Proof.
  induction axs as [|ax r IH]; intros d g l d' g' I W U B E; cbn [register_all] in E.
  - injection E as <- <- <-. split; [apply incl_refl|]. auto.
  - inversion W; inversion U; inversion B; subst. destruct (register eqi pol ax d g) as [[[c d1] g1]| | |] eqn:E1; try discriminate. cbn [bind] in E.
    destruct (register_all eqi pol r d1 g1) as [[[l2 d2] g2]| | |] eqn:E2; try discriminate. cbn [bind] in E. injection E as <- <- <-.
    destruct (register_valid pol ax d g c d1 g1 I) as (L & G1 & G2 & G3); auto.
    destruct (IH d1 g1 l2 d2 g2 I) as (K1 & K2 & K3); auto.
    { apply (Forall_impl (P := wff g)); [|assumption]. intros f Hf. exact (wff_mono _ _ _ L Hf). }
    split; [|split].
    + destruct c; [apply incl_tl, K1|]. intros x [<-|Hx]; [left; reflexivity|right; apply K1, Hx].
    + intros V T. inversion T; subst. destruct (K2 (G2 V ltac:(assumption)) ltac:(assumption)) as [V2 T2]. split; [exact V2|].
      destruct c; [exact T2|constructor; assumption].
    + intros ND V T. inversion ND; subst. destruct c.
      * destruct (K3 ltac:(assumption) V T) as [V1 T1]. destruct (G3 eq_refl V1) as [V0 T0]. split; [exact V0|]. constructor; auto.
      * inversion T; subst. destruct (K3 ltac:(assumption) V ltac:(assumption)) as [V1 T1]. destruct (G1 eq_refl) as [Q1 Q2].
        split; [unfold valid in *; rewrite Q1, Q2 in V1; exact V1|]. constructor; auto.
Qed.
End RegM.
