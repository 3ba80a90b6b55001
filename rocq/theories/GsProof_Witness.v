(** Tableaux that are translated, and tableaux that are not (C73, C74, C75). *)
From Coq Require Import ZArith List Bool String.
From Verif Require Import Ast_Model Sem_Spec Occ_Spec Unif_Model GsTerm_Model GsTerm_Spec GsProof_Model GsProof_Spec GsProof_Fresh GsProof_Sound.
Import ListNotations.
Open Scope string_scope.
Open Scope list_scope.
Open Scope Z_scope.

Definition iota : ty := TyConstr "$i" [].
Definition vx : tvar := mkTV "x" 1 iota.
Definition vy : tvar := mkTV "y" 2 iota.
Definition vz : tvar := mkTV "z" 3 iota.
Definition vw : tvar := mkTV "w" 4 iota.
Definition X : term := Var 1 "x". Definition Y : term := Var 2 "y". Definition Zt : term := Var 3 "z". Definition Wt : term := Var 4 "w".
Definition eq0 : form := Pred 0 (mkId 1 "=") [] [].
Definition p1 (t : term) : form := Pred 0 (mkId 12 "d") [] [t].
Definition p2 (s t : term) : form := Pred 0 (mkId 13 "p") [] [s; t].
Definition q1 (t : term) : form := Pred 0 (mkId 14 "q") [] [t].
Definition a0 : term := Fun (mkId 40 "a") [] [].
Definition sk : term := Fun (mkId 50 "skolem@y@0") [] [].
Definition s2 : term := Fun (mkId 51 "skolem@y@1") [] [].
Definition s1 (t : term) : term := Fun (mkId 52 "skolem@z@2") [] [t].

(** the enumeration of the Skolem symbols of a concrete proof *)
Ltac no_delta := match goal with H : delta_by _ _ _ _ _ _ |- _ => solve [inversion H] end.

(** ** A quantifier whose variable does not occur *)
Definition vroot : form := And 0 [Ex 0 [vx] (p1 a0); Not 0 (p1 a0)].
Definition vac : list pstep :=
 [PS vroot 0 1 "ALPHA_AND" [[Ex 0 [vx] (p1 a0); Not 0 (p1 a0)]] [];
  PS (Ex 0 [vx] (p1 a0)) 0 2 "DELTA_EXISTS" [[p1 a0]] [];
  PS (p1 a0) 0 3 "CLOSURE" [] []].
Lemma among_self l : among l l. Proof. intros f H. exists f. split; [exact H|apply Rules_Proofs.form_eqb_refl]. Qed.
Lemma vac_tab : tab any_delta [vroot] vac.
Proof.
  eapply T_alpha; [left; reflexivity|apply (A_and 0)|reflexivity|apply among_self| |reflexivity].
  eapply T_delta with (v := vx) (b := p1 a0) (u := sk); [cbn; auto| |reflexivity|unfold any_delta, sk; eauto| |reflexivity].
  - apply (D_ex 0 [vx] (p1 a0)). left. exists 0. split; reflexivity.
  - apply T_close; [reflexivity|cbn; auto 6| |reflexivity]. right. right. exists (Not 0 (p1 a0)). split; [cbn; auto|]. left. reflexivity.
Qed.
Ltac skos :=
  repeat match goal with
  | H : sko_of [] _ _ |- _ => inversion H
  | H : sko_of (_ :: _) _ _ |- _ => inversion H; subst; clear H
  | H : In _ (ps_children _) |- _ => cbn in H
  | H : In _ _ |- _ => progress (cbn in H)
  | H : _ \/ _ |- _ => destruct H; subst
  | H : False |- _ => destruct H
  end.
Lemma delta_ex f v b u r : delta_by EX f v b u r -> exists i vs g, f = Ex i vs g /\ delta_instance f v b u r.
Proof. intros H. inversion H; subst. eauto 6. Qed.
Lemma vac_skolem : skolemized vroot vac.
Proof.
  assert (N : forall s f, ~ sko_of vac s f).
  { intros s f H. unfold vac in H. inversion H as [? ? v b s' tys args r A B C|? ? s' f' A|? ? c s' f' A B]; subst; [inversion A| |contradiction].
    clear H. inversion A as [? ? v b s' tys args r A1 B C|? ? s' f' A1|? ? c s' f' A1 B]; subst; [|clear A|contradiction].
    - apply delta_ex in A1. destruct A1 as (i & vs & g & E & D). cbn in E. injection E as <- <- <-.
      destruct D as [(i & E & _)|[(i & j & w & rest & E & _)|[(i & j & k & E & _)|(i & j & k & l & w & rest & E & _)]]]; cbn in E; try discriminate.
      injection E as E1 E2 E3. subst. cbn in C. exact C.
    - inversion A1 as [? ? v b s' tys args r A2 B C|? ? s' f' A2|? ? c s' f' A2 B]; subst; [inversion A2|inversion A2|contradiction]. }
  split; intros; exfalso; eapply N; eassumption.
Qed.
Lemma vac_crash : make_gs3 eq0 false 20 None vac = Crash. Proof. vm_compute. reflexivity. Qed.

(** ** Two Skolem symbols, one used before its delta rule *)
Lemma sko_cons p rest s f : sko_of (p :: rest) s f ->
  (exists v b tys args r, delta_by (ps_rule p) (ps_form p) v b (Fun s tys args) r /\ ps_results p = [[r]] /\ f = ps_form p) \/
  sko_of rest s f \/ exists c, In c (ps_children p) /\ sko_of c s f.
Proof. intros H. inversion H; subst; [left|right; left|right; right]; eauto 10. Qed.
Lemma sko_ex i v body s tys args v' b r : delta_by EX (Ex i [v] body) v' b (Fun s tys args) r -> r = fvinst (tv_index v) (Fun s tys args) body.
Proof.
  intros H. apply delta_ex in H. destruct H as (? & ? & ? & _ & D).
  destruct D as [(j & E & ->)|[(j & k & w & rest & E & _)|[(j & k & l & E & _)|(j & k & l & m & w & rest & E & _)]]]; try discriminate. injection E as E1 E2 E3. subst. reflexivity.
Qed.
Lemma sko_alpha r f v b u x l : alpha_of r f l -> ~ delta_by r f v b u x. Proof. intros [] H; inversion H. Qed.
Ltac skip_step H := apply sko_cons in H; destruct H as [(? & ? & ? & ? & ? & H & _)|[H|(? & [] & _)]]; [solve [inversion H]|].
Ltac ex_step H := apply sko_cons in H; destruct H as [(? & ? & ? & ? & ? & H & E & ->)|[H|(? & [] & _)]]; [apply sko_ex in H; subst; cbn in E; injection E as E; subst|].

Definition A1 (t : term) : form := Ex 0 [vz] (p2 t Zt).
Definition A2 : form := Ex 0 [vy] (All 0 [vz] (Not 0 (p2 Y Zt))).
Definition B2 : form := All 0 [vz] (Not 0 (p2 s2 Zt)).
Definition g0 : form := All 0 [vx] (And 0 [A1 X; A2]).
Definition two : list pstep :=
 [PS g0 0 1 "GAMMA_FORALL" [[And 0 [A1 s2; A2]]] [];
  PS (And 0 [A1 s2; A2]) 0 2 "ALPHA_AND" [[A1 s2; A2]] [];
  PS (A1 s2) 0 3 "DELTA_EXISTS" [[p2 s2 (s1 s2)]] [];
  PS A2 0 4 "DELTA_EXISTS" [[B2]] [];
  PS B2 0 5 "GAMMA_FORALL" [[Not 0 (p2 s2 (s1 s2))]] [];
  PS (p2 s2 (s1 s2)) 0 6 "CLOSURE" [] []].
Ltac by_all := apply (G_all 0); left; exists 0; split; reflexivity.
Ltac by_ex := apply (D_ex 0); left; exists 0; split; reflexivity.
Lemma two_tab : tab any_delta [g0] two.
Proof.
  eapply T_gamma with (v := vx) (u := s2); [left; reflexivity|by_all|reflexivity| |reflexivity].
  eapply T_alpha; [cbn; auto|apply (A_and 0)|reflexivity|apply among_self| |reflexivity].
  eapply T_delta with (v := vz) (u := s1 s2); [cbn; auto 6|by_ex|reflexivity|unfold any_delta, s1; eauto| |reflexivity].
  eapply T_delta with (v := vy) (u := s2); [cbn; auto 6|by_ex|reflexivity|unfold any_delta, s2; eauto| |reflexivity].
  eapply T_gamma with (v := vz) (u := s1 s2); [cbn; auto 10|by_all|reflexivity| |reflexivity].
  apply T_close; [reflexivity|cbn; auto 10| |reflexivity]. right. right. exists (Not 0 (p2 s2 (s1 s2))). split; [cbn; auto 10|left; reflexivity].
Qed.
Lemma two_sko s f : sko_of two s f -> s = mkId 52 "skolem@z@2" /\ f = A1 s2 \/ s = mkId 51 "skolem@y@1" /\ f = A2.
Proof.
  intros H. unfold two in H. skip_step H. skip_step H. ex_step H; [left; auto|]. ex_step H; [right; auto|]. skip_step H. skip_step H. inversion H.
Qed.
Lemma two_skolem : skolemized g0 two.
Proof.
  split.
  - intros s f H. destruct (two_sko s f H) as [[-> ->]|[-> ->]]; split; cbn; intuition discriminate.
  - intros s s' f f' H H' E. destruct (two_sko s f H) as [[-> ->]|[-> ->]], (two_sko s' f' H') as [[-> ->]|[-> ->]]; try discriminate; reflexivity.
Qed.

(** ** A Skolem term inside a Skolem term *)
Definition body (y z : term) : form := Not 0 (And 0 [p2 y z; q1 z]).
Definition C2 : form := Ex 0 [vy] (All 0 [vz] (body Y Zt)).
Definition D2 : form := All 0 [vz] (body s2 Zt).
Definition h1 : form := All 0 [vx] (And 0 [A1 X; C2]).
Definition h2 : form := All 0 [vw] (q1 Wt).
Definition nroot : form := And 0 [h1; h2].
Definition nest : list pstep :=
 [PS nroot 0 1 "ALPHA_AND" [[h1; h2]] [];
  PS h1 0 2 "GAMMA_FORALL" [[And 0 [A1 s2; C2]]] [];
  PS (And 0 [A1 s2; C2]) 0 3 "ALPHA_AND" [[A1 s2; C2]] [];
  PS (A1 s2) 0 4 "DELTA_EXISTS" [[p2 s2 (s1 s2)]] [];
  PS h2 0 5 "GAMMA_FORALL" [[q1 (s1 s2)]] [];
  PS C2 0 6 "DELTA_EXISTS" [[D2]] [];
  PS D2 0 7 "GAMMA_FORALL" [[body s2 (s1 s2)]] [];
  PS (body s2 (s1 s2)) 0 8 "BETA_NOT_AND" [[Not 0 (p2 s2 (s1 s2))]; [Not 0 (q1 (s1 s2))]]
    [[PS (p2 s2 (s1 s2)) 0 9 "CLOSURE" [] []]; [PS (q1 (s1 s2)) 0 10 "CLOSURE" [] []]]].
Lemma nest_tab : tab any_delta [nroot] nest.
Proof.
  eapply T_alpha; [left; reflexivity|apply (A_and 0)|reflexivity|apply among_self| |reflexivity].
  eapply T_gamma with (v := vx) (u := s2); [cbn; auto|by_all|reflexivity| |reflexivity].
  eapply T_alpha; [cbn; auto|apply (A_and 0)|reflexivity|apply among_self| |reflexivity].
  eapply T_delta with (v := vz) (u := s1 s2); [cbn; auto 8|by_ex|reflexivity|unfold any_delta, s1; eauto| |reflexivity].
  eapply T_gamma with (v := vw) (u := s1 s2); [cbn; auto|by_all|reflexivity| |reflexivity].
  eapply T_delta with (v := vy) (u := s2); [cbn; auto 10|by_ex|reflexivity|unfold any_delta, s2; eauto| |reflexivity].
  eapply T_gamma with (v := vz) (u := s1 s2); [cbn; auto 12|by_all|reflexivity| |reflexivity].
  eapply T_beta; [cbn; auto 14|apply (B_nand 0 0)| |discriminate|].
  - repeat constructor; apply among_self.
  - constructor; [|constructor; [|constructor]]; (apply T_close; [reflexivity|cbn; auto 14| |reflexivity]); right; right; eexists; (split; [apply in_or_app; right; left; reflexivity|left; reflexivity]).
Qed.
Lemma nest_sko s f : sko_of nest s f -> s = mkId 52 "skolem@z@2" /\ f = A1 s2 \/ s = mkId 51 "skolem@y@1" /\ f = C2.
Proof.
  intros H. unfold nest in H. do 3 skip_step H. ex_step H; [left; auto|]. skip_step H. ex_step H; [right; auto|]. skip_step H.
  apply sko_cons in H. destruct H as [(? & ? & ? & ? & ? & H & _)|[H|(c & [<-|[<-|[]]] & H)]]; [solve [inversion H]|solve [inversion H]| |]; skip_step H; inversion H.
Qed.
Lemma nest_skolem : skolemized nroot nest.
Proof.
  split.
  - intros s f H. destruct (nest_sko s f H) as [[-> ->]|[-> ->]]; split; cbn; intuition discriminate.
  - intros s s' f f' H H' E. destruct (nest_sko s f H) as [[-> ->]|[-> ->]], (nest_sko s' f' H') as [[-> ->]|[-> ->]]; try discriminate; reflexivity.
Qed.
Lemma nest_crash : make_gs3 eq0 false 20 None nest = Crash. Proof. vm_compute. reflexivity. Qed.
(** the variables of the quantifiers occur *)
Lemma nest_occurs s f : sko_of nest s f -> exists v i vs g, f = Ex i (v :: vs) g /\ In (tv_index v) (f_vars g).
Proof.
  intros H. destruct (nest_sko s f H) as [[_ ->]|[_ ->]].
  - exists vz, 0, [], (p2 s2 Zt). split; [reflexivity|cbn; auto].
  - exists vy, 0, [], (All 0 [vz] (body Y Zt)). split; [reflexivity|cbn; auto].
Qed.

(** ** The context is followed along a chain of sequents *)
Fixpoint drop_first (h : form) (l : list form) : option (list form) :=
  match l with [] => None | g :: r => if form_eqb h g then Some r else option_map (cons g) (drop_first h r) end.
Lemma dropped_first h l l' : dropped h l l' -> drop_first h l = Some l'.
Proof.
  unfold same. induction 1 as [g l E|g l l' E H IH]; cbn; [unfold same in E; rewrite E; reflexivity|]. unfold same in E. destruct (form_eqb h g); [destruct (E eq_refl)|]. rewrite IH. reflexivity.
Qed.
Definition next (Gamma : list form) (s : sequent) : option (list form) :=
  match s_hyps s with
  | [] => Some Gamma
  | _ =>
    match s_rule s, s_term s with
    | W, None => match nth_error (s_hyps s) (s_on s) with Some h => drop_first h Gamma | None => None end
    | W, Some _ => Some Gamma
    | _, _ => Some (Gamma ++ nth 0 (s_forms s) [])
    end
  end.
Lemma gs3_next Gamma s k : gs3 Gamma s -> s_kids s = [k] -> exists Gamma', next Gamma s = Some Gamma' /\ gs3 Gamma' k.
Proof.
  intros H E. unfold next. inversion H; subst; rewrite E in *;
    try (match goal with K : s_hyps s = [] |- _ => rewrite K; assert (k0 = k) by congruence; subst; eauto end; fail);
    destruct (s_hyps s) as [|h0 hs] eqn:Eh; try contradiction; try discriminate.
  - unfold target in *. rewrite Eh in *. rewrite H1, H2, H3. assert (k0 = k) by congruence; subst. exists Gamma'. split; [apply dropped_first; assumption|assumption].
  - rewrite H1, H2. assert (k0 = k) by congruence; subst. eauto.
  - rewrite H3. assert (k0 = k) by congruence; subst. exists (Gamma ++ fs). split; [|assumption]. destruct (s_rule s); try reflexivity; inversion H2.
  - rewrite H4. assert (k0 = k) by congruence; subst. exists (Gamma ++ [r]). split; [|assumption]. destruct (s_rule s); try reflexivity; inversion H2.
  - rewrite H5. assert (k0 = k) by congruence; subst. exists (Gamma ++ [r]). split; [|assumption]. destruct (s_rule s); try reflexivity; inversion H2.
  - rewrite H5. assert (k0 = k) by congruence; subst. exists (Gamma ++ [r]). split; [|assumption]. destruct (s_rule s); try reflexivity; inversion H2.
  - inversion H5 as [|fs k' forms ks Hk Hr Ef Ek]; subst. inversion Hr; subst. rewrite <- Ef in *. exists (Gamma ++ fs). split; [|assumption]. destruct (s_rule s); try reflexivity; inversion H2.
Qed.
Fixpoint follow (n : nat) (Gamma : list form) (s : sequent) : option (list form) :=
  match n with
  | O => Some Gamma
  | S n => match s_kids s with [k] => match next Gamma s with Some G => follow n G k | None => None end | _ => Some Gamma end
  end.
Lemma gs3_follow n : forall Gamma s, gs3 Gamma s -> follow n Gamma s <> None.
Proof.
  induction n as [|n IH]; intros Gamma s H; cbn; [discriminate|]. destruct (s_kids s) as [|k [|? ?]] eqn:E; try discriminate.
  destruct (gs3_next _ _ _ H E) as (G & -> & K). apply IH, K.
Qed.
Lemma two_twice : exists s, make_gs3 eq0 false 20 None two = Ok s /\ ~ gs3 [g0] s.
Proof.
  destruct (make_gs3 eq0 false 20 None two) as [s| | |] eqn:E; try (vm_compute in E; discriminate). exists s. split; [reflexivity|].
  intros H. apply (gs3_follow 20) in H. vm_compute in E. injection E as <-. vm_compute in H. apply H. reflexivity.
Qed.

(** ** The drinker: the gamma rule is applied again after the delta rule *)
Definition ally : form := All 0 [vy] (p1 Y).
Definition d0 : form := Not 0 (Ex 0 [vx] (Imp 0 (p1 X) ally)).
Definition d1 : form := Not 0 (Imp 0 (p1 sk) ally).
Definition drinker : list pstep :=
 [PS d0 0 1 "GAMMA_NOT_EXISTS" [[d1]] [];
  PS d1 0 2 "ALPHA_NOT_IMPLY" [[p1 sk; Not 0 ally]] [];
  PS (Not 0 ally) 0 3 "DELTA_NOT_FORALL" [[Not 0 (p1 sk)]] [];
  PS (Not 0 (p1 sk)) 0 4 "CLOSURE" [] []].
Lemma drinker_tab : tab any_delta [d0] drinker.
Proof.
  eapply T_gamma with (v := vx) (u := sk); [left; reflexivity|apply (G_nex 0 0); right; right; left; exists 0, 0, 0; split; reflexivity|reflexivity| |reflexivity].
  eapply T_alpha; [cbn; auto|apply (A_nimp 0 0)|reflexivity|apply among_self| |reflexivity].
  eapply T_delta with (v := vy) (u := sk); [cbn; auto|apply (D_nall 0 0); right; right; left; exists 0, 0, 0; split; reflexivity|reflexivity|unfold any_delta, sk; eauto| |reflexivity].
  apply T_close; [reflexivity|cbn; auto 10| |reflexivity]. right. right. exists (p1 sk). split; [cbn; auto 10|right; reflexivity].
Qed.
(** the delta rule, then the gamma and the alpha rules again *)
Fixpoint rules_along (n : nat) (s : sequent) : list rule :=
  match n with O => [] | S n => s_rule s :: match s_kids s with [k] => rules_along n k | _ => [] end end.
Lemma drinker_reordered : exists s, make_gs3 eq0 false 20 None drinker = Ok s /\ rules_along 20 s = [NEX; NIMP; W; W; NALL; NEX; NIMP; AX].
Proof. eexists. split; vm_compute; reflexivity. Qed.
Lemma intro_cons p rest u r : introduces (p :: rest) u r ->
  (exists v b, delta_by (ps_rule p) (ps_form p) v b u r /\ ps_results p = [[r]]) \/ introduces rest u r \/ exists c, In c (ps_children p) /\ introduces c u r.
Proof. intros H. inversion H; subst; [left|right; left|right; right]; eauto 10. Qed.
Lemma drinker_once t t' r r' : introduces drinker t r -> introduces drinker t' r' -> term_eqb t t' = true -> same r r'.
Proof.
  assert (K : forall u x, introduces drinker u x -> x = Not 0 (p1 sk)).
  { intros u x H. unfold drinker in H. apply intro_cons in H. destruct H as [(v & b & H & _)|[H|(c & [] & _)]]; [inversion H|].
    apply intro_cons in H. destruct H as [(v & b & H & _)|[H|(c & [] & _)]]; [inversion H|].
    apply intro_cons in H. destruct H as [(v & b & _ & E)|[H|(c & [] & _)]]; [cbn in E; congruence|].
    apply intro_cons in H. destruct H as [(v & b & H & _)|[H|(c & [] & _)]]; inversion H. }
  intros H H' _. rewrite (K _ _ H), (K _ _ H'). reflexivity.
Qed.

(** ** New terms and two branches *)
Definition e1 : form := Ex 0 [vx] (p1 X).
Definition e2 : form := All 0 [vy] (Or 0 [Not 0 (p1 Y); Not 0 (p1 Y)]).
Definition e0 : form := And 0 [e1; e2].
Definition new_first : list pstep :=
 [PS e0 0 1 "ALPHA_AND" [[e1; e2]] [];
  PS e1 0 2 "DELTA_EXISTS" [[p1 sk]] [];
  PS e2 0 3 "GAMMA_FORALL" [[Or 0 [Not 0 (p1 sk); Not 0 (p1 sk)]]] [];
  PS (Or 0 [Not 0 (p1 sk); Not 0 (p1 sk)]) 0 4 "BETA_OR" [[Not 0 (p1 sk)]; [Not 0 (p1 sk)]]
    [[PS (p1 sk) 0 5 "CLOSURE" [] []]; [PS (Not 0 (p1 sk)) 0 6 "CLOSURE" [] []]]].
Lemma new_first_tab : tab fresh_delta [e0] new_first.
Proof.
  eapply T_alpha; [left; reflexivity|apply (A_and 0)|reflexivity|apply among_self| |reflexivity].
  eapply T_delta with (v := vx) (b := p1 X) (u := sk); [cbn; auto|by_ex|reflexivity| | |reflexivity].
  - split; [cbn; auto|]. intros f Hf K. apply form_subs_in in K. cbn in Hf. decompose [or] Hf; subst; try contradiction; vm_compute in K; discriminate.
  - eapply T_gamma with (v := vy) (u := sk); [cbn; auto|by_all|reflexivity| |reflexivity].
    eapply T_beta; [cbn; auto 10|apply (B_or 0)| |discriminate|].
    + repeat constructor; apply among_self.
    + constructor; [|constructor; [|constructor]]; (apply T_close; [reflexivity|cbn; auto 14| |reflexivity]); right; right.
      * exists (Not 0 (p1 sk)). split; [cbn; auto 14|left; reflexivity].
      * exists (p1 sk). split; [cbn; auto 14|right; reflexivity].
Qed.
Lemma new_first_replay : exists s, make_gs3 eq0 false 3 None new_first = Ok s /\ rules_along 3 s = [AND; EX; ALL] /\ gs3 [e0] s.
Proof.
  destruct (make_gs3 eq0 false 3 None new_first) as [s| | |] eqn:E; try (vm_compute in E; discriminate). exists s. split; [reflexivity|]. split.
  - vm_compute in E. injection E as <-. reflexivity.
  - exact (fresh_replay eq0 false None (PS e0 0 1 "ALPHA_AND" [[e1; e2]] []) _ 3 s new_first_tab E).
Qed.

Lemma vac_fails : exists first rest, tab any_delta (start None first) (first :: rest) /\ skolemized (ps_form first) (first :: rest) /\
    make_gs3 eq0 false 20 None (first :: rest) = Crash.
Proof. exists (hd (PS eq0 0 0 "" [] []) vac), (tl vac). exact (conj vac_tab (conj vac_skolem vac_crash)). Qed.
Lemma nest_fails : exists first rest, tab any_delta (start None first) (first :: rest) /\ skolemized (ps_form first) (first :: rest) /\
    (forall s f, sko_of (first :: rest) s f -> exists v i vs g, f = Ex i (v :: vs) g /\ In (tv_index v) (f_vars g)) /\
    make_gs3 eq0 false 20 None (first :: rest) = Crash.
Proof. exists (hd (PS eq0 0 0 "" [] []) nest), (tl nest). exact (conj nest_tab (conj nest_skolem (conj nest_occurs nest_crash))). Qed.
Lemma two_fails : exists first rest s, tab any_delta (start None first) (first :: rest) /\ skolemized (ps_form first) (first :: rest) /\
    make_gs3 eq0 false 20 None (first :: rest) = Ok s /\ ~ gs3 (start None first) s.
Proof. destruct two_twice as (s & E & N). exists (hd (PS eq0 0 0 "" [] []) two), (tl two), s. exact (conj two_tab (conj two_skolem (conj E N))). Qed.
