(** The checker always ends; formulas with a single sort. *)
From Coq Require Import ZArith List Bool String Lia.
From Verif Require Import LibSetHeap_Model Ast_Model Sem_Spec Ast_Proofs UnifTree_Model Typing_Model Typing_Spec Typing_Proofs Typing_Complete.
Import ListNotations.
Open Scope nat_scope.

(** ** The number of steps *)
Section Cost.
Variable E : env.
Fixpoint tycost (t : ty) : nat := match t with TyConstr _ l => S (list_sum (map tycost l)) | _ => 1 end.
Definition appcost (n : string) (tys : list ty) (argcost : list ty -> nat) : nat :=
  match E n with
  | None => 0
  | Some U =>
    match instantiate U tys with
    | None => 0
    | Some J =>
      match get_args_ty J, get_out_ty J with
      | Some As, Some o => argcost As + list_sum (map tycost (tys ++ [o]))
      | _, _ => 0
      end
    end
  end.
Fixpoint termcost (t : term) (T : ty) {struct t} : nat :=
  match t with
  | Fun p tys args =>
    S (appcost (id_name p) tys
         (fun As => (fix go (l : list term) (As : list ty) {struct l} : nat :=
                       match l, As with a :: r, T :: As' => termcost a T + go r As' | _, _ => 0 end) args As))
  | _ => S (tycost T)
  end.
Fixpoint argscost (l : list term) (As : list ty) : nat :=
  match l, As with a :: r, T :: As' => termcost a T + argscost r As' | _, _ => 0 end.
Fixpoint formcost (f : form) : nat :=
  match f with
  | All _ _ g | Ex _ _ g => S (formcost g)
  | Or _ fs | And _ fs => S (list_sum (map formcost fs))
  | Equ _ a b | Imp _ a b => S (formcost a + formcost b)
  | Not _ a => S (formcost a)
  | Pred _ p tys args => S (appcost (id_name p) tys (argscost args))
  | _ => 1
  end.
Definition cost (t : task) : nat :=
  match t with TForm _ f => formcost f | TTerm _ t T => termcost t T | TTy _ T => tycost T end.
Lemma args_go l As : (fix go (l : list term) (As : list ty) {struct l} : nat :=
                       match l, As with a :: r, T :: As' => (termcost a T + go r As')%nat | _, _ => 0%nat end) l As = argscost l As.
Proof. revert As; induction l as [|a l IH]; intros [|T As]; cbn; auto. Qed.
Lemma functional_cost p n tys args ks : functional E p n tys args = Some ks ->
  list_sum (map cost ks) = appcost n tys (argscost args).
Proof.
  unfold functional, appcost. destruct (E n) as [U|]; [|discriminate]. destruct (instantiate U tys) as [J|]; [|discriminate].
  destruct (get_args_ty J) as [As|]; [|discriminate]. destruct (get_out_ty J) as [o|]; [|discriminate].
  destruct (Nat.eqb (List.length args) (List.length As)) eqn:Q; [|discriminate]. intros [= <-].
  rewrite map_app, list_sum_app. f_equal.
  - apply Nat.eqb_eq in Q. revert As Q. induction args as [|a args IH]; intros [|T As] Q; cbn in Q; try discriminate; cbn; auto.
  - rewrite map_map. reflexivity.
Qed.
Lemma exec_cost h t h' ks : exec E h t = Some (h', ks) -> (list_sum (map cost ks) < cost t)%nat.
Proof.
  intros Q. destruct t as [p f|p t T|p T].
  - destruct f as [ix vs f|ix vs f|ix fs|ix fs|ix a b|ix a b|ix f|ix q tys args|ix|ix]; cbn [exec] in Q.
    + destruct (add_vars h p vs) as [[h1 p1]| |]; try discriminate. injection Q as <- <-. cbn. lia.
    + destruct (add_vars h p vs) as [[h1 p1]| |]; try discriminate. injection Q as <- <-. cbn. lia.
    + injection Q as <- <-. rewrite map_map. cbn [cost formcost]. apply le_n.
    + injection Q as <- <-. rewrite map_map. cbn [cost formcost]. apply le_n.
    + injection Q as <- <-. cbn. lia.
    + injection Q as <- <-. cbn. lia.
    + injection Q as <- <-. cbn. lia.
    + destruct (functional E p (id_name q) tys args) as [ks0|] eqn:QF; [|discriminate]. injection Q as <- <-.
      rewrite (functional_cost _ _ _ _ _ QF). cbn. lia.
    + injection Q as <- <-. cbn. lia.
    + injection Q as <- <-. cbn. lia.
  - destruct t as [i|q tys args|i n|m]; cbn [exec] in Q; try discriminate.
    + destruct (functional E p (id_name q) tys args) as [ks0|] eqn:QF; [|discriminate]. injection Q as <- <-.
      rewrite (functional_cost _ _ _ _ _ QF). cbn [cost termcost].
      enough (HH : forall g1 g2, (forall As, g1 As = g2 As) -> appcost (id_name q) tys g1 = appcost (id_name q) tys g2).
      { apply Nat.lt_succ_r, Nat.eq_le_incl, HH. intros As. symmetry. apply args_go. }
      intros g1 g2 Hg. unfold appcost. destruct (E (id_name q)); auto. destruct (instantiate t tys); auto.
      destruct (get_args_ty t0); auto. destruct (get_out_ty t0); auto.
    + destruct (con_contains h p n T) as [[|]| |]; try discriminate. injection Q as <- <-. cbn. lia.
  - destruct T as [r|n i|n i f|c l|l|a b|ws b]; cbn [exec] in Q; try discriminate.
    + destruct (con_contains h p n tType) as [[|]| |]; try discriminate. injection Q as <- <-. cbn. lia.
    + destruct (E c); [|discriminate]. destruct (get_args_ty t); [|discriminate]. destruct (Nat.eqb _ _); [|discriminate].
      injection Q as <- <-. rewrite map_map. cbn [cost tycost]. apply le_n.
Qed.
Lemma step_cost s s' : step E s s' -> (list_sum (map cost (snd s')) < list_sum (map cost (snd s)))%nat.
Proof.
  intros [h h' l1 t ks l2 Q]. cbn [snd]. apply exec_cost in Q. rewrite !map_app, !list_sum_app. cbn [map list_sum fold_right].
  change (fold_right Nat.add 0%nat (map cost l2)) with (list_sum (map cost l2)). lia.
Qed.
Theorem bounded f n s : nsteps E n (start f) s -> (n <= formcost f)%nat.
Proof.
  assert (K : forall s0, nsteps E n s0 s -> (n <= list_sum (map cost (snd s0)))%nat).
  { intros s0 H. induction H as [|n s0 s1 s2 H1 H2 IH]; [lia|]. apply step_cost in H1. lia. }
  intros H. apply K in H. cbn in H. lia.
Qed.
Lemma steps_trans s1 s2 s3 : steps E s1 s2 -> steps E s2 s3 -> steps E s1 s3.
Proof. induction 1; auto. intros K. econstructor; eauto. Qed.
Lemma safe_ends s : (forall h l1 t l2, steps E s (h, l1 ++ t :: l2) -> exec E h t <> None) -> exists h, steps E s (h, []).
Proof.
  remember (list_sum (map cost (snd s))) as m eqn:Em. revert s Em. induction m as [m IH] using lt_wf_ind; intros s Em Hs.
  destruct s as [h [|t l]]; [exists h; constructor|].
  destruct (exec E h t) as [[h' ks]|] eqn:Q; [|exfalso; apply (Hs h [] t l); [constructor|exact Q]].
  assert (St : step E (h, t :: l) (h', ks ++ l)) by exact (step_run E h h' [] t ks l Q).
  destruct (IH (list_sum (map cost (snd (h', ks ++ l))))) with (s := (h', ks ++ l)) as [h2 H2]; auto.
  - subst m. apply step_cost in St. exact St.
  - intros h0 l1 t0 l2 K. apply (Hs h0 l1 t0 l2). econstructor; eauto.
  - exists h2. econstructor; eauto.
Qed.
Theorem ends f : accepts E f \/ aborts E f.
Proof.
  assert (D : forall m s, (list_sum (map cost (snd s)) <= m)%nat ->
     (exists h, steps E s (h, [])) \/ exists h l1 t l2, steps E s (h, l1 ++ t :: l2) /\ exec E h t = None).
  { induction m as [|m IH]; intros [h l] Hm; (destruct l as [|t l]; [left; exists h; constructor|]);
      (destruct (exec E h t) as [[h' ks]|] eqn:Q; [|right; exists h, [], t, l; split; [constructor|exact Q]]);
      assert (St : step E (h, t :: l) (h', ks ++ l)) by exact (step_run E h h' [] t ks l Q);
      pose proof (step_cost _ _ St) as Hc; [lia|].
    destruct (IH (h', ks ++ l)) as [[h2 H2]|(h2 & l1 & t2 & l2 & H2 & H3)]; [lia| |].
    - left. exists h2. econstructor; eauto.
    - right. exists h2, l1, t2, l2. split; [econstructor; eauto|exact H3]. }
  exact (D _ (start f) (le_n _)).
Qed.
End Cost.

Theorem complete E f : env_ok E -> well_typed E f -> fresh_binders [] f -> prenex_parts f ->
  accepts E f /\ ~ aborts E f.
Proof.
  intros HE W FB P. pose proof (never_aborts E HE f W FB P) as NA. split; [|exact NA].
  destruct (ends E f); tauto.
Qed.

(** ** A single sort *)
Lemma one_sorted_has_ty E G t T : has_ty E (fun _ _ => True) G t T -> one_sorted_term E t -> T = tI -> has_ty E same_ty G t T.
Proof.
  revert T. induction t as [i|p tys l IH|i n|m] using term_ind'; intros T HT OS ->;
    inversion HT as [i0 n0 T0 T' CG ST|p0 tys0 args0 U J As o T0 EU EI EP ET EF ER]; subst.
  - inversion OS as [|p0 tys0 args0 HF HA]; subst. destruct (HF _ _ _ _ EU EI EP) as [-> HI].
    econstructor; eauto; [|apply same_ty_refl].
    clear - IH HA HI EF. induction EF as [|a T l As Ha Hl IHl]; constructor; inversion IH; inversion HA; inversion HI; subst; auto.
  - econstructor; eauto.
Qed.
Theorem one_sorted_wt E G f : wt E (fun _ _ => True) G f -> one_sorted E f -> wt E same_ty G f.
Proof.
  revert G. induction f as [ix vs f IH|ix vs f IH|ix fs IH|ix fs IH|ix a b IHa IHb|ix a b IHa IHb|ix f IH|ix q tys args|ix|ix] using form_ind';
    intros G W OS; inversion W; inversion OS; subst; try (constructor; auto; fail).
  - constructor. rewrite Forall_forall in *. auto.
  - constructor. rewrite Forall_forall in *. auto.
  - match goal with HF : fits _ _ _ _, A : E _ = Some _, B : instance _ _ _, C : profile _ _ _ |- _ => destruct (HF _ _ _ _ A B C) as [-> HI] end.
    econstructor; eauto; [|apply same_ty_refl].
    match goal with A : Forall2 _ args As, B : Forall (one_sorted_term E) args |- _ => clear - A B HI; induction A; constructor;
      inversion B; inversion HI; subst; auto end. apply one_sorted_has_ty; auto.
Qed.
Theorem one_sorted_sound E K f : kinded K E -> (forall c, In c (form_syms f) -> K c) ->
  scoped [] f -> NoDup (map fst (binders f)) -> one_sorted E f -> accepts E f -> well_typed E f.
Proof. intros HK Hc Hs ND OS A. apply one_sorted_wt; [|exact OS]. eapply accepted_nearly_typed; eauto. Qed.
