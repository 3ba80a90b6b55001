(** Numbers: the lexer reads the text of a number, and goes back where it was when a reading fails. *)
From Coq Require Import ZArith List Bool Lia.
From Verif Require Import Lexer_Model Lexer_Spec Lexer_Proofs.
Import ListNotations.
Open Scope Z_scope.

(** the state where the last character read is the last one of [w], from [b] *)
Definition at_last (b w rest : list Z) (q : Z) (e : bool) : lexer := mkL (rev w ++ b) rest q e.

Lemma at_last_mk : forall b w x rest q e, at_last b (w ++ [x]) rest q e = mk (rev w ++ b) (x :: rest) q e.
Proof. intros. unfold at_last, mk. rewrite rev_app_distr. reflexivity. Qed.

Lemma advance_at_last : forall b w c rest q e, advance (at_last b w (c :: rest) q e) = Some (mk (rev w ++ b) (c :: rest) q e).
Proof. reflexivity. Qed.

Lemma cons_split : forall (w : list Z), w <> [] -> exists v x, w = v ++ [x].
Proof. intros w H. destruct (exists_last H) as [v [x ->]]. eauto. Qed.

(** back to the beginning of what was read, from the character after it *)
Lemma undo : forall b acc w c rest q e,
  remove (length (acc ++ w) - length acc) (mk (rev w ++ b) (c :: rest) q e) = Some (mk b (w ++ c :: rest) q e).
Proof.
  intros. rewrite app_length. replace (length acc + length w - length acc)%nat with (length w) by lia.
  apply remove_mk. discriminate.
Qed.
Lemma undo2 : forall b acc w c rest q e, w <> [] ->
  (ldo l <- remove 1 (mk (rev w ++ b) (c :: rest) q e);
   remove (length (acc ++ w) - length acc - 1) l) = Some (mk b (w ++ c :: rest) q e).
Proof.
  intros b acc w c rest q e Hw. destruct (cons_split w Hw) as [v [x ->]].
  rewrite rev_app_distr. change ((rev [x] ++ rev v) ++ b) with (x :: rev v ++ b). rewrite remove_mk1 by discriminate.
  rewrite !app_length. simpl length. replace (length acc + (length v + 1) - length acc - 1)%nat with (length v) by lia.
  rewrite <- app_assoc. apply (remove_mk v b (x :: c :: rest)). discriminate.
Qed.

Lemma firstn_acc : forall (acc w : list Z), firstn (length acc) (acc ++ w) = acc.
Proof. intros. rewrite firstn_app, Nat.sub_diag, firstn_all. simpl. apply app_nil_r. Qed.

(** two characters at least, the first is not a digit *)
Definition stop (rest : list Z) : Prop := exists c d r, rest = c :: d :: r /\ ~ numeric c.

Lemma digits_spec : forall ds acc b rest q e, digits_text ds -> stop rest ->
  digits acc (mk b (ds ++ rest) q e) = Some (acc ++ ds, at_last b ds rest q e).
Proof.
  intros ds acc b rest q e [Hne Hds] [c [d [r [-> Hc]]]]. unfold digits.
  assert (H : Forall (fun c => is_digit c = true /\ c < 128) ds)
    by (eapply Forall_impl; [| exact Hds]; intros a Ha; split; zb).
  unfold mk at 1 2. simpl before. simpl after.
  rewrite (read_while_spec is_digit ds c (d :: r) b acc H (or_introl (not_digit c Hc))).
  destruct (cons_split ds Hne) as [v [x ->]]. rewrite at_last_mk.
  rewrite rev_app_distr. simpl app at 2.
  pose proof (remove_mk1 x (rev v ++ b) (c :: d :: r) q e ltac:(discriminate)) as Hrm.
  unfold mk at 1 in Hrm. simpl hd in Hrm. simpl tl in Hrm. simpl quantifiers. simpl has_eq. simpl app at 1.
  rewrite Hrm. reflexivity.
Qed.

Definition starts_digit (s : list Z) : Prop := exists c r, s = c :: r /\ numeric c.

Lemma decimal_nonempty : forall d, decimal_text d -> d <> [].
Proof. intros d [-> | [x [ds [-> _]]]]; discriminate. Qed.
Lemma decimal_starts : forall d rest, decimal_text d -> starts_digit (d ++ rest).
Proof.
  intros d rest [-> | [x [ds [-> [H _]]]]]; eexists _, _; (split; [reflexivity |]); unfold numeric; lia.
Qed.

Lemma positive_spec : forall d acc b rest q e, positive_text d -> stop rest ->
  positive_decimal acc (mk b (d ++ rest) q e) = Some (true, acc ++ d, at_last b d rest q e).
Proof.
  intros d acc b rest q e [x [ds [-> [Hx Hds]]]] Hs. unfold positive_decimal. rewrite cur_mk. simpl hd.
  replace (is_non_zero x) with true by zb.
  rewrite (digits_spec (x :: ds) acc b rest q e); [reflexivity | | exact Hs].
  split; [discriminate |]. constructor; [unfold numeric; lia | exact Hds].
Qed.

Lemma decimal_spec : forall d acc b rest q e, decimal_text d -> stop rest ->
  decimal acc (mk b (d ++ rest) q e) = Some (true, acc ++ d, at_last b d rest q e).
Proof.
  intros d acc b rest q e [-> | Hd] Hs; unfold decimal; rewrite cur_mk.
  - reflexivity.
  - rewrite positive_spec by assumption. destruct Hd as [x [ds [-> [Hx _]]]]. simpl hd.
    destruct (Z.eqb_spec x 48); [lia | reflexivity].
Qed.

(** the readings that fail give back the state *)
Lemma positive_none : forall acc b s q e, ~ starts_digit s -> s <> [] ->
  positive_decimal acc (mk b s q e) = Some (false, acc, mk b s q e).
Proof.
  intros acc b s q e H Hs. destruct s as [| c r]; [congruence |]. unfold positive_decimal. rewrite cur_mk. simpl hd.
  destruct (is_non_zero c) eqn:E; [| reflexivity]. exfalso. apply H. exists c, r. split; [reflexivity | zb].
Qed.
Lemma decimal_none : forall acc b s q e, ~ starts_digit s -> s <> [] ->
  decimal acc (mk b s q e) = Some (false, acc, mk b s q e).
Proof.
  intros acc b s q e H Hs. unfold decimal. rewrite cur_mk. rewrite positive_none by assumption.
  destruct (Z.eqb_spec (hd 0 s) 48) as [E |]; [| reflexivity]. exfalso. apply H.
  destruct s as [| c r]; [congruence |]. simpl in E. subst c. exists 48, r. split; [reflexivity | unfold numeric; lia].
Qed.

Lemma fraction_none : forall d acc b rest q e, decimal_text d -> stop rest -> ~ next_is 46 rest ->
  decimal_fraction acc (mk b (d ++ rest) q e) = Some (false, acc, mk b (d ++ rest) q e).
Proof.
  intros d acc b rest q e Hd Hs Hdot. unfold decimal_fraction. rewrite decimal_spec by assumption.
  destruct Hs as [c [x [r [-> Hc]]]]. simpl negb. cbv iota. rewrite advance_at_last.
  unfold dot_decimal. rewrite cur_mk. simpl hd.
  destruct (Z.eqb_spec c 46) as [-> |]; [exfalso; apply Hdot; reflexivity |]. simpl negb. cbv iota.
  pose proof (undo2 b acc d c (x :: r) q e (decimal_nonempty d Hd)) as Hu.
  destruct (remove 1 (mk (rev d ++ b) (c :: x :: r) q e)) as [l |]; [| discriminate].
  rewrite Hu, firstn_acc. reflexivity.
Qed.
Lemma fraction_none0 : forall acc b s q e, ~ starts_digit s -> s <> [] ->
  decimal_fraction acc (mk b s q e) = Some (false, acc, mk b s q e).
Proof. intros acc b s q e H Hs. unfold decimal_fraction. rewrite decimal_none by assumption. reflexivity. Qed.

Lemma at_last_app : forall b v w rest q e, at_last (rev v ++ b) w rest q e = at_last b (v ++ w) rest q e.
Proof. intros. unfold at_last. rewrite rev_app_distr, <- app_assoc. reflexivity. Qed.

Lemma fraction_spec : forall d f acc b rest q e, decimal_text d -> fraction_text f -> stop rest ->
  decimal_fraction acc (mk b (d ++ f ++ rest) q e) = Some (true, acc ++ d ++ f, at_last b (d ++ f) rest q e).
Proof.
  intros d f acc b rest q e Hd [ds [-> Hds]] Hs. unfold decimal_fraction.
  assert (Hs' : stop ((46 :: ds) ++ rest)).
  { destruct Hds as [Hne Hds]. destruct ds as [| x ds]; [congruence |]. eexists _, _, _. split; [reflexivity |].
    unfold numeric; lia. }
  rewrite decimal_spec by assumption. simpl negb. cbv iota. simpl app. rewrite advance_at_last.
  unfold dot_decimal. rewrite cur_mk. simpl hd. simpl (negb (46 =? 46)). cbv iota.
  destruct Hds as [Hne Hds]. destruct ds as [| x ds]; [congruence |].
  simpl app. rewrite advance_mk. rewrite cur_mk. simpl hd.
  replace (is_digit x) with true by (inversion Hds; subst; zb). simpl negb. cbv iota.
  change (x :: ds ++ rest) with ((x :: ds) ++ rest).
  rewrite (digits_spec (x :: ds) ((acc ++ d) ++ [46]) (46 :: rev d ++ b) rest q e); [| split; [discriminate | exact Hds] | exact Hs].
  rewrite <- !app_assoc. simpl app.
  replace (46 :: rev d ++ b) with (rev (d ++ [46]) ++ b) by (rewrite rev_app_distr; reflexivity).
  rewrite at_last_app, <- app_assoc. reflexivity.
Qed.

(** the part of a number before the exponent *)
Definition mantissa (m : list Z) : Prop := exists d f, m = d ++ f /\ decimal_text d /\ (f = [] \/ fraction_text f).

Lemma mantissa_nonempty : forall m, mantissa m -> m <> [].
Proof.
  intros m [d [f [-> [Hd _]]]] E. apply app_eq_nil in E as [E _]. exact (decimal_nonempty d Hd E).
Qed.

Lemma mantissa_spec : forall m acc b rest q e, mantissa m -> stop rest -> (decimal_text m -> ~ next_is 46 rest) ->
  orelse (decimal_fraction acc (mk b (m ++ rest) q e)) decimal = Some (true, acc ++ m, at_last b m rest q e).
Proof.
  intros m acc b rest q e [d [f [-> [Hd [-> | Hf]]]]] Hs Hdot.
  - rewrite app_nil_r in *. rewrite fraction_none; [| assumption | assumption | exact (Hdot Hd)].
    unfold orelse. apply decimal_spec; assumption.
  - rewrite <- app_assoc. rewrite fraction_spec by assumption. reflexivity.
Qed.

Lemma stop_exponent : forall x rest, exponent_text x -> rest <> [] -> stop (x ++ rest).
Proof.
  intros x rest [c [s [ds [-> [Hc [Hs [Hne Hds]]]]]]] Hr.
  destruct ds as [| y ds]; [congruence |].
  destruct Hs as [-> | [-> | ->]]; simpl; eexists _, _, _; (split; [reflexivity |]); unfold numeric; lia.
Qed.

Lemma exp_integer_spec : forall s ds acc b rest q e, (s = [] \/ s = [43] \/ s = [45]) -> digits_text ds -> stop rest ->
  exp_integer acc (mk b (s ++ ds ++ rest) q e) = Some (true, acc ++ s ++ ds, at_last b (s ++ ds) rest q e).
Proof.
  intros s ds acc b rest q e Hs Hds Hst. unfold exp_integer.
  assert (H : forall acc b, unsigned_exp_integer acc (mk b (ds ++ rest) q e) = Some (true, acc ++ ds, at_last b ds rest q e)).
  { intros acc' b'. unfold unsigned_exp_integer. rewrite digits_spec by assumption. rewrite cur_mk.
    destruct Hds as [Hne Hds]. destruct ds as [| x ds]; [congruence |]. simpl hd.
    replace (is_digit x) with true by (inversion Hds; subst; zb). reflexivity. }
  assert (Hd : exists x r, ds ++ rest = x :: r /\ is_sign x = false).
  { destruct Hds as [Hne Hds]. destruct ds as [| x ds]; [congruence |]. eexists _, _. split; [reflexivity |].
    inversion Hds; subst. zb. }
  destruct Hd as [x [r [Hx Hxs]]].
  destruct Hs as [-> | [-> | ->]]; unfold signed_exp_integer; rewrite cur_mk; simpl app.
  - rewrite Hx. simpl hd. rewrite Hxs. unfold orelse. rewrite <- Hx. apply H.
  - simpl hd. simpl is_sign. cbv iota. rewrite Hx, advance_mk, <- Hx. unfold orelse. rewrite H.
    simpl hd. rewrite <- app_assoc. unfold at_last. simpl. rewrite <- app_assoc. reflexivity.
  - simpl hd. simpl is_sign. cbv iota. rewrite Hx, advance_mk, <- Hx. unfold orelse. rewrite H.
    simpl hd. rewrite <- app_assoc. unfold at_last. simpl. rewrite <- app_assoc. reflexivity.
Qed.

Lemma exponent_spec : forall m x acc b rest q e, mantissa m -> exponent_text x -> stop rest ->
  decimal_exponent acc (mk b (m ++ x ++ rest) q e) = Some (true, acc ++ m ++ x, at_last b (m ++ x) rest q e).
Proof.
  intros m x acc b rest q e Hm Hx Hs. unfold decimal_exponent.
  assert (Hr : rest <> []) by (destruct Hs as [c [d [r [-> _]]]]; discriminate).
  rewrite (mantissa_spec m acc b (x ++ rest) q e Hm (stop_exponent x rest Hx Hr)).
  2:{ destruct Hx as [c [s [ds [-> [Hc _]]]]]. intros _ H. unfold next_is in H. simpl in H. injection H as ->. lia. }
  destruct Hx as [c [s [ds [-> [Hc [Hsg Hds]]]]]]. simpl negb. cbv iota. simpl app. rewrite advance_at_last.
  rewrite cur_mk. simpl hd. replace (is_exponent c) with true by zb. simpl negb. cbv iota.
  assert (Hd : exists y r, (s ++ ds) ++ rest = y :: r).
  { destruct Hds as [Hne _]. destruct s; [destruct ds; [congruence |] |]; eexists _, _; reflexivity. }
  destruct Hd as [y [r Hy]]. rewrite Hy, advance_mk, <- Hy, <- (app_assoc s ds rest).
  rewrite (exp_integer_spec s ds ((acc ++ m) ++ [c]) (c :: rev m ++ b) rest q e Hsg Hds Hs).
  rewrite <- !app_assoc. simpl app.
  replace (c :: rev m ++ b) with (rev (m ++ [c]) ++ b) by (rewrite rev_app_distr; reflexivity).
  rewrite at_last_app, <- !app_assoc. reflexivity.
Qed.

Definition ends (rest : list Z) : Prop := number_ends rest.

Lemma ends_stop : forall rest, ends rest -> stop rest.
Proof. intros rest [c [d [r [-> [H _]]]]]. eexists _, _, _. split; [reflexivity | exact H]. Qed.
Lemma ends_dot : forall rest, ends rest -> ~ next_is 46 rest.
Proof. intros rest [c [d [r [-> [_ [H _]]]]]] E. unfold next_is in E. simpl in E. injection E as ->. congruence. Qed.

Lemma exponent_none : forall m acc b rest q e, mantissa m -> stop rest -> (decimal_text m -> ~ next_is 46 rest) ->
  ~ next_is 101 rest -> ~ next_is 69 rest ->
  decimal_exponent acc (mk b (m ++ rest) q e) = Some (false, acc, mk b (m ++ rest) q e).
Proof.
  intros m acc b rest q e Hm Hr Hdot He1 He2. unfold decimal_exponent.
  rewrite (mantissa_spec m acc b rest q e Hm Hr Hdot).
  destruct Hr as [c [d [r [-> Hc]]]].
  simpl negb. cbv iota. rewrite advance_at_last, cur_mk. simpl hd.
  replace (is_exponent c) with false.
  2:{ symmetry. unfold is_exponent. apply orb_false_iff. rewrite !Z.eqb_neq. unfold next_is in *. simpl in *. split; congruence. }
  simpl negb. cbv iota. rewrite undo, firstn_acc. reflexivity.
Qed.
Lemma exponent_none0 : forall acc b s q e, ~ starts_digit s -> s <> [] ->
  decimal_exponent acc (mk b s q e) = Some (false, acc, mk b s q e).
Proof.
  intros acc b s q e H Hs. unfold decimal_exponent. rewrite fraction_none0 by assumption.
  unfold orelse. rewrite decimal_none by assumption. reflexivity.
Qed.

Lemma decimal_mantissa : forall d, decimal_text d -> mantissa d.
Proof. intros d H. exists d, []. rewrite app_nil_r. tauto. Qed.

(** ** The three kinds of numbers without a sign *)

Definition reads (f : list Z -> lexer -> nres) (p : list Z -> Prop) : Prop :=
  forall w acc b rest q e, p w -> ends rest -> f acc (mk b (w ++ rest) q e) = Some (true, acc ++ w, at_last b w rest q e).
Definition skips (f : list Z -> lexer -> nres) (p : list Z -> Prop) : Prop :=
  forall w acc b rest q e, p w -> ends rest -> f acc (mk b (w ++ rest) q e) = Some (false, acc, mk b (w ++ rest) q e).
Definition skips_other (f : list Z -> lexer -> nres) : Prop :=
  forall acc b s q e, ~ starts_digit s -> s <> [] -> f acc (mk b s q e) = Some (false, acc, mk b s q e).

Lemma ends_parts : forall rest, ends rest ->
  ~ next_is 101 rest /\ ~ next_is 69 rest /\ ~ next_is 47 rest.
Proof.
  intros rest [c [d [r [-> [_ [_ [H1 [H2 H3]]]]]]]]. unfold next_is. simpl. repeat split; congruence.
Qed.

Lemma real_reads : reads unsigned_real unsigned_real_text.
Proof.
  intros w acc b rest q e [d [f [x [-> [Hd H]]]]] Hr. unfold unsigned_real.
  pose proof (ends_parts rest Hr) as [He1 [He2 _]].
  destruct H as [[Hf ->] | [[Hf Hx] | [-> Hx]]].
  - rewrite app_nil_r.
    assert (Hnd : ~ decimal_text (d ++ f)).
    { destruct Hf as [ds [-> Hds]]. intros [E | [y [ys [E [_ Hys]]]]].
      - destruct d as [| c d]; [discriminate |]. injection E as -> E. destruct d; discriminate.
      - destruct d as [| c d]; [exact (decimal_nonempty [] Hd eq_refl) |]. injection E as -> <-.
        apply Forall_app in Hys as [_ Hys]. inversion Hys as [| ? ? Hn]; subst. unfold numeric in Hn. lia. }
    rewrite (exponent_none (d ++ f) acc b rest q e).
    + unfold orelse. rewrite <- app_assoc. rewrite fraction_spec; [reflexivity | assumption | assumption | apply ends_stop; assumption].
    + exists d, f. tauto.
    + apply ends_stop; exact Hr.
    + intros H; contradiction.
    + exact He1.
    + exact He2.
  - rewrite (app_assoc d f x). rewrite <- (app_assoc (d ++ f)).
    rewrite (exponent_spec (d ++ f) x acc b rest q e); [reflexivity | exists d, f; tauto | exact Hx | apply ends_stop; exact Hr].
  - simpl app. rewrite <- app_assoc.
    rewrite (exponent_spec d x acc b rest q e); [reflexivity | apply decimal_mantissa; exact Hd | exact Hx | apply ends_stop; exact Hr].
Qed.

Lemma real_skips_decimal : forall d acc b rest q e, decimal_text d -> stop rest ->
  ~ next_is 46 rest -> ~ next_is 101 rest -> ~ next_is 69 rest ->
  unsigned_real acc (mk b (d ++ rest) q e) = Some (false, acc, mk b (d ++ rest) q e).
Proof.
  intros d acc b rest q e Hd Hs H1 H2 H3. unfold unsigned_real.
  rewrite (exponent_none d acc b rest q e (decimal_mantissa d Hd) Hs (fun _ => H1) H2 H3).
  unfold orelse. apply fraction_none; assumption.
Qed.

Lemma real_skips_integer : skips unsigned_real decimal_text.
Proof.
  intros w acc b rest q e Hw Hr. destruct (ends_parts rest Hr) as [H1 [H2 _]].
  apply real_skips_decimal; try assumption; [apply ends_stop; exact Hr | apply ends_dot; exact Hr].
Qed.
Lemma real_skips_rational : skips unsigned_real unsigned_rational_text.
Proof.
  intros w acc b rest q e [d [p [-> [Hd [x [ds [-> [Hx _]]]]]]]] Hr. rewrite <- app_assoc. simpl app.
  apply real_skips_decimal; try exact Hd; unfold next_is; simpl; try congruence.
  eexists _, _, _. split; [reflexivity | unfold numeric; lia].
Qed.
Lemma real_skips_other : skips_other unsigned_real.
Proof.
  intros acc b s q e H Hs. unfold unsigned_real. rewrite exponent_none0 by assumption. unfold orelse.
  apply fraction_none0; assumption.
Qed.

Lemma rational_reads : reads unsigned_rational unsigned_rational_text.
Proof.
  intros w acc b rest q e [d [p [-> [Hd Hp]]]] Hr. unfold unsigned_rational. rewrite <- app_assoc. simpl app.
  assert (Hs : stop (47 :: p ++ rest)).
  { destruct Hp as [x [ds [-> _]]]. eexists _, _, _. split; [reflexivity | unfold numeric; lia]. }
  rewrite (decimal_spec d acc b _ q e Hd Hs). simpl negb. cbv iota. rewrite advance_at_last, cur_mk. simpl hd.
  simpl (negb (47 =? 47)). cbv iota.
  assert (Hne : exists y r, p ++ rest = y :: r) by (destruct Hp as [x [ds [-> _]]]; eexists _, _; reflexivity).
  destruct Hne as [y [r Hy]]. rewrite Hy, advance_mk, <- Hy.
  rewrite (positive_spec p ((acc ++ d) ++ [47]) (47 :: rev d ++ b) rest q e Hp (ends_stop rest Hr)).
  rewrite <- !app_assoc. simpl app.
  replace (47 :: rev d ++ b) with (rev (d ++ [47]) ++ b) by (rewrite rev_app_distr; reflexivity).
  rewrite at_last_app, <- app_assoc. reflexivity.
Qed.
Lemma rational_skips_integer : skips unsigned_rational decimal_text.
Proof.
  intros w acc b rest q e Hw Hr. unfold unsigned_rational.
  rewrite (decimal_spec w acc b rest q e Hw (ends_stop rest Hr)).
  destruct (ends_parts rest Hr) as [_ [_ H]].
  destruct (ends_stop rest Hr) as [c [d [r [-> Hc]]]]. simpl negb. cbv iota. rewrite advance_at_last, cur_mk. simpl hd.
  destruct (Z.eqb_spec c 47) as [-> |]; [exfalso; apply H; reflexivity |]. simpl negb. cbv iota.
  rewrite undo, firstn_acc. reflexivity.
Qed.
Lemma rational_skips_other : skips_other unsigned_rational.
Proof. intros acc b s q e H Hs. unfold unsigned_rational. rewrite decimal_none by assumption. reflexivity. Qed.

Lemma integer_reads : reads decimal decimal_text.
Proof. intros w acc b rest q e Hw Hr. apply decimal_spec; [exact Hw | apply ends_stop; exact Hr]. Qed.

(** ** With the sign *)

Definition digit_first (p : list Z -> Prop) : Prop := forall w rest, p w -> starts_digit (w ++ rest).

Lemma sign_digit : forall s, starts_digit s -> is_sign (hd 0 s) = false.
Proof. intros s [c [r [-> H]]]. simpl hd. zb. Qed.

Lemma signed_reads : forall f p, reads f p -> digit_first p -> reads (number_of f) (with_sign p).
Proof.
  intros f p Hf Hd w acc b rest q e [Hw | [v [-> Hv]]] Hr; unfold number_of, signed; rewrite cur_mk.
  - rewrite (sign_digit _ (Hd w rest Hw)). simpl negb. cbv iota. unfold orelse. apply Hf; assumption.
  - simpl app. simpl hd. simpl is_sign. cbv iota. simpl negb. cbv iota.
    destruct (Hd v rest Hv) as [c [r [Hc _]]]. rewrite Hc, advance_mk, <- Hc.
    rewrite (Hf v (acc ++ [45]) (45 :: b) rest q e Hv Hr). unfold orelse.
    rewrite <- app_assoc. unfold at_last. simpl. rewrite <- app_assoc. reflexivity.
Qed.

Lemma not_digit_sign : forall r, ~ starts_digit (45 :: r).
Proof. intros r [c [s [E H]]]. injection E as <- _. unfold numeric in H. lia. Qed.

Lemma signed_skips : forall f p, skips f p -> skips_other f -> digit_first p -> skips (number_of f) (with_sign p).
Proof.
  intros f p Hf Ho Hd w acc b rest q e [Hw | [v [-> Hv]]] Hr; unfold number_of, signed; rewrite cur_mk.
  - rewrite (sign_digit _ (Hd w rest Hw)). simpl negb. cbv iota. unfold orelse. apply Hf; assumption.
  - simpl app. simpl hd. simpl is_sign. cbv iota. simpl negb. cbv iota.
    destruct (Hd v rest Hv) as [c [r [Hc _]]]. rewrite Hc, advance_mk, <- Hc.
    rewrite (Hf v (acc ++ [45]) (45 :: b) rest q e Hv Hr).
    assert (Hne : v ++ rest <> []) by (rewrite Hc; discriminate).
    rewrite (remove_mk1 45 b (v ++ rest) q e Hne).
    unfold orelse. rewrite app_length. simpl length. replace (length acc + 1 - 1)%nat with (length acc) by lia.
    rewrite firstn_acc. apply Ho; [apply not_digit_sign | discriminate].
Qed.

(** something else than a number *)
Lemma signed_other : forall f, skips_other f -> forall acc b s q e, ~ starts_digit s -> s <> [] ->
  (hd 0 s = 45 -> exists r, tl s = r /\ r <> [] /\ ~ starts_digit r) -> hd 0 s <> 43 ->
  number_of f acc (mk b s q e) = Some (false, acc, mk b s q e).
Proof.
  intros f Hf acc b s q e Hd Hs H45 H43. unfold number_of, signed. rewrite cur_mk.
  destruct s as [| c s]; [congruence |]. simpl hd in *. simpl tl in *.
  destruct (Z.eqb_spec c 45) as [-> | Hc].
  - destruct (H45 eq_refl) as [r [<- [Hr1 Hr2]]]. simpl is_sign. cbv iota. simpl negb. cbv iota.
    destruct s as [| d s]; [congruence |]. rewrite advance_mk.
    rewrite (Hf (acc ++ [45]) (45 :: b) (d :: s) q e Hr2 Hr1).
    rewrite (remove_mk1 45 b (d :: s) q e Hr1).
    unfold orelse. rewrite app_length. simpl length. replace (length acc + 1 - 1)%nat with (length acc) by lia.
    rewrite firstn_acc. apply Hf; [exact Hd | discriminate].
  - replace (is_sign c) with false by zb. simpl negb. cbv iota. unfold orelse. apply Hf; assumption.
Qed.

(** ** lex_number *)

Lemma real_digit_first : digit_first unsigned_real_text.
Proof. intros w rest [d [f [x [-> [Hd _]]]]]. rewrite <- app_assoc. apply decimal_starts; exact Hd. Qed.
Lemma rational_digit_first : digit_first unsigned_rational_text.
Proof. intros w rest [d [p [-> [Hd _]]]]. rewrite <- app_assoc. apply decimal_starts; exact Hd. Qed.
Lemma integer_digit_first : digit_first decimal_text.
Proof. intros w rest Hd. apply decimal_starts; exact Hd. Qed.

Theorem lex_real : forall w b rest q e, with_sign unsigned_real_text w -> ends rest ->
  lex_number (mk b (w ++ rest) q e) = Some (Some (REAL w), at_last b w rest q e).
Proof.
  intros w b rest q e Hw Hr. unfold lex_number.
  rewrite (signed_reads _ _ real_reads real_digit_first w [] b rest q e Hw Hr). reflexivity.
Qed.
Theorem lex_rational : forall w b rest q e, with_sign unsigned_rational_text w -> ends rest ->
  lex_number (mk b (w ++ rest) q e) = Some (Some (RATIONAL w), at_last b w rest q e).
Proof.
  intros w b rest q e Hw Hr. unfold lex_number.
  rewrite (signed_skips _ _ real_skips_rational real_skips_other rational_digit_first w [] b rest q e Hw Hr).
  rewrite (signed_reads _ _ rational_reads rational_digit_first w [] b rest q e Hw Hr). reflexivity.
Qed.
Theorem lex_integer : forall w b rest q e, with_sign decimal_text w -> ends rest ->
  lex_number (mk b (w ++ rest) q e) = Some (Some (INTEGER w), at_last b w rest q e).
Proof.
  intros w b rest q e Hw Hr. unfold lex_number.
  rewrite (signed_skips _ _ real_skips_integer real_skips_other integer_digit_first w [] b rest q e Hw Hr).
  rewrite (signed_skips _ _ rational_skips_integer rational_skips_other integer_digit_first w [] b rest q e Hw Hr).
  rewrite (signed_reads _ _ integer_reads integer_digit_first w [] b rest q e Hw Hr). reflexivity.
Qed.
Theorem lex_no_number : forall b s q e, ~ starts_digit s -> s <> [] ->
  (hd 0 s = 45 -> exists r, tl s = r /\ r <> [] /\ ~ starts_digit r) -> hd 0 s <> 43 ->
  lex_number (mk b s q e) = Some (None, mk b s q e).
Proof.
  intros b s q e H1 H2 H3 H4. unfold lex_number.
  rewrite (signed_other _ real_skips_other [] b s q e H1 H2 H3 H4).
  rewrite (signed_other _ rational_skips_other [] b s q e H1 H2 H3 H4).
  rewrite (signed_other decimal decimal_none [] b s q e H1 H2 H3 H4). reflexivity.
Qed.
