(** Printing a proof as a Rocq script ends. *)
From Coq Require Import ZArith List Bool String Lia.
From Verif Require Import Ast_Model Ast_Proofs Sem_Spec Occ_Spec Unif_Model GsTerm_Spec GsProof_Model GsProof_Spec Tptp_Model Tptp_Spec Tptp_Rep Tptp_Rules Rocq_Model Rocq_Spec Rocq_Proofs.
Import ListNotations.
Open Scope list_scope.
Open Scope Z_scope.

(** the hypotheses that are kept, among those in place of which True is *)
Inductive padded : list form -> list form -> Prop :=
| Pd_nil : padded [] []
| Pd_keep f g G H : same f g -> padded G H -> padded (f :: G) (g :: H)
| Pd_pad i G H : padded G H -> padded G (Top i :: H).
Lemma padded_refl G : padded G G.
Proof. induction G as [|f G IH]; constructor; [apply same_refl|exact IH]. Qed.
Lemma padded_app G H l : padded G H -> padded (G ++ l) (H ++ l).
Proof. induction 1 as [|f g G H S P IH|i G H P IH]; cbn; [apply padded_refl|constructor; assumption|constructor; assumption]. Qed.
Lemma padded_avail G H f : padded G H -> available G f -> available H f.
Proof.
  induction 1 as [|g h G H S P IH|i G H P IH]; intros (x & Hx & X); [destruct Hx| |].
  - destruct Hx as [->|Hx]; [exists h; split; [left; reflexivity|]; eapply same_trans; [apply same_sym, S|exact X]|]. destruct IH as (y & Y1 & Y2); [exists x; auto|]. exists y. split; [right; exact Y1|exact Y2].
  - destruct IH as (y & Y1 & Y2); [exists x; auto|]. exists y. split; [right; exact Y1|exact Y2].
Qed.
Lemma padded_index G H f : padded G H -> available G f -> exists i, index_of f H = Some i.
Proof. intros P A. destruct (get_ok f H (padded_avail _ _ _ P A)) as (i & h & E & _). unfold get in E. destruct (index_of f H); [eauto|discriminate]. Qed.
(** the first formula equal to a given one becomes True *)
Lemma padded_drop f G G' : dropped f G G' -> forall H, padded G H -> exists i, index_of f H = Some i /\ padded G' (Tptp_Model.upd i (Top 0) H).
Proof.
  intros D H P. revert G' D. induction P as [|g h G H S P IH|i G H P IH]; intros G' D; [inversion D| |].
  - cbn [index_of]. inversion D as [? ? E|? ? G1 E D']; subst.
    + replace (form_eqb f h) with true by (symmetry; exact (same_trans _ _ _ E S)). exists 0%nat. split; [reflexivity|]. cbn. constructor. exact P.
    + destruct (form_eqb f h) eqn:K; [exfalso; apply E; eapply same_trans; [exact K|apply same_sym, S]|]. destruct (IH _ D') as (i & -> & Q). exists (Datatypes.S i). split; [reflexivity|]. cbn. constructor; assumption.
  - cbn [index_of]. destruct (form_eqb f (Top i)) eqn:K.
    + exists 0%nat. split; [reflexivity|]. cbn. clear IH. apply same_sym, same_top in K. destruct K as (j & ->).
      (* the formula dropped is a True, and so is the one that stays *)
      assert (Q : forall G G', dropped (Top j) G G' -> forall H, padded G H -> padded G' H).
      { clear. intros G G' D H P. revert G' D. induction P as [|g h G H S P IH|i G H P IH]; intros G' D; [inversion D| |constructor; auto].
        inversion D as [? ? E|? ? G1 E D']; subst; [|constructor; auto]. pose proof (same_trans _ _ _ E S) as K. apply same_top in K. destruct K as (k & ->). constructor. exact P. }
      constructor. exact (Q _ _ D _ P).
    + destruct (IH _ D) as (k & -> & Q). exists (S k). split; [reflexivity|]. cbn. constructor. exact Q.
Qed.

Section Ends.
Variable id_eq : Z.
Definition funs (created : list term) : Prop := forall t, In t created -> exists p tys l, t = Fun p tys l.
Lemma funs_add created p tys l : funs created -> funs (created ++ [Fun p tys l]).
Proof. intros H t Ht. apply in_app_iff in Ht. destruct Ht as [Ht|[<-|[]]]; [auto|eauto]. Qed.
Lemma find_in_ends created t : funs created -> exists r, find_in created t = Ok r.
Proof.
  intros F. unfold find_in. destruct (been_created created t) eqn:E; [|destruct (text_sko t); eauto]. apply existsb_exists in E. destruct E as (u & Hu & E). destruct (F u Hu) as (p & tys & l & ->). destruct t; try discriminate. eauto.
Qed.
Lemma real_name_ends created t : funs created -> exists r, real_name created t = Ok r.
Proof.
  intros F. induction t as [x|p tys l IH|x m|m] using term_ind'; try (apply find_in_ends; exact F). rewrite real_name_fun. destruct (has_sko (id_name p)); [apply find_in_ends; exact F|].
  assert (Q : exists ps, go_names created l = Ok ps).
  { induction IH as [|a l (r & Ha) Hl (ps & IHl)]; [cbn; eauto|]. cbn [go_names]. rewrite Ha. cbn [bind]. rewrite IHl. cbn [bind]. eauto. }
  destruct Q as (ps & ->). cbn [bind]. eauto.
Qed.
Lemma one_follow s hyps created d f t h c d' k : target s f -> make_step id_eq s hyps created d = Ok (t, [h], c, d') -> s_kids s = [k] -> (exists r, follow id_eq k h c d' = Ok r) -> exists r, follow id_eq s hyps created d = Ok r.
Proof. intros T M K (r & F). eexists. eapply follow_one; eauto. Qed.
Lemma fgo_ends s G hyps created : forall ks fs n, Forall2 (fun f k => forall H d, padded (G ++ f) H -> exists r, follow id_eq k H created d = Ok r) fs ks -> padded G hyps ->
  (forall j, nth_error (s_forms s) (n + j) = nth_error fs j) ->
  exists p, beta_hyps s hyps n ks = Ok p /\ forall all d, (forall j, nth_error all (n + j) = nth_error (snd p) j) -> exists r, fgo id_eq (Some all) hyps created n ks d = Ok r.
Proof.
  induction ks as [|k ks IH]; intros fs n F P N; inversion F as [|f ? fs' ? Hf F']; subst.
  - cbn. eexists. split; [reflexivity|]. intros all d _. cbn. eauto.
  - cbn [beta_hyps]. unfold forms_of. pose proof (N 0%nat) as N0. rewrite Nat.add_0_r in N0. rewrite N0. cbn [nth_error bind introduce_list].
    destruct (IH fs' (S n) F' P) as (p & E & Q); [intros j; pose proof (N (S j)) as Nj; cbn [nth_error] in Nj; rewrite <- Nj; f_equal; lia|]. rewrite E. cbn [bind fst snd]. eexists. split; [reflexivity|]. intros all d A. cbn [snd] in A.
    cbn [fgo]. unfold at_. pose proof (A 0%nat) as A0. rewrite Nat.add_0_r in A0. rewrite A0. cbn [nth_error bind].
    destruct (Hf (hyps ++ f) d (padded_app _ _ _ P)) as (r & ->). cbn [bind]. destruct (Q all (snd r)) as (r' & Er); [intros j; pose proof (A (S j)) as Aj; cbn [nth_error] in Aj; rewrite <- Aj; f_equal; lia|]. rewrite Er. cbn [bind]. eauto.
Qed.
Lemma follow_ends : forall n s, (seq_depth s < n)%nat -> forall G, shown G s -> forall H created d, padded G H -> funs created -> exists r, follow id_eq s H created d = Ok r.
Proof.
  induction n as [|n IH]; intros s L G SH H created d P F; [lia|].
  assert (IHk : forall k, In k (s_kids s) -> forall G, shown G k -> forall H created d, padded G H -> funs created -> exists r, follow id_eq k H created d = Ok r) by (intros k Hk; apply IH; pose proof (kid_depth k s Hk); lia). clear IH L n.
  assert (IH1 : forall k, s_kids s = [k] -> forall G, shown G k -> forall H created d, padded G H -> funs created -> exists r, follow id_eq k H created d = Ok r) by (intros k E; apply IHk; rewrite E; left; reflexivity).
  destruct SH as [G s k E K O|G s f RU T A K|G s f G' k RU TM T D K O|G s f p tys l k RU TM T A K O|G s f fs k RU T A FS K O|G s f fs k RU TM T A FS K O|G s f RU T A O].
  - destruct (IH1 _ K _ O H created d P F) as (r & Er). rewrite follow_eq. unfold is_empty. rewrite E, K. cbn [bind fgo]. rewrite Er. cbn [bind]. eauto.
  - destruct (padded_index _ _ _ P A) as (i & Ei). rewrite follow_eq, (target_not_empty _ _ T), (step_start _ _ _ _ _ _ _ T Ei), RU, K. cbn [bind fgo]. eauto.
  - destruct (padded_drop _ _ _ D _ P) as (i & Ei & P'). eapply one_follow; [exact T| |exact K|exact (IH1 _ K _ O _ created d P' F)].
    rewrite (step_start _ _ _ _ _ _ _ T Ei), RU, TM. unfold clean_hyps, get. rewrite Ei. reflexivity.
  - destruct (padded_index _ _ _ P A) as (i & Ei). eapply one_follow; [exact T| |exact K|exact (IH1 _ K _ O _ created d P F)]. rewrite (step_start _ _ _ _ _ _ _ T Ei), RU, TM. reflexivity.
  - destruct (padded_index _ _ _ P A) as (i & Ei). destruct (real_name_ends created (match s_term s with Some t => t | None => Var 0 "" end) F) as (pt & Ept).
    assert (Eo : exists pt, real_name_opt created (s_term s) = Ok pt) by (destruct (s_term s); cbn; eauto). destruct Eo as (po & Eo).
    assert (M : exists t, make_step id_eq s H created d = Ok (t, [H ++ fs], created, d)).
    { rewrite (step_start _ _ _ _ _ _ _ T Ei). unfold alpha_step, gamma_step, forms_of. rewrite FS. cbn [nth_error bind introduce_list]. rewrite Eo.
      destruct RU as [<-|[<-|[<-|[<-|[<-|[<-|[]]]]]]]; cbn [bind]; eauto. }
    destruct M as (t & M). eapply one_follow; [exact T|exact M|exact K|]. exact (IH1 _ K _ O _ _ _ (padded_app _ _ _ P) F).
  - destruct (padded_index _ _ _ P A) as (i & Ei).
    assert (M : exists t c d', make_step id_eq s H created d = Ok (t, [H ++ fs], c, d') /\ funs c).
    { rewrite (step_start _ _ _ _ _ _ _ T Ei). unfold delta_step, forms_of. rewrite FS. cbn [nth_error bind introduce_list].
      destruct (s_term s) as [[q|p tys l|j m|m]|]; try contradiction; cbn [add_term bind]; destruct RU as [<-|[<-|[]]]; do 3 eexists; (split; [reflexivity|]); auto using funs_add. }
    destruct M as (t & c & d' & M & Fc). eapply one_follow; [exact T|exact M|exact K|]. exact (IH1 _ K _ O _ _ _ (padded_app _ _ _ P) Fc).
  - destruct (padded_index _ _ _ P A) as (i & Ei).
    destruct (fgo_ends s G H created (s_kids s) (s_forms s) 0%nat) as (p & E & Q); [|exact P|reflexivity|].
    { clear -O IHk F. revert IHk. induction O as [|fs k l ks Hk O IH]; intros IHk; constructor.
      - intros H0 d P. exact (IHk k (or_introl eq_refl) _ Hk H0 created d P F).
      - apply IH. intros k' Hk'. apply IHk. right. exact Hk'. }
    assert (M : exists t, make_step id_eq s H created d = Ok (t, snd p, created, d)).
    { rewrite (step_start _ _ _ _ _ _ _ T Ei). unfold beta_step. rewrite E. cbn [bind]. destruct RU as [<-|[<-|[<-|[<-|[<-|[]]]]]]; eauto. }
    destruct M as (t & M). rewrite follow_eq, (target_not_empty _ _ T), M. cbn [bind]. destruct (Q (snd p) d ltac:(reflexivity)) as (r & ->). cbn [bind]. eauto.
Qed.
Theorem rocq_ends registered s axs c k : begins s axs c k -> shown ((axs ++ registered) ++ [neg c]) k -> exists st ts, rocq id_eq registered s = Ok (st, ts).
Proof.
  intros B S. rewrite (begins_follow _ _ _ _ _ _ B). destruct (follow_ends _ k (Nat.lt_succ_diag_r _) _ S _ [] 0 (padded_refl _)) as (r & E); [intros t []|]. unfold neg in E. rewrite E. cbn [bind]. eauto.
Qed.
End Ends.

(** a GS3 proof *)
Lemma applies_avail G s f : applies G s f -> exists h, target s h /\ available G h.
Proof. intros (h & T & H & _). exists h. split; [exact T|]. apply avail_in, H. Qed.
Lemma gs3_shown : forall n s, (seq_depth s < n)%nat -> forall G, gs3 G s -> every plain_terms s -> shown G s.
Proof.
  induction n as [|n IH]; intros s L G P E; [lia|].
  assert (IHk : forall k, In k (s_kids s) -> forall G, gs3 G k -> every plain_terms k -> shown G k) by (intros k Hk; apply IH; pose proof (kid_depth k s Hk); lia). clear IH L n.
  inversion E as [? PT EK Es]; subst. rewrite Forall_forall in EK.
  assert (K1 : forall k, s_kids s = [k] -> forall G, gs3 G k -> shown G k) by (intros k K G' Q; apply IHk; [rewrite K; left; reflexivity|exact Q|apply EK; rewrite K; left; reflexivity]).
  destruct P as [G s k E0 K O|G s f NE RU A CL K|G s h G' k NE RU TM T D K O|G s t k NE RU TM K O|G s f l fs k NE A AL FS AM K O|G s f v b u r k NE A GA TM FS K O|G s f v b u r k NE A DE TM NW FS K O|G s f v b u r k NE A DE NV TM FS K O|G s f ls NE A BE FS NL O].
  - eapply S_empty; eauto.
  - destruct (applies_avail _ _ _ A) as (h & T & Av). eapply S_close; eauto.
  - eapply S_weaken; eauto.
  - exfalso. unfold plain_terms in PT. rewrite RU in PT. congruence.
  - destruct (applies_avail _ _ _ A) as (h & T & Av). eapply S_one; eauto. destruct AL; cbn; auto 10.
  - destruct (applies_avail _ _ _ A) as (h & T & Av). eapply S_one; eauto. destruct GA; cbn; auto 10.
  - destruct (applies_avail _ _ _ A) as (h & T & Av). eapply S_delta; eauto; [destruct DE; cbn; auto|]. unfold plain_terms in PT. destruct DE; exact PT.
  - destruct (applies_avail _ _ _ A) as (h & T & Av). eapply S_delta; eauto; [destruct DE; cbn; auto|]. rewrite TM. exact Logic.I.
  - destruct (applies_avail _ _ _ A) as (h & T & Av). eapply S_beta; eauto; [destruct BE; cbn; auto 10|].
    clear -O IHk EK. induction O as [|fs k l ks Hk O IH]; constructor.
    + apply IHk; [left; reflexivity|exact Hk|apply EK; left; reflexivity].
    + apply IH; intros k' Hk'; [apply IHk|apply EK]; right; exact Hk'.
Qed.
Theorem rocq_ends_gs3 id_eq registered s axs c k : begins s axs c k -> gs3 ((axs ++ registered) ++ [neg c]) k -> every plain_terms k -> exists st ts, rocq id_eq registered s = Ok (st, ts).
Proof. intros B P E. eapply rocq_ends; [exact B|]. exact (gs3_shown _ k (Nat.lt_succ_diag_r _) _ P E). Qed.

(** ** What is printed for a rewriting *)
Lemma index_found f l i : index_of f l = Some i -> exists h, nth_error l i = Some h /\ same f h.
Proof.
  revert i. induction l as [|x l IH]; intros i H; [discriminate|]. cbn in H. destruct (form_eqb f x) eqn:E; [injection H as <-; exists x; auto|].
  destruct (index_of f l) as [j|]; [|discriminate]. injection H as <-. exact (IH j eq_refl).
Qed.
Lemma upd_at {A} i (x : A) l k : nth_error (Tptp_Model.upd i x l) k = if (k =? i)%nat then match nth_error l i with Some _ => Some x | None => None end else nth_error l k.
Proof.
  revert i k. induction l as [|y l IH]; intros [|i] [|k]; cbn; try reflexivity.
  - destruct (k =? i)%nat; reflexivity.
  - apply IH.
Qed.
Theorem rewrite_printed id_eq s f w hyps created d t hs c' d' : s_rule s = REWRITE -> target s f -> is_equal id_eq f = false -> nth_error (s_hyps s) (s_rew s) = Some w ->
  make_step id_eq s hyps created d = Ok (t, hs, c', d') ->
  exists i j hi hj g l h, t = TRewrite i j /\ nth_error hyps i = Some hi /\ same w hi /\ nth_error hyps j = Some hj /\ same f hj /\
    nth_error (s_forms s) 0 = Some (g :: l) /\ hs = [h] /\ List.length h = List.length hyps /\ nth_error h j = Some g /\ (forall k, k <> j -> nth_error h k = nth_error hyps k) /\ c' = created /\ d' = d.
Proof.
  intros R T Q W. unfold make_step, target_form. rewrite T. cbn [bind]. rewrite Q. destruct (index_of f hyps) as [j|] eqn:Ej; [|discriminate]. cbn [bind]. rewrite R.
  unfold rewrite_step, at_. rewrite W. cbn [bind]. unfold forms_of. destruct (nth_error (s_forms s) 0) as [[|g l]|]; try discriminate. cbn [bind nth_error].
  unfold get. destruct (index_of w hyps) as [i|] eqn:Ei; [|discriminate]. cbn [bind]. intros E. injection E as <- <- <- <-.
  destruct (index_found _ _ _ Ei) as (hi & Hi & Si). destruct (index_found _ _ _ Ej) as (hj & Hj & Sj).
  exists i, j, hi, hj, g, l, (Tptp_Model.upd j g hyps). repeat split; auto.
  - clear. revert j. induction hyps as [|y r IH]; intros [|j]; cbn; auto.
  - rewrite upd_at, Nat.eqb_refl, Hj. reflexivity.
  - intros k K. rewrite upd_at. apply Nat.eqb_neq in K. rewrite K. reflexivity.
Qed.
