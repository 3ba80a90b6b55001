(** The list of universal formulas of the incremental search (C87). *)
From Coq Require Import ZArith List Bool String Lia.
From Verif Require Import LibSet_Model Ast_Model Problem_Model Rules_Model Rules_Spec Unif_Model UnifTree_Model Closure_Model
  Incr_Model Incr_Spec Incr_Proofs IncrTree_Proofs IncrSound_Proofs.
Import ListNotations.
Open Scope list_scope.
Open Scope Z_scope.

(** the list is never filled *)
Lemma never name_id ty_arity add comp g k f sched w i n : run name_id ty_arity add comp sched (first_world g k f) = Ok w -> node_at w i n ->
  mg_reintro (n_mgr n) = [] /\ mg_metas (n_mgr n) = [].
Proof.
  intros E H. pose proof (run_inv0 name_id ty_arity add comp sched _ w (first_winv _ _ g k f) E) as W. exact (tr_rest _ (wi_tree _ _ _ W) i n H).
Qed.

(** what would be done with it *)
Lemma least_spec l : forall i best min, (least l i best min = best /\ forall y c, In (y, c) l -> min <= c) \/
  exists k x c, least l i best min = (i + k)%nat /\ nth_error l k = Some (x, c) /\ c < min /\ forall y c', In (y, c') l -> c <= c'.
Proof.
  induction l as [|[x c] l IH]; intros i best min; cbn [least]; [left; split; auto; intros y c []|].
  destruct (c <? min) eqn:E.
  - apply Z.ltb_lt in E. right. destruct (IH (S i) i c) as [[-> A]|(k & y & d & -> & B & C & D)].
    + exists 0%nat, x, c. split; [lia|]. split; [reflexivity|]. split; auto. intros y c' [K|K]; [injection K as <- <-; lia|eauto].
    + exists (S k), y, d. split; [lia|]. split; auto. split; [lia|]. intros z c' [K|K]; [injection K as <- <-; lia|eauto].
  - apply Z.ltb_ge in E. destruct (IH (S i) best min) as [[-> A]|(k & y & d & -> & B & C & D)].
    + left. split; auto. intros y c' [K|K]; [injection K as <- <-; auto|eauto].
    + right. exists (S k), y, d. split; [lia|]. split; auto. split; auto. intros z c' [K|K]; [injection K as <- <-; lia|eauto].
Qed.
Lemma nth_parts {A} (l : list A) k a : nth_error l k = Some a -> l = firstn k l ++ a :: skipn (S k) l.
Proof. revert k. induction l as [|b l IH]; intros [|k] H; try discriminate; cbn in *; [congruence|]. f_equal. auto. Qed.
Lemma reintro_least m s g a : mg_gamma m = [] -> (forall x c, In (x, c) (mg_reintro m) -> universal (ft_form x)) ->
  apply_reintro m s g = Ok (Some a) ->
  exists l1 c l2, mg_reintro m = l1 ++ (ap_rule a, c) :: l2 /\ (forall y c', In (y, c') (mg_reintro m) -> c <= c') /\
    ap_new a <> [] /\ forall mg, In mg (ap_new a) -> mg_reintro mg = l1 ++ (ap_rule a, c + 1) :: l2.
Proof.
  intros NG UN E. unfold apply_reintro in E. destruct (mg_reintro m) as [|[x0 c0] r] eqn:R; [discriminate|]. rewrite <- R in *.
  set (i := least (mg_reintro m) 0 0 c0) in *.
  destruct (nth_error (mg_reintro m) i) as [[x c]|] eqn:N; [|discriminate].
  assert (MIN : forall y c', In (y, c') (mg_reintro m) -> c <= c').
  { destruct (least_spec (mg_reintro m) 0 0 c0) as [[L A]|(k & y & d & L & B & C & D)].
    - fold i in L. rewrite L in N. rewrite R in N. cbn in N. injection N as <- <-. exact A.
    - fold i in L. cbn in L. rewrite L, B in N. injection N as <- <-. exact D. }
  set (l := firstn i (mg_reintro m) ++ (x, c + 1) :: skipn (S i) (mg_reintro m)) in *.
  set (copy := insert_rule _ x) in *.
  assert (UX : universal (ft_form x)) by (eapply UN, nth_error_In, N).
  assert (GC : mg_gamma copy = [x]) by (unfold copy, insert_rule; rewrite (gamma_kind _ UX); cbn; rewrite NG; reflexivity).
  assert (RC : mg_reintro copy = l) by (unfold copy, insert_rule; rewrite (gamma_kind _ UX); reflexivity).
  rewrite GC in E. unfold try_to_apply in E.
  destruct (apply_rule x s g) as [[[[news metas] s1] g1]|] eqn:AR; [|discriminate]. cbn [bind ap_rule ap_metas] in E. rewrite not_gamma in E. injection E as <-.
  cbn [ap_rule ap_new]. exists (firstn i (mg_reintro m)), c, (skipn (S i) (mg_reintro m)). split; [apply nth_parts; exact N|]. split; [exact MIN|]. split.
  - intros X. apply map_eq_nil in X. subst news. destruct x as [f ts]. cbn [ft_form] in UX.
    destruct UX; cbn [apply_rule ft_form ft_terms] in AR; destruct (apply_gamma _ _ _) as [[[y m'] g2]|]; discriminate.
  - intros mg Hm. apply in_map_iff in Hm as (new & <- & _). rewrite (proj1 (branch_rest copy x metas new)). exact RC.
Qed.
