(** The text of a formula determines the formula, when the scope of a quantifier extends as far as possible. *)
From Coq Require Import ZArith List Bool String Ascii Lia.
From Verif Require Import Ast_Model Ast_Proofs Lexer_Model Lexer_Spec Lexer_Final Elab_Model Print_Model Print_Spec Fof_Proofs Print_Proofs.
Import ListNotations.
Open Scope list_scope.
Open Scope Z_scope.

Scheme wide_logic_mind := Minimality for wide_logic Sort Prop
  with wide_chain_mind := Minimality for wide_chain Sort Prop
  with wide_unit_mind := Minimality for wide_unit Sort Prop.
Combined Scheme wide_form_ind from wide_logic_mind, wide_chain_mind, wide_unit_mind.

(** ** A parser *)

Fixpoint w_unit (n : nat) (ts : list token) : option (pform * list token) :=
  match n with
  | O => None
  | S n =>
    match ts with
    | NOT :: r => match w_unit n r with Some (f, r') => Some (PNeg f, r') | None => None end
    | TRUE :: r => Some (PTop, r)
    | FALSE :: r => Some (PBot, r)
    | LEFT_PAREN :: r =>
      match w_logic n r with Some (f, RIGHT_PAREN :: r') => Some (f, r') | _ => None end
    | _ => p_atomic n ts
    end
  end
with w_logic (n : nat) (ts : list token) : option (pform * list token) :=
  match n with
  | O => None
  | S n =>
    match ts with
    | FORALL :: LEFT_BRACKET :: r =>
      match p_vars n r with
      | Some (l, RIGHT_BRACKET :: COLON :: r') =>
        match w_logic n r' with Some (f, r'') => Some (PQuant PQuantAll l f, r'') | None => None end
      | _ => None
      end
    | EXISTS :: LEFT_BRACKET :: r =>
      match p_vars n r with
      | Some (l, RIGHT_BRACKET :: COLON :: r') =>
        match w_logic n r' with Some (f, r'') => Some (PQuant PQuantEx l f, r'') | None => None end
      | _ => None
      end
    | _ =>
      match w_unit n ts with
      | Some (f, o :: r) =>
        match p_nonassoc o with
        | Some mk => match w_unit n r with Some (g, r') => Some (mk f g, r') | None => None end
        | None =>
          match o with
          | VLINE => w_chain n VLINE PBinaryOr f (o :: r)
          | AND => w_chain n AND PBinaryAnd f (o :: r)
          | _ => Some (f, o :: r)
          end
        end
      | Some (f, []) => Some (f, [])
      | None => None
      end
    end
  end
with w_chain (n : nat) (o : token) (b : pbinop) (f : pform) (ts : list token) : option (pform * list token) :=
  match n with
  | O => None
  | S n =>
    match ts with
    | VLINE :: r =>
      match o with
      | VLINE => match w_unit n r with Some (g, r') => w_chain n o b (PBin b f g) r' | None => None end
      | _ => Some (f, ts)
      end
    | AND :: r =>
      match o with
      | AND => match w_unit n r with Some (g, r') => w_chain n o b (PBin b f g) r' | None => None end
      | _ => Some (f, ts)
      end
    | _ => Some (f, ts)
    end
  end.

Lemma wide_atomic k r n : term_token k -> w_unit (S n) (k :: r) = p_atomic n (k :: r).
Proof. intros H. destruct k; simpl in H; try tauto; reflexivity. Qed.

Definition wide_reads_unit (ts : list token) (f : pform) : Prop :=
  (exists k r, ts = k :: r /\ k <> FORALL /\ k <> EXISTS) /\
  exists n0, forall n r, (n0 <= n)%nat -> no_eq r -> w_unit n (ts ++ r) = Some (f, r).
Definition wide_reads (ts : list token) (f : pform) : Prop :=
  exists n0, forall n r, (n0 <= n)%nat -> no_op r -> w_logic n (ts ++ r) = Some (f, r).
Definition wide_reads_chain (o : token) (b : pbinop) (ts : list token) (f : pform) : Prop :=
  assoc o b -> exists ts1 f1 ts2 d n0, ts = ts1 ++ o :: ts2 /\ wide_reads_unit ts1 f1 /\
    forall n r, (n0 <= n)%nat -> no_eq r -> w_chain (d + n) o b f1 (o :: ts2 ++ r) = w_chain n o b f r.

Lemma w_chain_step o b (H : assoc o b) n f r :
  w_chain (S n) o b f (o :: r) = match w_unit n r with Some (g, r') => w_chain n o b (PBin b f g) r' | None => None end.
Proof. destruct H; reflexivity. Qed.
Lemma w_chain_stop o b n f r : no_op r -> w_chain (S n) o b f r = Some (f, r).
Proof. intros H. destruct r as [| [] r]; simpl in H; try tauto; reflexivity. Qed.

(** a formula that does not begin by a quantifier *)
Definition w_rest (n : nat) (ts : list token) : option (pform * list token) :=
  match w_unit n ts with
  | Some (f, o :: r) =>
    match p_nonassoc o with
    | Some mk => match w_unit n r with Some (g, r') => Some (mk f g, r') | None => None end
    | None =>
      match o with
      | VLINE => w_chain n VLINE PBinaryOr f (o :: r)
      | AND => w_chain n AND PBinaryAnd f (o :: r)
      | _ => Some (f, o :: r)
      end
    end
  | Some (f, []) => Some (f, [])
  | None => None
  end.
Lemma w_other n k r : k <> FORALL -> k <> EXISTS -> w_logic (S n) (k :: r) = w_rest n (k :: r).
Proof. intros H H'. destruct k; congruence || reflexivity. Qed.
Lemma w_other_app n ts r : (exists k r, ts = k :: r /\ k <> FORALL /\ k <> EXISTS) -> w_logic (S n) (ts ++ r) = w_rest n (ts ++ r).
Proof. intros [k [r0 [-> [H H']]]]. exact (w_other n k (r0 ++ r) H H'). Qed.

Lemma wide_atomic_reads ts f : fof_atomic ts f -> wide_reads_unit ts f.
Proof.
  intros H. destruct terms_read as [T A]. destruct H as [t s H | t s ts l H Ha | | | ts t ts' t' H H'].
  - split; [eexists _, _; split; [reflexivity | destruct H; split; discriminate] |].
    exists 3%nat. intros n r Hn Hr. more n. more n.
    assert (K : term_token t) by (destruct H; exact Logic.I). cbn [app]. rewrite (wide_atomic t r (S n) K).
    unfold p_atomic. rewrite (functor_cases t s H). destruct r as [| [] r]; simpl in Hr; try tauto; reflexivity.
  - split; [eexists _, _; split; [reflexivity | destruct H; split; discriminate] |].
    destruct (A ts l Ha) as [n0 E]. exists (S (S n0)). intros n r Hn Hr. more n. more n.
    assert (K : term_token t) by (destruct H; exact Logic.I). cbn [app]. rewrite (wide_atomic t _ (S n) K).
    unfold p_atomic. rewrite (functor_cases t s H). rewrite <- app_assoc. cbn [app].
    rewrite (E n (RIGHT_PAREN :: r)) by (simpl; lia || tauto).
    destruct r as [| [] r]; simpl in Hr; try tauto; reflexivity.
  - split; [eexists _, _; split; [reflexivity | split; discriminate] |]. exists 1%nat. intros n r Hn Hr. more n. reflexivity.
  - split; [eexists _, _; split; [reflexivity | split; discriminate] |]. exists 1%nat. intros n r Hn Hr. more n. reflexivity.
  - destruct (term_first ts t H) as [k [r0 [E0 K]]]. destruct (T ts t H) as [n0 E]. destruct (T ts' t' H') as [n1 E1].
    split; [rewrite E0; eexists _, _; split; [reflexivity | destruct k; simpl in K; try tauto; split; discriminate] |].
    exists (S (n0 + n1)). intros n r Hn Hr. more n. rewrite <- app_assoc. cbn [app].
    assert (X : w_unit (S n) (ts ++ EQUAL :: ts' ++ r) = p_atomic n (ts ++ EQUAL :: ts' ++ r)).
    { rewrite E0. cbn [app]. apply (wide_atomic k _ n K). }
    rewrite X. unfold p_atomic. rewrite (E n (EQUAL :: ts' ++ r)) by (simpl; lia || tauto).
    rewrite (E1 n r) by (lia || apply eq_open; exact Hr). destruct t as [| ? ? []]; reflexivity.
Qed.

Lemma first_app (ts r : list token) : (exists k r, ts = k :: r /\ k <> FORALL /\ k <> EXISTS) ->
  exists k r', ts ++ r = k :: r' /\ k <> FORALL /\ k <> EXISTS.
Proof. intros [k [r0 [-> H]]]. exists k, (r0 ++ r). split; [reflexivity | exact H]. Qed.

Lemma wides_read :
  (forall ts f, wide_logic ts f -> wide_reads ts f) /\ (forall o b ts f, wide_chain o b ts f -> wide_reads_chain o b ts f) /\
  (forall ts f, wide_unit ts f -> wide_reads_unit ts f).
Proof.
  destruct terms_read as [T _].
  apply wide_form_ind.
  - intros ts f _ [Q [n0 IH]]. exists (S n0). intros n r Hn Hr. more n. rewrite (w_other_app n ts r Q). unfold w_rest.
    rewrite (IH n r) by (lia || apply op_eq; exact Hr). destruct r as [| [] r]; simpl in Hr; try tauto; reflexivity.
  - intros ts f o mk ts' g Ho _ [Q [n0 IH]] _ [_ [n1 IH']]. destruct (nonassoc_p o mk Ho) as [E Q'].
    exists (S (n0 + n1)). intros n r Hn Hr. more n. rewrite <- app_assoc. rewrite (w_other_app n ts _ Q). unfold w_rest. cbn [app].
    rewrite (IH n (o :: ts' ++ r)) by (lia || apply Q'). rewrite E.
    rewrite (IH' n r) by (lia || apply op_eq; exact Hr). reflexivity.
  - intros ts f o b Ho _ IH. destruct (IH Ho) as [ts1 [f1 [ts2 [d [n0 [-> [[Q [n1 U]] C]]]]]]].
    exists (S (d + S n0 + n1)). intros n r Hn Hr. more n. rewrite <- app_assoc. rewrite (w_other_app n ts1 _ Q). unfold w_rest. cbn [app].
    rewrite (U n (o :: ts2 ++ r)) by (lia || apply (assoc_no_eq o b); exact Ho).
    replace n with (d + S (n - d - 1))%nat by lia.
    assert (X := C (S (n - d - 1)) r ltac:(lia) (op_eq r Hr)). rewrite (w_chain_stop o b _ f r Hr) in X.
    destruct Ho; exact X.
  - intros vs l ts f Hv _ [n0 IH]. destruct (vars_read vs l Hv) as [n1 V]. exists (S (n0 + n1)). intros n r Hn Hr. more n.
    cbn. rewrite <- app_assoc. cbn [app]. rewrite (V n (RIGHT_BRACKET :: COLON :: ts ++ r)) by (simpl; lia || tauto).
    rewrite (IH n r) by (lia || exact Hr). reflexivity.
  - intros vs l ts f Hv _ [n0 IH]. destruct (vars_read vs l Hv) as [n1 V]. exists (S (n0 + n1)). intros n r Hn Hr. more n.
    cbn. rewrite <- app_assoc. cbn [app]. rewrite (V n (RIGHT_BRACKET :: COLON :: ts ++ r)) by (simpl; lia || tauto).
    rewrite (IH n r) by (lia || exact Hr). reflexivity.
  - intros o b ts f ts' g _ U _ [_ [n0 IH]] Ho. exists ts, f, ts', 1%nat, n0.
    split; [reflexivity |]. split; [exact U |]. intros n r Hn Hr. change (1 + n)%nat with (S n).
    rewrite (w_chain_step o b Ho), (IH n r Hn Hr). reflexivity.
  - intros o b ts f ts' g _ IC _ [_ [n0 IH]] Ho. destruct (IC Ho) as [ts1 [f1 [ts2 [d [n1 [-> [U C]]]]]]].
    exists ts1, f1, (ts2 ++ o :: ts'), (S d), (n0 + n1)%nat. split; [rewrite <- app_assoc; reflexivity |]. split; [exact U |].
    intros n r Hn Hr. replace (S d + n)%nat with (d + S n)%nat by lia. rewrite <- app_assoc. cbn [app].
    rewrite (C (S n) (o :: ts' ++ r)) by (lia || apply (assoc_no_eq o b); exact Ho).
    rewrite (w_chain_step o b Ho), (IH n r) by (lia || exact Hr). reflexivity.
  - intros ts f _ [_ [n0 IH]]. split; [eexists _, _; split; [reflexivity | split; discriminate] |].
    exists (S n0). intros n r Hn Hr. more n. cbn. rewrite (IH n r) by (lia || exact Hr). reflexivity.
  - intros ts t ts' t' H H'. destruct (term_first ts t H) as [k [r0 [E0 K]]]. destruct (T ts t H) as [n0 E].
    split; [rewrite E0; eexists _, _; split; [reflexivity | destruct k; simpl in K; try tauto; split; discriminate] |].
    destruct (T ts' t' H') as [n1 E1]. exists (S (n0 + n1)). intros n r Hn Hr. more n. rewrite <- app_assoc. cbn [app].
    assert (X : w_unit (S n) (ts ++ NOT_EQUAL :: ts' ++ r) = p_atomic n (ts ++ NOT_EQUAL :: ts' ++ r)).
    { rewrite E0. cbn [app]. apply (wide_atomic k _ n K). }
    rewrite X. unfold p_atomic. rewrite (E n (NOT_EQUAL :: ts' ++ r)) by (simpl; lia || tauto).
    rewrite (E1 n r) by (lia || apply eq_open; exact Hr). destruct t as [| ? ? []]; reflexivity.
  - intros ts f H. exact (wide_atomic_reads ts f H).
  - intros ts f _ [n0 IH]. split; [eexists _, _; split; [reflexivity | split; discriminate] |].
    exists (S n0). intros n r Hn Hr. more n. cbn. rewrite <- app_assoc. cbn [app].
    rewrite (IH n (RIGHT_PAREN :: r)) by (simpl; lia || tauto). reflexivity.
Qed.

Theorem wide_unambiguous ts f g : wide_logic ts f -> wide_logic ts g -> f = g.
Proof.
  destruct wides_read as [L _]. intros Hf Hg. destruct (L ts f Hf) as [n0 E]. destruct (L ts g Hg) as [n1 E'].
  assert (X := E (n0 + n1)%nat [] ltac:(lia) Logic.I). assert (Y := E' (n0 + n1)%nat [] ltac:(lia) Logic.I).
  rewrite X in Y. injection Y as Y. exact Y.
Qed.

(** ** The texts *)

(** the text of an operand *)
Record wide_text (s : list Z) (ts : list token) (q : pform) : Prop := mkWT {
  wt_piece : piece s ts; wt_unit : wide_unit ts q; wt_bal : bal s; wt_space : shallow_space 0 s = false; wt_begins : begins s;
  wt_first : (exists t, s = 40 :: t ++ [41] /\ bal t /\ shallow_space 0 t = true) \/ starts s }.

Definition good_wide (eqi : Z) (f : form) : Prop :=
  exists s ts q, print_form default_printer eqi f = Some s /\ parsed f = Some q /\ wide_logic ts q /\ piece s ts /\ bal s /\ begins s /\
    strip s = s /\ (shallow_space 0 s = false -> wide_unit ts q /\ starts s).

Lemma wide_child eqi f : good_wide eqi f -> exists s ts q,
  print_form default_printer eqi f = Some s /\ parsed f = Some q /\ wide_text (child default_printer s) ts q.
Proof.
  intros [s [ts [q [Pr [Pa [L [P [B [St [_ U]]]]]]]]]].
  assert (E : child default_printer s = if shallow_space 0 s then 40 :: s ++ [41] else s) by exact (strip_paren s).
  destruct (shallow_space 0 s) eqn:S0.
  - destruct (bal_paren s B) as [B' S']. exists s, (LEFT_PAREN :: ts ++ [RIGHT_PAREN]), q. rewrite E. split; [exact Pr |].
    split; [exact Pa |]. split; [apply piece_paren; exact P | apply wu_paren; exact L | exact B' | exact S' | |].
    + exists 40, (s ++ [41]). split; [reflexivity | lia].
    + left. exists s. auto.
  - exists s, ts, q. rewrite E. split; [exact Pr |]. split; [exact Pa |].
    destruct (U eq_refl) as [Un St']. split; auto.
Qed.

(** two operands *)
Lemma wide_op s ts q w o s' ts' q' : wide_text s ts q -> wide_text s' ts' q' -> sign w o -> (forall r, follows w o (32 :: r)) ->
  Forall (fun c => c <> 40 /\ c <> 41) w ->
  piece (s ++ 32 :: w ++ 32 :: s') (ts ++ o :: ts') /\ bal (s ++ 32 :: w ++ 32 :: s') /\
  shallow_space 0 (s ++ 32 :: w ++ 32 :: s') = true /\ begins (s ++ 32 :: w ++ 32 :: s').
Proof.
  intros U U' Hs Hf Hw. split; [apply piece_op; [apply U | apply U' | exact Hs | exact Hf] |].
  assert (W : bal (32 :: w ++ [32])).
  { apply (bal_app [32]); [apply bal_char; lia |]. apply bal_app; [exact (bal_all w Hw) | apply bal_char; lia]. }
  replace (s ++ 32 :: w ++ 32 :: s') with (s ++ (32 :: w ++ [32]) ++ s') by (cbn [app]; rewrite <- app_assoc; reflexivity).
  split; [| split].
  - apply bal_app; [apply U |]. apply bal_app; [exact W | apply U'].
  - rewrite space_app by apply U. rewrite (wt_space _ _ _ U). reflexivity.
  - apply begins_app. apply U.
Qed.

(** the rest of a chain *)
Lemma wide_chain_text o b w (Ho : assoc o b) : sign w o -> (forall r, follows w o (32 :: r)) -> Forall (fun c => c <> 40 /\ c <> 41) w ->
  forall l s ts f, Forall (fun '(s, ts, q) => wide_text s ts q) l -> piece s ts -> wide_chain o b ts f -> bal s ->
  shallow_space 0 s = true -> begins s ->
  let s' := s ++ flat_map (fun '(c, _, _) => 32 :: w ++ 32 :: c) l in
  exists ts', piece s' ts' /\ wide_chain o b ts' (fold_left (PBin b) (map snd l) f) /\ bal s' /\ shallow_space 0 s' = true /\ begins s'.
Proof.
  intros Hs Hf Hw. induction l as [| [[c tc] qc] l IH]; intros s ts f Hl P C B S0 St.
  - cbn. rewrite app_nil_r. exists ts. auto.
  - inversion Hl as [| x l' Hx Hl']; subst. cbn [flat_map map fold_left snd]. rewrite app_assoc.
    apply (IH _ (ts ++ o :: tc)).
    + exact Hl'.
    + apply piece_op; [exact P | apply Hx | exact Hs | exact Hf].
    + apply wc_more; [exact C | apply Hx].
    + apply bal_app; [exact B |]. apply (bal_app [32]); [apply bal_char; lia |]. apply bal_app; [exact (bal_all w Hw) |].
      apply (bal_app [32]); [apply bal_char; lia | apply Hx].
    + rewrite space_app by exact B. rewrite S0. reflexivity.
    + apply begins_app. exact St.
Qed.

Lemma wide_list eqi fs : Forall (good_wide eqi) fs ->
  exists ls l, all_some (map (print_form default_printer eqi) fs) = Some ls /\ somes (map parsed fs) = Some (map snd l) /\
    map (child default_printer) ls = map (fun '(c, _, _) => c) l /\ Forall (fun '(s, ts, q) => wide_text s ts q) l.
Proof.
  induction 1 as [| f fs H _ IH].
  - exists [], []. repeat split; constructor.
  - destruct (wide_child eqi f H) as [s [ts [q [Pr [Pa U]]]]]. destruct IH as [ls [l [A [A' [M F]]]]].
    exists (s :: ls), ((child default_printer s, ts, q) :: l). cbn [map all_some somes]. rewrite Pr, Pa, A, A', M.
    repeat split; try reflexivity. constructor; [exact U | exact F].
Qed.

(** the parentheses of the first operand are not those of the whole text *)
Lemma strip_kept s ts q r : wide_text s ts q -> r <> [] -> strip (s ++ r) = s ++ r.
Proof.
  intros U N. destruct (wt_first _ _ _ U) as [[t [-> [B S0]]] | [c [r0 [-> [H _]]]]]; [| exact (strip_other c (r0 ++ r) H)].
  destruct (exists_last N) as [r' [z ->]]. cbn [app]. rewrite <- app_assoc. cbn [app].
  unfold strip. replace (t ++ 41 :: r' ++ [z]) with ((t ++ 41 :: r') ++ [z]) by (rewrite <- app_assoc; reflexivity).
  rewrite rev_app_distr. cbn [rev app]. rewrite rev_involutive.
  assert (X : shallow_space 0 (t ++ 41 :: r') = true) by (rewrite space_app by exact B; rewrite S0; reflexivity).
  rewrite X. destruct z as [| z | z]; try reflexivity. do 6 (destruct z as [z | z |]; try reflexivity).
Qed.
Lemma strip_starts s : starts s -> strip s = s.
Proof. intros [c [r [-> [H _]]]]. exact (strip_other c r H). Qed.

Lemma wide_chain_good eqi o b c w fs : assoc o b -> c = 32 :: w ++ [32] -> sign w o -> (forall r, follows w o (32 :: r)) ->
  Forall (fun c => c <> 40 /\ c <> 41) w -> (2 <= List.length fs)%nat -> Forall (good_wide eqi) fs ->
  exists s ts q ql, print_list default_printer c (map (print_form default_printer eqi) fs) = Some s /\
    somes (map parsed fs) = Some ql /\ chain b ql = Some q /\ wide_logic ts q /\ piece s ts /\ bal s /\ begins s /\ shallow_space 0 s = true /\
    strip s = s.
Proof.
  intros Ho -> Hs Hf Hw Hlen Hfs. destruct (wide_list eqi fs Hfs) as [ls [l [A [A' [M F]]]]].
  assert (Len : (2 <= List.length l)%nat).
  { apply (f_equal (fun o => match o with Some x => List.length x | None => O end)) in A'.
    cbn in A'. rewrite map_length in A'. rewrite <- A'. clear -Hlen Hfs. revert Hlen.
    assert (X : forall gs, Forall (good_wide eqi) gs -> match somes (map parsed gs) with Some x => List.length x | None => O end = List.length gs).
    { induction 1 as [| g gs [s [ts [q [_ [Pa _]]]]] _ IH]; [reflexivity |]. cbn. rewrite Pa.
      destruct (somes (map parsed gs)) as [x |] eqn:E.
      - cbn. rewrite IH. reflexivity.
      - destruct gs as [| g' gs]; [discriminate | discriminate]. }
    rewrite (X fs Hfs). lia. }
  destruct l as [| [[s1 t1] q1] [| [[s2 t2] q2] l]]; [simpl in Len; lia | simpl in Len; lia |].
  inversion F as [| x1 l1 U1 F1]; subst. inversion F1 as [| x2 l2 U2 F2]; subst.
  destruct (wide_op s1 t1 q1 w o s2 t2 q2 U1 U2 Hs Hf Hw) as [P0 [B0 [S0 St0]]].
  destruct (wide_chain_text o b w Ho Hs Hf Hw l _ _ _ F2 P0 (wc_two o b t1 q1 t2 q2 (wt_unit _ _ _ U1) (wt_unit _ _ _ U2)) B0 S0 St0)
    as [ts' [P [C [B [Sp St]]]]].
  eexists _, ts', _, _. split.
  - unfold print_list. rewrite A, M. cbn [map]. rewrite join_flat. cbn [flat_map]. reflexivity.
  - split; [exact A' |]. split; [reflexivity |]. split; [apply (wl_assoc _ _ o b Ho); exact C |].
    assert (E : forall l : list (list Z * list token * pform),
       flat_map (fun y => (32 :: w ++ [32]) ++ y) (map (fun '(c, _, _) => c) l) = flat_map (fun '(c, _, _) => 32 :: w ++ 32 :: c) l).
    { clear. induction l as [| [[c t] q] l IH]; [reflexivity |]. cbn [map flat_map]. rewrite IH. cbn [app]. rewrite <- !app_assoc. reflexivity. }
    rewrite E.
    replace (s1 ++ ((32 :: w ++ [32]) ++ s2) ++ flat_map (fun '(c, _, _) => 32 :: w ++ 32 :: c) l)
      with ((s1 ++ 32 :: w ++ 32 :: s2) ++ flat_map (fun '(c, _, _) => 32 :: w ++ 32 :: c) l)
      by (cbn [app]; rewrite <- !app_assoc; cbn [app]; rewrite <- !app_assoc; reflexivity).
    split; [exact P |]. split; [exact B |]. split; [exact St |]. split; [exact Sp |].
    rewrite <- app_assoc. apply (strip_kept _ _ _ _ U1). discriminate.
Qed.

Lemma wide_quant eqi k o pq vs g : sign [k] o -> (o = FORALL /\ pq = PQuantAll) \/ (o = EXISTS /\ pq = PQuantEx) ->
  k = 33 \/ k = 63 -> vs <> [] -> Forall (fun v => variable_name (tv_name v) /\ tv_ty v = TyConstr "$i" []) vs ->
  good_wide eqi g ->
  exists s ts q l, print_quant default_printer [k] vs (print_form default_printer eqi g) = Some s /\
    somes (map parsed_var vs) = Some l /\ parsed g = Some q /\ wide_logic ts (PQuant pq l q) /\ piece s ts /\ bal s /\ starts s /\
    shallow_space 0 s = true.
Proof.
  intros Hk Ho Hk' Hvs Hv [s [ts [q [Pr [Pa [L [P [B [_ [Sk _]]]]]]]]]].
  destruct (vars_text vs Hvs Hv) as [tv [l [A [G [Pv Bv]]]]].
  set (v := join (codes ", ") (map var_text vs)) in *.
  exists (k :: 32 :: 91 :: v ++ 93 :: 58 :: 32 :: s), (o :: LEFT_BRACKET :: tv ++ RIGHT_BRACKET :: COLON :: ts), q, l.
  split.
  { unfold print_quant. rewrite Pr. unfold str at 2. cbn [generic act default_printer strip_action].
    rewrite Sk. unfold surround_quantified. cbn [quant_start quant_end default_printer sep_ty_vars sep_vars_form].
    change (map (fun v0 => str default_printer (on_typed_var (act default_printer) (codes (tv_name v0)) (print_ty default_printer (tv_ty v0)))) vs)
      with (map var_text vs). fold v. change (codes "[") with [91]. change (codes "]") with [93]. change (codes ": ") with [58; 32].
    cbn [app]. rewrite <- !app_assoc. reflexivity. }
  split; [exact A |]. split; [exact Pa |]. split.
  { destruct Ho as [[-> ->] | [-> ->]]; constructor; assumption. }
  split; [apply piece_quant; tauto |].
  assert (K : bal [k]) by (apply bal_char; lia).
  split; [| split].
  - apply (bal_app [k]); [exact K |]. apply (bal_app [32; 91]); [apply bal_all; repeat constructor; discriminate |].
    apply bal_app; [exact Bv |]. apply (bal_app [93; 58; 32]); [apply bal_all; repeat constructor; discriminate | exact B].
  - eexists _, _. split; [reflexivity |]. lia.
  - change (k :: 32 :: 91 :: v ++ 93 :: 58 :: 32 :: s) with ([k] ++ 32 :: 91 :: v ++ 93 :: 58 :: 32 :: s).
    rewrite space_app by exact K. apply orb_true_r.
Qed.

Lemma forms_wide eqi f : writable eqi f -> good_wide eqi f.
Proof.
  induction f as [i vs g IH | i vs g IH | i fs IH | i fs IH | i a b IHa IHb | i a b IHa IHb | i g IH | i p tys args | i | i]
    using form_ind'; intros W.
  - destruct W as [N [V W]].
    destruct (wide_quant eqi 33 FORALL PQuantAll vs g) as [s [ts [q [l [Pr [A [Pa [U [P [B [St S0]]]]]]]]]]];
      [constructor | tauto | tauto | exact N | exact V | exact (IH W) |].
    exists s, ts, (PQuant PQuantAll l q). split; [exact Pr |]. split; [cbn; rewrite A, Pa; reflexivity |].
    split; [exact U |]. split; [exact P |]. split; [exact B |]. split; [apply starts_begins; exact St |].
    split; [exact (strip_starts s St) | congruence].
  - destruct W as [N [V W]].
    destruct (wide_quant eqi 63 EXISTS PQuantEx vs g) as [s [ts [q [l [Pr [A [Pa [U [P [B [St S0]]]]]]]]]]];
      [constructor | tauto | tauto | exact N | exact V | exact (IH W) |].
    exists s, ts, (PQuant PQuantEx l q). split; [exact Pr |]. split; [cbn; rewrite A, Pa; reflexivity |].
    split; [exact U |]. split; [exact P |]. split; [exact B |]. split; [apply starts_begins; exact St |].
    split; [exact (strip_starts s St) | congruence].
  - destruct W as [Len W]. assert (G : Forall (good_wide eqi) fs).
    { clear Len. induction fs as [| g fs IHf]; [constructor |]. inversion IH; subst. destruct W as [W W'].
      constructor; auto. }
    destruct (wide_chain_good eqi VLINE PBinaryOr (codes " | ") [124] fs) as [s [ts [q [ql [Pr [A [C [L [P [B [St [S0 Sk]]]]]]]]]]]];
      [constructor | reflexivity | constructor | intros; exact Logic.I | repeat constructor; discriminate | exact Len | exact G |].
    exists s, ts, q. split; [exact Pr |]. split; [cbn; rewrite A; exact C |]. split; [exact L |]. split; [exact P |].
    split; [exact B |]. split; [exact St |]. split; [exact Sk | congruence].
  - destruct W as [Len W]. assert (G : Forall (good_wide eqi) fs).
    { clear Len. induction fs as [| g fs IHf]; [constructor |]. inversion IH; subst. destruct W as [W W'].
      constructor; auto. }
    destruct (wide_chain_good eqi AND PBinaryAnd (codes " & ") [38] fs) as [s [ts [q [ql [Pr [A [C [L [P [B [St [S0 Sk]]]]]]]]]]]];
      [constructor | reflexivity | constructor | intros; exact Logic.I | repeat constructor; discriminate | exact Len | exact G |].
    exists s, ts, q. split; [exact Pr |]. split; [cbn; rewrite A; exact C |]. split; [exact L |]. split; [exact P |].
    split; [exact B |]. split; [exact St |]. split; [exact Sk | congruence].
  - destruct W as [Wa Wb].
    destruct (wide_child eqi a (IHa Wa)) as [s [ts [q [Pr [Pa U]]]]].
    destruct (wide_child eqi b (IHb Wb)) as [s' [ts' [q' [Pr' [Pa' U']]]]].
    destruct (wide_op _ ts q (codes "<=>") EQUIV _ ts' q' U U') as [P [B [S0 St]]];
      [constructor | intros; exact Logic.I | repeat constructor; discriminate |].
    eexists _, _, (PBin PBinaryEqu q q'). split; [cbn [print_form]; rewrite Pr, Pr'; reflexivity |]. split; [cbn; rewrite Pa, Pa'; reflexivity |].
    split; [apply (wl_nonassoc ts q EQUIV (PBin PBinaryEqu) ts' q'); [constructor | apply U | apply U'] |].
    split; [exact P |]. split; [exact B |]. split; [exact St |].
    split; [apply (strip_kept _ _ _ _ U); discriminate | cbn in *; congruence].
  - destruct W as [Wa Wb].
    destruct (wide_child eqi a (IHa Wa)) as [s [ts [q [Pr [Pa U]]]]].
    destruct (wide_child eqi b (IHb Wb)) as [s' [ts' [q' [Pr' [Pa' U']]]]].
    destruct (wide_op _ ts q (codes "=>") IMPLY _ ts' q' U U') as [P [B [S0 St]]];
      [constructor | intros; exact Logic.I | repeat constructor; discriminate |].
    eexists _, _, (PBin PBinaryImp q q'). split; [cbn [print_form]; rewrite Pr, Pr'; reflexivity |]. split; [cbn; rewrite Pa, Pa'; reflexivity |].
    split; [apply (wl_nonassoc ts q IMPLY (PBin PBinaryImp) ts' q'); [constructor | apply U | apply U'] |].
    split; [exact P |]. split; [exact B |]. split; [exact St |].
    split; [apply (strip_kept _ _ _ _ U); discriminate | cbn in *; congruence].
  - destruct (wide_child eqi g (IH W)) as [s [ts [q [Pr [Pa U]]]]].
    exists (126 :: child default_printer s), (NOT :: ts), (PNeg q).
    split; [cbn [print_form]; rewrite Pr; reflexivity |]. split; [cbn; rewrite Pa; reflexivity |].
    assert (Un : wide_unit (NOT :: ts) (PNeg q)) by (constructor; apply U).
    split; [apply wl_unit; exact Un |]. split; [apply piece_not; [apply U | exact (wt_begins _ _ _ U)] |].
    split; [apply (bal_app [126]); [apply bal_char; lia | apply U] |].
    assert (St : starts (126 :: child default_printer s)) by (eexists _, _; split; [reflexivity | lia]).
    split; [apply starts_begins; exact St |].
    split; [exact (strip_starts _ St) | auto].
  - destruct W as [[Hi [Hn [a [b [-> [Wa Wb]]]]]] | [Hi [Hn [-> Ha]]]].
    + destruct (good_terms eqi a Wa) as [[s [ts [q [Pr [Pa [G [P [B [S0 St]]]]]]]]]].
      destruct (good_terms eqi b Wb) as [[s' [ts' [q' [Pr' [Pa' [G' [P' [B' [S0' St']]]]]]]]]].
      exists (s ++ 32 :: [61] ++ 32 :: s'), (ts ++ EQUAL :: ts'), (PPred "=" [q; q']).
      split.
      { cbn [print_form map all_some]. rewrite Pr, Pr'. unfold on_functional. rewrite Hi, Z.eqb_refl.
        unfold str_id. rewrite Hn. reflexivity. }
      split; [cbn; rewrite Pa, Pa', Hn; reflexivity |].
      assert (Un : wide_unit (ts ++ EQUAL :: ts') (PPred "=" [q; q'])) by (apply wu_atomic; constructor; assumption).
      split; [apply wl_unit; exact Un |].
      split. { apply piece_op; [exact P | exact P' | constructor |]. intros r. cbn. unfold next_is. cbn. congruence. }
      split. { apply bal_app; [exact B |]. apply (bal_app [32; 61; 32]); [apply bal_all; repeat constructor; discriminate | exact B']. }
      split; [apply begins_app; apply starts_begins; exact St |]. split; [apply strip_starts; apply starts_app; exact St |].
      intros _. split; [exact Un | apply starts_app; exact St].
    + assert (G : Forall (good_term eqi) args) by (eapply Forall_impl; [apply good_terms | exact Ha]).
      destruct (functional_text eqi p args Hi Hn G) as [s [ts [ls [ql [A [E [A' [_ [F [P [B [S0 St]]]]]]]]]]]].
      exists s, ts, (PPred (id_name p) ql). split; [cbn [print_form]; rewrite A; exact E |]. split; [cbn; rewrite A'; reflexivity |].
      assert (Un : wide_unit ts (PPred (id_name p) ql)) by (apply wu_atomic; exact F).
      split; [apply wl_unit; exact Un |]. split; [exact P |]. split; [exact B |]. split; [apply starts_begins; exact St |].
    split; [exact (strip_starts _ St) | auto].
  - assert (Un : wide_unit [TRUE] PTop) by (apply wu_atomic; constructor).
    exists (codes "$true"), [TRUE], PTop. split; [reflexivity |]. split; [reflexivity |]. split; [apply wl_unit; exact Un |].
    assert (W' : word (codes "$true")).
    { split; [repeat constructor; discriminate |]. exists 36. eexists. split; [reflexivity | lia]. }
    split; [apply piece_word; [exact l_true | intros rest Hr; exact (good_ends rest Hr)] |].
    split; [apply word_bal; exact W' |]. split; [apply starts_begins; exact (w_first _ W') |]. split; [reflexivity |].
    intros _. split; [exact Un | exact (w_first _ W')].
  - assert (Un : wide_unit [FALSE] PBot) by (apply wu_atomic; constructor).
    exists (codes "$false"), [FALSE], PBot. split; [reflexivity |]. split; [reflexivity |]. split; [apply wl_unit; exact Un |].
    assert (W' : word (codes "$false")).
    { split; [repeat constructor; discriminate |]. exists 36. eexists. split; [reflexivity | lia]. }
    split; [apply piece_word; [exact l_false | intros rest Hr; exact (good_ends rest Hr)] |].
    split; [apply word_bal; exact W' |]. split; [apply starts_begins; exact (w_first _ W') |]. split; [reflexivity |].
    intros _. split; [exact Un | exact (w_first _ W')].
Qed.

(** the text of a formula, with wide scopes *)
Theorem printed_wide eqi name role f : lower_name name -> lower_name role -> writable eqi f ->
  exists s q ts, print_form default_printer eqi f = Some s /\ parsed f = Some q /\
    (forall n e, exists st, lex_file (fof_line (codes name) (codes role) s) n e = Some (line_tokens (codes name) (codes role) ts, st)) /\
    wide_logic ts q /\ forall q', wide_logic ts q' -> q' = q.
Proof.
  intros Hn Hr W. destruct (forms_wide eqi f W) as [s [ts [q [Pr [Pa [L [P _]]]]]]].
  exists s, q, ts. split; [exact Pr |]. split; [exact Pa |]. split; [exact (line_lexed name role s ts Hn Hr P) |].
  split; [exact L |]. intros q' H. exact (wide_unambiguous ts q' q H L).
Qed.

(** two formulas with the same text are the same parsed formula *)
Theorem printed_injective eqi f g s : writable eqi f -> writable eqi g ->
  print_form default_printer eqi f = Some s -> print_form default_printer eqi g = Some s -> parsed f = parsed g.
Proof.
  intros W W' P P'.
  assert (N : lower_name "a").
  { exists 97, []. split; [reflexivity |]. split; [unfold lower_alpha; lia |]. split; [constructor |]. intros k H. inversion H. }
  destruct (printed_wide eqi "a" "a" f N N W) as [s1 [q [ts [P1 [Q [L [D _]]]]]]].
  destruct (printed_wide eqi "a" "a" g N N W') as [s2 [q' [ts' [P2 [Q' [L' [D' _]]]]]]].
  rewrite P in P1. injection P1 as <-. rewrite P' in P2. injection P2 as <-.
  destruct (L 0 false) as [st E]. destruct (L' 0 false) as [st' E']. rewrite E in E'. injection E' as E' _.
  apply app_end in E'. subst ts'.
  rewrite Q, Q'. f_equal. exact (wide_unambiguous ts q q' D D').
Qed.
