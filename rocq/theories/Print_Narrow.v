(** The text of a formula is read by the grammar of FOF as [fof_reading] says. *)
From Coq Require Import ZArith List Bool String Ascii Lia.
From Verif Require Import Ast_Model Ast_Proofs Lexer_Model Lexer_Spec Lexer_Final Elab_Model Print_Model Print_Spec Fof_Proofs Print_Proofs.
Import ListNotations.
Open Scope list_scope.
Open Scope Z_scope.

(** quantifiers before a formula *)
Definition prefix (pre : list token) (k : pform -> pform) : Prop := forall ts q, fof_unit ts q -> fof_unit (pre ++ ts) (k q).
Lemma prefix_none : prefix [] (fun q => q).
Proof. intros ts q H. exact H. Qed.

(** the text of an operand *)
Record unit_text (s : list Z) (ts : list token) (q : pform) : Prop := mkUT {
  ut_piece : piece s ts; ut_unit : fof_unit ts q; ut_bal : bal s; ut_space : shallow_space 0 s = false; ut_begins : begins s;
  ut_first : (exists t, s = 40 :: t ++ [41] /\ bal t /\ shallow_space 0 t = true) \/ starts s }.

Definition good_form (eqi : Z) (f : form) : Prop :=
  exists s ts, print_form default_printer eqi f = Some s /\
    (forall pre k, prefix pre k -> exists q, narrow k f = Some q /\ fof_logic (pre ++ ts) q) /\ piece s ts /\ bal s /\ begins s /\
    strip s = s /\ (shallow_space 0 s = false -> starts s /\ exists q, fof_reading f = Some q /\ fof_unit ts q).

Lemma child_text eqi f : good_form eqi f -> exists s ts q,
  print_form default_printer eqi f = Some s /\ fof_reading f = Some q /\ unit_text (child default_printer s) ts q.
Proof.
  intros [s [ts [Pr [L [P [B [St [_ U]]]]]]]].
  assert (E : child default_printer s = if shallow_space 0 s then 40 :: s ++ [41] else s) by exact (strip_paren s).
  destruct (shallow_space 0 s) eqn:S0.
  - destruct (L [] _ prefix_none) as [q [Pa Lq]]. destruct (bal_paren s B) as [B' S']. exists s, (LEFT_PAREN :: ts ++ [RIGHT_PAREN]), q. rewrite E. split; [exact Pr |].
    split; [exact Pa |]. split; [apply piece_paren; exact P | apply fu_paren; exact Lq | exact B' | exact S' | |].
    + exists 40, (s ++ [41]). split; [reflexivity | lia].
    + left. exists s. auto.
  - destruct (U eq_refl) as [St' [q [Pa Un]]]. exists s, ts, q. rewrite E. split; [exact Pr |]. split; [exact Pa |]. split; auto.
Qed.

(** two operands *)
Lemma op_text s ts q w o s' ts' q' : unit_text s ts q -> unit_text s' ts' q' -> sign w o -> (forall r, follows w o (32 :: r)) ->
  Forall (fun c => c <> 40 /\ c <> 41) w ->
  piece (s ++ 32 :: w ++ 32 :: s') (ts ++ o :: ts') /\ bal (s ++ 32 :: w ++ 32 :: s') /\
  shallow_space 0 (s ++ 32 :: w ++ 32 :: s') = true /\ begins (s ++ 32 :: w ++ 32 :: s').
Proof.
  intros U U' Hs Hf Hw. split; [apply piece_op; [apply U | apply U' | exact Hs | exact Hf] |].
  assert (W : bal (32 :: w ++ [32])).
  { apply (bal_app [32]); [apply bal_char; lia |]. apply bal_app; [exact (bal_all w Hw) | apply bal_char; lia]. }
  replace (s ++ 32 :: w ++ 32 :: s') with (s ++ (32 :: w ++ [32]) ++ s') by (cbn [app]; rewrite <- app_assoc; reflexivity).
  split; [| split].
  - apply bal_app; [apply U |]. apply bal_app; [exact W | apply U'].
  - rewrite space_app by apply U. rewrite (ut_space _ _ _ U). reflexivity.
  - apply begins_app. apply U.
Qed.

(** the rest of a chain *)
Lemma chain_text o b w (Ho : assoc o b) : sign w o -> (forall r, follows w o (32 :: r)) -> Forall (fun c => c <> 40 /\ c <> 41) w ->
  forall l s ts, Forall (fun '(s, ts, q) => unit_text s ts q) l -> piece s ts -> bal s ->
  shallow_space 0 s = true -> begins s ->
  let s' := s ++ flat_map (fun '(c, _, _) => 32 :: w ++ 32 :: c) l in
  exists ts', piece s' ts' /\
    (forall pre f, fof_chain o b (pre ++ ts) f -> fof_chain o b (pre ++ ts') (fold_left (PBin b) (map snd l) f)) /\
    bal s' /\ shallow_space 0 s' = true /\ begins s'.
Proof.
  intros Hs Hf Hw. induction l as [| [[c tc] qc] l IH]; intros s ts Hl P B S0 St.
  - cbn. rewrite app_nil_r. exists ts. auto.
  - inversion Hl as [| x l' Hx Hl']; subst. cbn [flat_map map fold_left snd]. rewrite app_assoc.
    destruct (IH (s ++ 32 :: w ++ 32 :: c) (ts ++ o :: tc)) as [ts' [P' [C' R]]].
    + exact Hl'.
    + apply piece_op; [exact P | apply Hx | exact Hs | exact Hf].
    + apply bal_app; [exact B |]. apply (bal_app [32]); [apply bal_char; lia |]. apply bal_app; [exact (bal_all w Hw) |].
      apply (bal_app [32]); [apply bal_char; lia | apply Hx].
    + rewrite space_app by exact B. rewrite S0. reflexivity.
    + apply begins_app. exact St.
    + exists ts'. split; [exact P' |]. split; [| exact R]. intros pre f Hc. apply C'. rewrite app_assoc.
      apply fc_more; [exact Hc | apply Hx].
Qed.

Lemma list_text eqi fs : Forall (good_form eqi) fs ->
  exists ls l, all_some (map (print_form default_printer eqi) fs) = Some ls /\ somes (map fof_reading fs) = Some (map snd l) /\
    map (child default_printer) ls = map (fun '(c, _, _) => c) l /\ Forall (fun '(s, ts, q) => unit_text s ts q) l.
Proof.
  induction 1 as [| f fs H _ IH].
  - exists [], []. repeat split; constructor.
  - destruct (child_text eqi f H) as [s [ts [q [Pr [Pa U]]]]]. destruct IH as [ls [l [A [A' [M F]]]]].
    exists (s :: ls), ((child default_printer s, ts, q) :: l). cbn [map all_some somes]. rewrite Pr, Pa, A, A', M.
    repeat split; try reflexivity. constructor; [exact U | exact F].
Qed.

(** the parentheses of the first operand are not those of the whole text *)
Lemma strip_kept s ts q r : unit_text s ts q -> r <> [] -> strip (s ++ r) = s ++ r.
Proof.
  intros U N. destruct (ut_first _ _ _ U) as [[t [-> [B S0]]] | [c [r0 [-> [H _]]]]]; [| exact (strip_other c (r0 ++ r) H)].
  destruct (exists_last N) as [r' [z ->]]. cbn [app]. rewrite <- app_assoc. cbn [app].
  unfold strip. replace (t ++ 41 :: r' ++ [z]) with ((t ++ 41 :: r') ++ [z]) by (rewrite <- app_assoc; reflexivity).
  rewrite rev_app_distr. cbn [rev app]. rewrite rev_involutive.
  assert (X : shallow_space 0 (t ++ 41 :: r') = true) by (rewrite space_app by exact B; rewrite S0; reflexivity).
  rewrite X. destruct z as [| z | z]; try reflexivity. do 6 (destruct z as [z | z |]; try reflexivity).
Qed.
Lemma strip_starts s : starts s -> strip s = s.
Proof. intros [c [r [-> [H _]]]]. exact (strip_other c r H). Qed.

Lemma somes_length {A B} (g : A -> option B) l x : somes (map g l) = Some x -> List.length x = List.length l.
Proof.
  revert x. induction l as [| a l IH]; intros x; [intros E; injection E as <-; reflexivity |]. cbn.
  destruct (g a); [| discriminate]. destruct (somes (map g l)) as [y |]; [| discriminate]. intros E. injection E as <-.
  cbn. rewrite (IH y eq_refl). reflexivity.
Qed.

Lemma chain_good eqi o b c w fs : assoc o b -> c = 32 :: w ++ [32] -> sign w o -> (forall r, follows w o (32 :: r)) ->
  Forall (fun c => c <> 40 /\ c <> 41) w -> (2 <= List.length fs)%nat -> Forall (good_form eqi) fs ->
  exists s ts x r, print_list default_printer c (map (print_form default_printer eqi) fs) = Some s /\
    somes (map fof_reading fs) = Some (x :: r) /\
    (forall pre k, prefix pre k -> exists q, chain b (k x :: r) = Some q /\ fof_logic (pre ++ ts) q) /\
    piece s ts /\ bal s /\ begins s /\ shallow_space 0 s = true /\ strip s = s.
Proof.
  intros Ho -> Hs Hf Hw Hlen Hfs. destruct (list_text eqi fs Hfs) as [ls [l [A [A' [M F]]]]].
  assert (Len := somes_length _ _ _ A'). rewrite map_length in Len.
  destruct l as [| [[s1 t1] q1] [| [[s2 t2] q2] l]]; [simpl in Len; lia | simpl in Len; lia |].
  inversion F as [| x1 l1 U1 F1]; subst. inversion F1 as [| x2 l2 U2 F2]; subst.
  destruct (op_text s1 t1 q1 w o s2 t2 q2 U1 U2 Hs Hf Hw) as [P0 [B0 [S0 St0]]].
  destruct (chain_text o b w Ho Hs Hf Hw l _ _ F2 P0 B0 S0 St0) as [ts' [P [C [B [Sp St]]]]].
  eexists _, ts', q1, (q2 :: map snd l). split.
  - unfold print_list. rewrite A, M. cbn [map]. rewrite join_flat. cbn [flat_map]. reflexivity.
  - split; [exact A' |]. split.
    { intros pre k Hk. eexists. split; [reflexivity |]. apply (fl_assoc _ _ o b Ho).
      apply C. rewrite app_assoc. apply fc_two; [apply Hk; apply U1 | apply U2]. }
    assert (E : forall l : list (list Z * list token * pform),
       flat_map (fun y => (32 :: w ++ [32]) ++ y) (map (fun '(c, _, _) => c) l) = flat_map (fun '(c, _, _) => 32 :: w ++ 32 :: c) l).
    { clear. induction l as [| [[c t] q] l IH]; [reflexivity |]. cbn [map flat_map]. rewrite IH. cbn [app]. rewrite <- !app_assoc. reflexivity. }
    rewrite E.
    replace (s1 ++ ((32 :: w ++ [32]) ++ s2) ++ flat_map (fun '(c, _, _) => 32 :: w ++ 32 :: c) l)
      with ((s1 ++ 32 :: w ++ 32 :: s2) ++ flat_map (fun '(c, _, _) => 32 :: w ++ 32 :: c) l)
      by (cbn [app]; rewrite <- !app_assoc; cbn [app]; rewrite <- !app_assoc; reflexivity).
    split; [exact P |]. split; [exact B |]. split; [exact St |]. split; [exact Sp |].
    rewrite <- app_assoc. apply (strip_kept _ _ _ _ U1). discriminate.
Qed.

Lemma quant_good eqi k o pq vs g : sign [k] o -> (o = FORALL /\ pq = PQuantAll) \/ (o = EXISTS /\ pq = PQuantEx) ->
  k = 33 \/ k = 63 -> vs <> [] -> Forall (fun v => variable_name (tv_name v) /\ tv_ty v = TyConstr "$i" []) vs ->
  good_form eqi g ->
  exists s ts l, print_quant default_printer [k] vs (print_form default_printer eqi g) = Some s /\
    somes (map parsed_var vs) = Some l /\
    (forall pre k, prefix pre k -> exists q, narrow (fun q => k (PQuant pq l q)) g = Some q /\ fof_logic (pre ++ ts) q) /\
    piece s ts /\ bal s /\ starts s /\ shallow_space 0 s = true.
Proof.
  intros Hk Ho Hk' Hvs Hv [s [ts [Pr [L [P [B [_ [Sk _]]]]]]]].
  destruct (vars_text vs Hvs Hv) as [tv [l [A [G [Pv Bv]]]]].
  set (v := join (codes ", ") (map var_text vs)) in *.
  exists (k :: 32 :: 91 :: v ++ 93 :: 58 :: 32 :: s), (o :: LEFT_BRACKET :: tv ++ RIGHT_BRACKET :: COLON :: ts), l.
  split.
  { unfold print_quant. rewrite Pr. unfold str at 2. cbn [generic act default_printer strip_action].
    rewrite Sk. unfold surround_quantified. cbn [quant_start quant_end default_printer sep_ty_vars sep_vars_form].
    change (map (fun v0 => str default_printer (on_typed_var (act default_printer) (codes (tv_name v0)) (print_ty default_printer (tv_ty v0)))) vs)
      with (map var_text vs). fold v. change (codes "[") with [91]. change (codes "]") with [93]. change (codes ": ") with [58; 32].
    cbn [app]. rewrite <- !app_assoc. reflexivity. }
  split; [exact A |]. split.
  { intros pre k' Hp. destruct (L (pre ++ o :: LEFT_BRACKET :: tv ++ [RIGHT_BRACKET; COLON]) (fun q => k' (PQuant pq l q))) as [q [E Lq]].
    - intros ts' q' Hu. rewrite <- app_assoc. apply Hp. cbn [app]. rewrite <- app_assoc. cbn [app].
      destruct Ho as [[-> ->] | [-> ->]]; constructor; assumption.
    - exists q. split; [exact E |]. rewrite <- app_assoc in Lq. cbn [app] in Lq. rewrite <- app_assoc in Lq. exact Lq. }
  split; [apply piece_quant; tauto |].
  assert (K : bal [k]) by (apply bal_char; lia).
  split; [| split].
  - apply (bal_app [k]); [exact K |]. apply (bal_app [32; 91]); [apply bal_all; repeat constructor; discriminate |].
    apply bal_app; [exact Bv |]. apply (bal_app [93; 58; 32]); [apply bal_all; repeat constructor; discriminate | exact B].
  - eexists _, _. split; [reflexivity |]. lia.
  - change (k :: 32 :: 91 :: v ++ 93 :: 58 :: 32 :: s) with ([k] ++ 32 :: 91 :: v ++ 93 :: 58 :: 32 :: s).
    rewrite space_app by exact K. apply orb_true_r.
Qed.

Lemma unit_prefixed (f : form) ts q : fof_unit ts q -> (forall k, narrow k f = Some (k q)) ->
  forall pre k, prefix pre k -> exists q', narrow k f = Some q' /\ fof_logic (pre ++ ts) q'.
Proof. intros U N pre k Hp. exists (k q). split; [apply N | apply fl_unit; apply Hp; exact U]. Qed.

Lemma forms_good eqi f : writable eqi f -> good_form eqi f.
Proof.
  induction f as [i vs g IH | i vs g IH | i fs IH | i fs IH | i a b IHa IHb | i a b IHa IHb | i g IH | i p tys args | i | i]
    using form_ind'; intros W.
  - destruct W as [N [V W]].
    destruct (quant_good eqi 33 FORALL PQuantAll vs g) as [s [ts [l [Pr [A [L [P [B [St S0]]]]]]]]];
      [constructor | tauto | tauto | exact N | exact V | exact (IH W) |].
    exists s, ts. split; [exact Pr |]. split; [cbn; rewrite A; exact L |].
    split; [exact P |]. split; [exact B |]. split; [apply starts_begins; exact St |]. split; [exact (strip_starts s St) | congruence].
  - destruct W as [N [V W]].
    destruct (quant_good eqi 63 EXISTS PQuantEx vs g) as [s [ts [l [Pr [A [L [P [B [St S0]]]]]]]]];
      [constructor | tauto | tauto | exact N | exact V | exact (IH W) |].
    exists s, ts. split; [exact Pr |]. split; [cbn; rewrite A; exact L |].
    split; [exact P |]. split; [exact B |]. split; [apply starts_begins; exact St |]. split; [exact (strip_starts s St) | congruence].
  - destruct W as [Len W]. assert (G : Forall (good_form eqi) fs).
    { clear Len. induction fs as [| g fs IHf]; [constructor |]. inversion IH; subst. destruct W as [W W']. constructor; auto. }
    destruct (chain_good eqi VLINE PBinaryOr (codes " | ") [124] fs) as [s [ts [x [r [Pr [A [L [P [B [St [S0 Sk]]]]]]]]]]];
      [constructor | reflexivity | constructor | intros; exact Logic.I | repeat constructor; discriminate | exact Len | exact G |].
    change (somes (map (narrow (fun q => q)) fs) = Some (x :: r)) in A. exists s, ts. split; [exact Pr |]. split; [cbn; rewrite A; exact L |]. split; [exact P |].
    split; [exact B |]. split; [exact St |]. split; [exact Sk | congruence].
  - destruct W as [Len W]. assert (G : Forall (good_form eqi) fs).
    { clear Len. induction fs as [| g fs IHf]; [constructor |]. inversion IH; subst. destruct W as [W W']. constructor; auto. }
    destruct (chain_good eqi AND PBinaryAnd (codes " & ") [38] fs) as [s [ts [x [r [Pr [A [L [P [B [St [S0 Sk]]]]]]]]]]];
      [constructor | reflexivity | constructor | intros; exact Logic.I | repeat constructor; discriminate | exact Len | exact G |].
    change (somes (map (narrow (fun q => q)) fs) = Some (x :: r)) in A. exists s, ts. split; [exact Pr |]. split; [cbn; rewrite A; exact L |]. split; [exact P |].
    split; [exact B |]. split; [exact St |]. split; [exact Sk | congruence].
  - destruct W as [Wa Wb].
    destruct (child_text eqi a (IHa Wa)) as [s [ts [q [Pr [Pa U]]]]].
    destruct (child_text eqi b (IHb Wb)) as [s' [ts' [q' [Pr' [Pa' U']]]]].
    destruct (op_text _ ts q (codes "<=>") EQUIV _ ts' q' U U') as [P [B [S0 St]]];
      [constructor | intros; exact Logic.I | repeat constructor; discriminate |].
    eexists _, _. split; [cbn [print_form]; rewrite Pr, Pr'; reflexivity |]. split.
    { intros pre k Hp. exists (PBin PBinaryEqu (k q) q'). unfold fof_reading in *. cbn [narrow]. rewrite Pa, Pa'.
      split; [reflexivity |]. rewrite app_assoc.
      apply (fl_nonassoc _ _ EQUIV (PBin PBinaryEqu)); [constructor | apply Hp; apply U | apply U']. }
    split; [exact P |]. split; [exact B |]. split; [exact St |].
    split; [apply (strip_kept _ _ _ _ U); discriminate | cbn in *; congruence].
  - destruct W as [Wa Wb].
    destruct (child_text eqi a (IHa Wa)) as [s [ts [q [Pr [Pa U]]]]].
    destruct (child_text eqi b (IHb Wb)) as [s' [ts' [q' [Pr' [Pa' U']]]]].
    destruct (op_text _ ts q (codes "=>") IMPLY _ ts' q' U U') as [P [B [S0 St]]];
      [constructor | intros; exact Logic.I | repeat constructor; discriminate |].
    eexists _, _. split; [cbn [print_form]; rewrite Pr, Pr'; reflexivity |]. split.
    { intros pre k Hp. exists (PBin PBinaryImp (k q) q'). unfold fof_reading in *. cbn [narrow]. rewrite Pa, Pa'.
      split; [reflexivity |]. rewrite app_assoc.
      apply (fl_nonassoc _ _ IMPLY (PBin PBinaryImp)); [constructor | apply Hp; apply U | apply U']. }
    split; [exact P |]. split; [exact B |]. split; [exact St |].
    split; [apply (strip_kept _ _ _ _ U); discriminate | cbn in *; congruence].
  - destruct (child_text eqi g (IH W)) as [s [ts [q [Pr [Pa U]]]]].
    exists (126 :: child default_printer s), (NOT :: ts).
    split; [cbn [print_form]; rewrite Pr; reflexivity |].
    assert (Un : fof_unit (NOT :: ts) (PNeg q)) by (constructor; apply U). unfold fof_reading in Pa.
    split; [apply (unit_prefixed _ _ _ Un); intros k; cbn [narrow]; rewrite Pa; reflexivity |].
    split; [apply piece_not; [apply U | exact (ut_begins _ _ _ U)] |].
    split; [apply (bal_app [126]); [apply bal_char; lia | apply U] |].
    assert (St : starts (126 :: child default_printer s)) by (eexists _, _; split; [reflexivity | lia]).
    split; [apply starts_begins; exact St |]. split; [exact (strip_starts _ St) |].
    intros _. split; [exact St |]. exists (PNeg q). split; [| exact Un]. unfold fof_reading. cbn [narrow]. rewrite Pa. reflexivity.
  - destruct W as [[Hi [Hn [a [b [-> [Wa Wb]]]]]] | [Hi [Hn [-> Ha]]]].
    + destruct (good_terms eqi a Wa) as [[s [ts [q [Pr [Pa [G [P [B [S0 St]]]]]]]]]].
      destruct (good_terms eqi b Wb) as [[s' [ts' [q' [Pr' [Pa' [G' [P' [B' [S0' St']]]]]]]]]].
      exists (s ++ 32 :: [61] ++ 32 :: s'), (ts ++ EQUAL :: ts').
      split.
      { cbn [print_form map all_some]. rewrite Pr, Pr'. unfold on_functional. rewrite Hi, Z.eqb_refl.
        unfold str_id. rewrite Hn. reflexivity. }
      assert (Un : fof_unit (ts ++ EQUAL :: ts') (PPred "=" [q; q'])) by (apply fu_atomic; constructor; assumption).
      assert (Nk : forall k, narrow k (Pred i p tys [a; b]) = Some (k (PPred "=" [q; q']))).
      { intros k. cbn. rewrite Pa, Pa', Hn. reflexivity. }
      split; [exact (unit_prefixed _ _ _ Un Nk) |].
      split. { apply piece_op; [exact P | exact P' | constructor |]. intros r. cbn. unfold next_is. cbn. congruence. }
      split. { apply bal_app; [exact B |]. apply (bal_app [32; 61; 32]); [apply bal_all; repeat constructor; discriminate | exact B']. }
      split; [apply begins_app; apply starts_begins; exact St |].
      split; [apply strip_starts; apply starts_app; exact St |]. intros _. split; [apply starts_app; exact St |].
      exists (PPred "=" [q; q']). split; [apply (Nk (fun q => q)) | exact Un].
    + assert (G : Forall (good_term eqi) args) by (eapply Forall_impl; [apply good_terms | exact Ha]).
      destruct (functional_text eqi p args Hi Hn G) as [s [ts [ls [ql [A [E [A' [_ [F [P [B [S0 St]]]]]]]]]]]].
      exists s, ts. split; [cbn [print_form]; rewrite A; exact E |].
      assert (Un : fof_unit ts (PPred (id_name p) ql)) by (apply fu_atomic; exact F).
      assert (Nk : forall k, narrow k (Pred i p [] args) = Some (k (PPred (id_name p) ql))).
      { intros k. cbn. rewrite A'. reflexivity. }
      split; [exact (unit_prefixed _ _ _ Un Nk) |]. split; [exact P |]. split; [exact B |]. split; [apply starts_begins; exact St |].
      split; [exact (strip_starts _ St) |]. intros _. split; [exact St |].
      exists (PPred (id_name p) ql). split; [apply (Nk (fun q => q)) | exact Un].
  - assert (Un : fof_unit [TRUE] PTop) by (apply fu_atomic; constructor).
    exists (codes "$true"), [TRUE]. split; [reflexivity |]. split; [apply (unit_prefixed _ _ _ Un); reflexivity |].
    assert (W' : word (codes "$true")).
    { split; [repeat constructor; discriminate |]. exists 36. eexists. split; [reflexivity | lia]. }
    split; [apply piece_word; [exact l_true | intros rest Hr; exact (good_ends rest Hr)] |].
    split; [apply word_bal; exact W' |]. split; [apply starts_begins; exact (w_first _ W') |]. split; [reflexivity |].
    intros _. split; [exact (w_first _ W') |]. exists PTop. split; [reflexivity | exact Un].
  - assert (Un : fof_unit [FALSE] PBot) by (apply fu_atomic; constructor).
    exists (codes "$false"), [FALSE]. split; [reflexivity |]. split; [apply (unit_prefixed _ _ _ Un); reflexivity |].
    assert (W' : word (codes "$false")).
    { split; [repeat constructor; discriminate |]. exists 36. eexists. split; [reflexivity | lia]. }
    split; [apply piece_word; [exact l_false | intros rest Hr; exact (good_ends rest Hr)] |].
    split; [apply word_bal; exact W' |]. split; [apply starts_begins; exact (w_first _ W') |]. split; [reflexivity |].
    intros _. split; [exact (w_first _ W') |]. exists PBot. split; [reflexivity | exact Un].
Qed.

(** what is read, for every formula *)
Theorem printed_read eqi name role f : lower_name name -> lower_name role -> writable eqi f ->
  exists s q, print_form default_printer eqi f = Some s /\ fof_reading f = Some q /\ read_as (codes name) (codes role) s q.
Proof.
  intros Hn Hr W. destruct (forms_good eqi f W) as [s [ts [Pr [L [P _]]]]].
  destruct (L [] _ prefix_none) as [q [Pa Lq]]. exists s, q. split; [exact Pr |]. split; [exact Pa |]. exists ts.
  split; [exact (line_lexed name role s ts Hn Hr P) |].
  split; [exact Lq |]. intros q' H. exact (fof_unambiguous ts q' q H Lq).
Qed.

(** ** When it is the formula *)

Definition quantify (l : list (pquant * list (string * ptype))) (q : pform) : pform :=
  fold_right (fun '(k, vs) q => PQuant k vs q) q l.
Lemma quantify_snoc l k vs q : quantify (l ++ [(k, vs)]) q = quantify l (PQuant k vs q).
Proof. unfold quantify. rewrite fold_right_app. reflexivity. Qed.
Lemma narrow_ext k k' f : (forall q, k q = k' q) -> narrow k f = narrow k' f.
Proof.
  revert k k'. induction f as [i vs g IH | i vs g IH | i fs IH | i fs IH | i a b IHa IHb | i a b IHa IHb | i g IH | i p tys args | i | i]
    using form_ind'; intros k k' E; cbn.
  - destruct (somes (map parsed_var vs)); [| reflexivity]. apply IH. intros q. apply E.
  - destruct (somes (map parsed_var vs)); [| reflexivity]. apply IH. intros q. apply E.
  - destruct (somes (map (narrow (fun q => q)) fs)) as [[| x r] |]; try reflexivity. rewrite E. reflexivity.
  - destruct (somes (map (narrow (fun q => q)) fs)) as [[| x r] |]; try reflexivity. rewrite E. reflexivity.
  - destruct (narrow (fun q => q) a), (narrow (fun q => q) b); try reflexivity. rewrite E. reflexivity.
  - destruct (narrow (fun q => q) a), (narrow (fun q => q) b); try reflexivity. rewrite E. reflexivity.
  - destruct (narrow (fun q => q) g); cbn; [rewrite E; reflexivity | reflexivity].
  - destruct (somes (map parsed_term args)); cbn; [rewrite E; reflexivity | reflexivity].
  - rewrite E. reflexivity.
  - rewrite E. reflexivity.
Qed.

Lemma scoped_narrow f : scoped f -> forall k, binary f = false \/ (forall q, k q = q) -> narrow k f = option_map k (parsed f).
Proof.
  induction f as [i vs g IH | i vs g IH | i fs IH | i fs IH | i a b IHa IHb | i a b IHa IHb | i g IH | i p tys args | i | i]
    using form_ind'; intros Sc k Hk.
  - destruct Sc as [Hb Sc]. cbn. destruct (somes (map parsed_var vs)); [| reflexivity]. rewrite (IH Sc) by (left; exact Hb).
    destruct (parsed g); reflexivity.
  - destruct Sc as [Hb Sc]. cbn. destruct (somes (map parsed_var vs)); [| reflexivity]. rewrite (IH Sc) by (left; exact Hb).
    destruct (parsed g); reflexivity.
  - destruct Hk as [Hk | Hk]; [discriminate |]. cbn in Sc |- *.
    assert (E : map (narrow (fun q => q)) fs = map parsed fs).
    { clear Hk. induction fs as [| g fs IHf]; [reflexivity |]. inversion IH; subst. destruct Sc as [Sc Sc']. cbn. f_equal; [| auto].
      match goal with H : scoped g -> _ |- _ => rewrite (H Sc) by (right; reflexivity) end. destruct (parsed g); reflexivity. }
    rewrite E. destruct (somes (map parsed fs)) as [[| x [| y r]] |]; try reflexivity. cbn. rewrite !Hk. reflexivity.
  - destruct Hk as [Hk | Hk]; [discriminate |]. cbn in Sc |- *.
    assert (E : map (narrow (fun q => q)) fs = map parsed fs).
    { clear Hk. induction fs as [| g fs IHf]; [reflexivity |]. inversion IH; subst. destruct Sc as [Sc Sc']. cbn. f_equal; [| auto].
      match goal with H : scoped g -> _ |- _ => rewrite (H Sc) by (right; reflexivity) end. destruct (parsed g); reflexivity. }
    rewrite E. destruct (somes (map parsed fs)) as [[| x [| y r]] |]; try reflexivity. cbn. rewrite !Hk. reflexivity.
  - destruct Hk as [Hk | Hk]; [discriminate |]. destruct Sc as [Sa Sb]. cbn. rewrite (IHa Sa), (IHb Sb) by (right; reflexivity).
    destruct (parsed a), (parsed b); cbn; try reflexivity. rewrite !Hk. reflexivity.
  - destruct Hk as [Hk | Hk]; [discriminate |]. destruct Sc as [Sa Sb]. cbn. rewrite (IHa Sa), (IHb Sb) by (right; reflexivity).
    destruct (parsed a), (parsed b); cbn; try reflexivity. rewrite !Hk. reflexivity.
  - cbn in Sc |- *. rewrite (IH Sc) by (right; reflexivity). destruct (parsed g); reflexivity.
  - cbn. destruct (somes (map parsed_term args)); reflexivity.
  - reflexivity.
  - reflexivity.
Qed.

Lemma fold_bin b l x l' x' : List.length l = List.length l' -> fold_left (PBin b) l x = fold_left (PBin b) l' x' -> x = x' /\ l = l'.
Proof.
  revert x l' x'. induction l as [| y l IH] using rev_ind; intros x l' x' Len E.
  - destruct l'; [| discriminate]. auto.
  - destruct l' as [| y' l' _] using rev_ind; [rewrite app_length in Len; cbn in Len; lia |].
    rewrite !app_length in Len. cbn in Len. rewrite !fold_left_app in E. cbn in E. injection E as E1 E2.
    destruct (IH x l' x' ltac:(lia) E1) as [-> ->]. subst. auto.
Qed.
Lemma fold_bin_form b l x : l <> [] -> exists y z, fold_left (PBin b) l x = PBin b y z.
Proof. destruct l as [| y l _] using rev_ind; [congruence |]. intros _. rewrite fold_left_app. cbn. eauto. Qed.
Lemma quantify_bin l b x y q : quantify l q = PBin b x y -> l = [].
Proof. destruct l as [| [k vs] l]; [reflexivity | discriminate]. Qed.
Lemma quantify_inj l q q' : quantify l q = quantify l q' -> q = q'.
Proof. induction l as [| [k vs] l IH]; cbn; [auto |]. intros E. injection E as E. auto. Qed.

Lemma chain_scoped b (k : list (pquant * list (string * ptype))) fs l l' q : somes (map parsed fs) = Some l -> chain b l = Some q ->
  somes (map (narrow (fun q => q)) fs) = Some l' ->
  match l' with x :: r => chain b (quantify k x :: r) | [] => None end = Some (quantify k q) -> k = [] /\ l = l'.
Proof.
  intros El Ec El' Ec'. assert (Len := somes_length _ _ _ El). assert (Len' := somes_length _ _ _ El').
  destruct l as [| x [| y r]]; [discriminate | discriminate |]. destruct l' as [| x' [| y' r']]; [discriminate | discriminate |].
  cbn in Ec, Ec', Len, Len'. injection Ec as <-. injection Ec' as Ec'.
  change (fold_left (PBin b) (y' :: r') (quantify k x') = quantify k (fold_left (PBin b) (y :: r) x)) in Ec'.
  destruct (fold_bin_form b (y' :: r') (quantify k x') ltac:(discriminate)) as [u [v E]]. rewrite E in Ec'.
  assert (K := quantify_bin _ _ _ _ _ (eq_sym Ec')). subst k. rewrite <- E in Ec'. cbn [quantify fold_right] in Ec'.
  destruct (fold_bin b (y' :: r') x' (y :: r) x) as [E1 E2]; [cbn; lia | exact Ec' |]. split; [reflexivity |]. congruence.
Qed.
Lemma somes_scoped fs l : Forall (fun f => forall l q, parsed f = Some q -> narrow (quantify l) f = Some (quantify l q) ->
    scoped f /\ (l <> [] -> binary f = false)) fs ->
  somes (map parsed fs) = Some l -> somes (map (narrow (fun q => q)) fs) = Some l -> Forall scoped fs.
Proof.
  intros IH. revert l. induction fs as [| f fs IHf]; intros l E E'; [constructor |]. inversion IH as [| x y Hf Hr]; subst.
  cbn in E, E'. destruct (parsed f) as [q |] eqn:Ef; [| discriminate]. destruct (somes (map parsed fs)) as [r |] eqn:Er; [| discriminate].
  destruct (narrow (fun q => q) f) as [q' |] eqn:Nf; [| discriminate].
  destruct (somes (map (narrow (fun q => q)) fs)) as [r' |] eqn:Er'; [| discriminate].
  injection E as <-. injection E' as -> ->. constructor; [exact (proj1 (Hf [] _ eq_refl Nf)) | exact (IHf Hr _ eq_refl eq_refl)].
Qed.

(** if the text is read as the formula, no quantifier has a binary body *)
Lemma narrow_scoped f : forall l q, parsed f = Some q -> narrow (quantify l) f = Some (quantify l q) ->
  scoped f /\ (l <> [] -> binary f = false).
Proof.
  induction f as [i vs g IH | i vs g IH | i fs IH | i fs IH | i a b IHa IHb | i a b IHa IHb | i g IH | i p tys args | i | i]
    using form_ind'; intros l q Hp Hn.
  - cbn in Hp, Hn. destruct (somes (map parsed_var vs)) as [lv |] eqn:Ev; [| discriminate]. destruct (parsed g) as [qg |] eqn:Eg; [| discriminate].
    injection Hp as <-. rewrite (narrow_ext _ (quantify (l ++ [(PQuantAll, lv)]))) in Hn by (intros; symmetry; apply quantify_snoc).
    destruct (IH (l ++ [(PQuantAll, lv)]) qg eq_refl) as [Sc Hb]; [rewrite quantify_snoc; exact Hn |].
    split; [| reflexivity]. split; [| exact Sc]. apply Hb. intros E. apply app_eq_nil in E as [_ E]. discriminate.
  - cbn in Hp, Hn. destruct (somes (map parsed_var vs)) as [lv |] eqn:Ev; [| discriminate]. destruct (parsed g) as [qg |] eqn:Eg; [| discriminate].
    injection Hp as <-. rewrite (narrow_ext _ (quantify (l ++ [(PQuantEx, lv)]))) in Hn by (intros; symmetry; apply quantify_snoc).
    destruct (IH (l ++ [(PQuantEx, lv)]) qg eq_refl) as [Sc Hb]; [rewrite quantify_snoc; exact Hn |].
    split; [| reflexivity]. split; [| exact Sc]. apply Hb. intros E. apply app_eq_nil in E as [_ E]. discriminate.
  - cbn in Hp, Hn. destruct (somes (map parsed fs)) as [r |] eqn:Er; [| discriminate].
    destruct (somes (map (narrow (fun q => q)) fs)) as [r' |] eqn:Er'; [| discriminate].
    destruct (chain_scoped _ _ _ _ _ _ Er Hp Er' Hn) as [-> <-]. split; [| congruence].
    assert (F := somes_scoped fs r IH Er Er'). cbn. clear - F. induction F; [exact Logic.I | split; assumption].
  - cbn in Hp, Hn. destruct (somes (map parsed fs)) as [r |] eqn:Er; [| discriminate].
    destruct (somes (map (narrow (fun q => q)) fs)) as [r' |] eqn:Er'; [| discriminate].
    destruct (chain_scoped _ _ _ _ _ _ Er Hp Er' Hn) as [-> <-]. split; [| congruence].
    assert (F := somes_scoped fs r IH Er Er'). cbn. clear - F. induction F; [exact Logic.I | split; assumption].
  - cbn in Hp, Hn. destruct (parsed a) as [qa |] eqn:Ea; [| discriminate]. destruct (parsed b) as [qb |] eqn:Eb; [| discriminate].
    injection Hp as <-. destruct (narrow (fun q => q) a) as [na |] eqn:Na; [| discriminate].
    destruct (narrow (fun q => q) b) as [nb |] eqn:Nb; [| discriminate]. injection Hn as Hn. symmetry in Hn.
    assert (L := quantify_bin _ _ _ _ _ Hn). subst l. cbn in Hn. injection Hn as -> ->.
    split; [| congruence]. split; [apply (IHa [] _ eq_refl Na) | apply (IHb [] _ eq_refl Nb)].
  - cbn in Hp, Hn. destruct (parsed a) as [qa |] eqn:Ea; [| discriminate]. destruct (parsed b) as [qb |] eqn:Eb; [| discriminate].
    injection Hp as <-. destruct (narrow (fun q => q) a) as [na |] eqn:Na; [| discriminate].
    destruct (narrow (fun q => q) b) as [nb |] eqn:Nb; [| discriminate]. injection Hn as Hn. symmetry in Hn.
    assert (L := quantify_bin _ _ _ _ _ Hn). subst l. cbn in Hn. injection Hn as -> ->.
    split; [| congruence]. split; [apply (IHa [] _ eq_refl Na) | apply (IHb [] _ eq_refl Nb)].
  - cbn in Hp, Hn. destruct (parsed g) as [qg |] eqn:Eg; [| discriminate]. injection Hp as <-.
    destruct (narrow (fun q => q) g) as [ng |] eqn:Ng; [| discriminate]. cbn in Hn. injection Hn as Hn. apply quantify_inj in Hn. injection Hn as ->.
    split; [| reflexivity]. exact (proj1 (IH [] qg eq_refl Ng)).
  - split; [exact Logic.I | reflexivity].
  - split; [exact Logic.I | reflexivity].
  - split; [exact Logic.I | reflexivity].
Qed.

Theorem reading_exact eqi f : writable eqi f -> (fof_reading f = parsed f <-> scoped f).
Proof.
  intros W. split.
  - intros E. destruct (forms_good eqi f W) as [s [ts [_ [L _]]]]. destruct (L [] _ prefix_none) as [q [Pa _]].
    unfold fof_reading in E. rewrite Pa in E. exact (proj1 (narrow_scoped f [] q (eq_sym E) Pa)).
  - intros Sc. unfold fof_reading. rewrite (scoped_narrow f Sc) by (right; reflexivity). destruct (parsed f); reflexivity.
Qed.
