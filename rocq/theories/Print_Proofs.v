(** The text of a formula is read as the formula. *)
From Coq Require Import ZArith List Bool String Ascii Lia.
From Verif Require Import Ast_Model Ast_Proofs Lexer_Model Lexer_Spec Lexer_Final Elab_Model Print_Model Print_Spec Fof_Proofs.
Import ListNotations.
Open Scope list_scope.
Open Scope Z_scope.

(** ** Removing parentheses *)

Lemma strip_paren s : strip (40 :: s ++ [41]) = if shallow_space 0 s then 40 :: s ++ [41] else s.
Proof.
  unfold strip. rewrite rev_app_distr. cbn [rev app]. rewrite rev_involutive. reflexivity.
Qed.
Lemma strip_other c s : c <> 40 -> strip (c :: s) = c :: s.
Proof.
  intros H. unfold strip. destruct c as [| c | c]; try reflexivity.
  do 6 (destruct c as [c | c |]; try reflexivity). exfalso. apply H. reflexivity.
Qed.

(** texts with matched parentheses: what follows is at the same depth *)
Definition bal (s : list Z) : Prop :=
  (forall d r, 0 <= d -> shallow_space d (s ++ r) = shallow_space d s || shallow_space d r) /\
  (forall d, 1 <= d -> shallow_space d s = false).

Lemma bal_nil : bal [].
Proof. split; intros; reflexivity. Qed.
Lemma bal_app s s' : bal s -> bal s' -> bal (s ++ s').
Proof.
  intros [A B] [A' B']. split.
  - intros d r Hd. rewrite <- app_assoc, (A d (s' ++ r) Hd), (A' d r Hd), (A d s' Hd). apply orb_assoc.
  - intros d Hd. rewrite (A d s') by lia. rewrite (B d Hd), (B' d Hd). reflexivity.
Qed.
Lemma bal_char c : c <> 40 -> c <> 41 -> bal [c].
Proof.
  intros H H'. assert (E : forall d r, shallow_space d (c :: r) = ((c =? 32) && (d =? 0)) || shallow_space d r).
  { intros d r. simpl. rewrite (proj2 (Z.eqb_neq c 40) H), (proj2 (Z.eqb_neq c 41) H').
    destruct ((c =? 32) && (d =? 0)); reflexivity. }
  split.
  - intros d r Hd. cbn [app]. rewrite !E. simpl. rewrite orb_false_r. reflexivity.
  - intros d Hd. rewrite E. simpl. rewrite (proj2 (Z.eqb_neq d 0)) by lia. rewrite andb_false_r. reflexivity.
Qed.
Lemma bal_all s : Forall (fun c => c <> 40 /\ c <> 41) s -> bal s.
Proof.
  induction 1 as [| c s [H H'] _ IH]; [exact bal_nil |]. change (c :: s) with ([c] ++ s). apply bal_app; [| exact IH].
  exact (bal_char c H H').
Qed.
Lemma bal_paren s : bal s -> bal (40 :: s ++ [41]) /\ shallow_space 0 (40 :: s ++ [41]) = false.
Proof.
  intros [A B].
  assert (E : forall d r, 0 <= d -> shallow_space d (40 :: s ++ 41 :: r) = shallow_space d r).
  { intros d r Hd. change (shallow_space d (40 :: s ++ 41 :: r)) with (shallow_space (d + 1) (s ++ 41 :: r)).
    rewrite A by lia. rewrite B by lia. simpl. f_equal. lia. }
  split; [split |].
  - intros d r Hd. cbn [app]. rewrite <- app_assoc. cbn [app]. rewrite (E d r Hd), (E d [] Hd). reflexivity.
  - intros d Hd. rewrite (E d []) by lia. reflexivity.
  - rewrite (E 0 []) by lia. reflexivity.
Qed.
Lemma space_app s s' : bal s -> shallow_space 0 (s ++ s') = shallow_space 0 s || shallow_space 0 s'.
Proof. intros [A _]. apply A. lia. Qed.
Lemma space_none s : Forall (fun c => c <> 40 /\ c <> 41 /\ c <> 32) s -> shallow_space 0 s = false.
Proof.
  induction 1 as [| c s [H [H' H'']] _ IH]; [reflexivity |]. simpl.
  rewrite (proj2 (Z.eqb_neq c 40) H), (proj2 (Z.eqb_neq c 41) H'), (proj2 (Z.eqb_neq c 32) H''). exact IH.
Qed.

(** ** Lexemes with what follows them *)

Fixpoint body (l : list item) : list Z :=
  match l with [] => [] | (w, _, bl) :: r => w ++ blanks_text bl ++ body r end.
Fixpoint ok_with (l : list item) (rest : list Z) : Prop :=
  match l with
  | [] => True
  | (w, t, bl) :: r =>
    lexeme w t /\ Forall blank_ok bl /\ follows w t (blanks_text bl ++ body r ++ rest) /\ ok_with r rest
  end.
Lemma body_app l l' : body (l ++ l') = body l ++ body l'.
Proof. induction l as [| [[w t] bl] l IH]; [reflexivity |]. simpl. rewrite IH, <- !app_assoc. reflexivity. Qed.
Lemma body_text l l' : text (l ++ l') = body l ++ text l'.
Proof. induction l as [| [[w t] bl] l IH]; [reflexivity |]. simpl. rewrite IH, <- !app_assoc. reflexivity. Qed.
Lemma ok_app l l' rest : ok_with (l ++ l') rest <-> ok_with l (body l' ++ rest) /\ ok_with l' rest.
Proof.
  induction l as [| [[w t] bl] l IH]; [simpl; tauto |]. simpl. rewrite IH, body_app, <- app_assoc. tauto.
Qed.
Lemma ok_items l l' : ok_with l (text l') -> items_ok l' -> items_ok (l ++ l').
Proof.
  induction l as [| [[w t] bl] l IH]; [simpl; tauto |]. simpl. rewrite body_text.
  intros [A [B [C D]]] H. repeat split; auto.
Qed.
Lemma tokens_app l l' : tokens (l ++ l') = tokens l ++ tokens l'.
Proof. apply map_app. Qed.

(** a space after the last lexeme *)
Fixpoint spaced (l : list item) : list item :=
  match l with
  | [] => []
  | [(w, t, bl)] => [(w, t, bl ++ [BChar 32])]
  | x :: r => x :: spaced r
  end.
Lemma blanks_snoc bl : blanks_text (bl ++ [BChar 32]) = blanks_text bl ++ [32].
Proof. unfold blanks_text. rewrite flat_map_app. reflexivity. Qed.
Lemma spaced_body l : l <> [] -> body (spaced l) = body l ++ [32].
Proof.
  induction l as [| [[w t] bl] [| y l] IH]; intros H; [congruence | |].
  - simpl. rewrite blanks_snoc, !app_nil_r, <- app_assoc. reflexivity.
  - change (spaced ((w, t, bl) :: y :: l)) with ((w, t, bl) :: spaced (y :: l)).
    cbn [body]. fold body. rewrite IH by discriminate. cbn [body]. rewrite <- !app_assoc. reflexivity.
Qed.
Lemma spaced_tokens l : tokens (spaced l) = tokens l.
Proof.
  induction l as [| [[w t] bl] [| y l] IH]; [reflexivity | reflexivity |].
  change (spaced ((w, t, bl) :: y :: l)) with ((w, t, bl) :: spaced (y :: l)).
  change (t :: tokens (spaced (y :: l)) = t :: tokens (y :: l)). rewrite IH. reflexivity.
Qed.
Lemma spaced_nil l : l <> [] -> spaced l <> [].
Proof. destruct l as [| [[w t] bl] [| y l]]; intros H E; [congruence | discriminate | discriminate]. Qed.
Lemma spaced_ok l rest : l <> [] -> ok_with l (32 :: rest) -> ok_with (spaced l) rest.
Proof.
  induction l as [| [[w t] bl] [| y l] IH]; intros H; [congruence | |].
  - simpl. intros [A [B [C _]]]. rewrite blanks_snoc, <- app_assoc. simpl. repeat split; auto.
    apply Forall_app. split; [exact B |]. constructor; [left; reflexivity | constructor].
  - change (spaced ((w, t, bl) :: y :: l)) with ((w, t, bl) :: spaced (y :: l)).
    intros [A [B [C D]]]. cbn [ok_with]. repeat split; auto; [| apply IH; [discriminate | exact D]].
    rewrite spaced_body by discriminate. rewrite <- (app_assoc (body (y :: l))). exact C.
Qed.

(** ** Names *)

(** what is found after a term or a formula *)
Definition good (rest : list Z) : Prop := exists c r, rest = c :: r /\ In c [32; 40; 41; 44; 93].
Definition after_formula (rest : list Z) : Prop := exists c r, rest = c :: r /\ In c [32; 41; 44; 93].
Lemma after_good rest : after_formula rest -> good rest.
Proof. intros [c [r [E H]]]. exists c, r. split; [exact E |]. simpl in *. tauto. Qed.
Lemma good_ends rest : good rest -> word_ends rest.
Proof.
  intros [c [r [-> H]]]. exists c. split; [reflexivity |]. unfold alpha_num, alphabetic, upper_alpha, lower_alpha, numeric.
  simpl in H. destruct H as [<- | [<- | [<- | [<- | [<- | []]]]]]; lia.
Qed.

Lemma alnum_plain c : alpha_num c -> c <> 40 /\ c <> 41 /\ c <> 32.
Proof. unfold alpha_num, alphabetic, upper_alpha, lower_alpha, numeric. lia. Qed.
Lemma alnum_all w : Forall alpha_num w -> Forall (fun c => c <> 40 /\ c <> 41 /\ c <> 32) w.
Proof. intros H. eapply Forall_impl; [exact alnum_plain | exact H]. Qed.

(** a printed word: its characters and its first one *)
Record word (w : list Z) : Prop := mkWord {
  w_chars : Forall (fun c => c <> 40 /\ c <> 41 /\ c <> 32) w;
  w_first : exists c r, w = c :: r /\ c <> 40 /\ c <> 124 /\ c <> 38 }.
Lemma word_bal w : word w -> bal w.
Proof. intros [H _]. apply bal_all. eapply Forall_impl; [| exact H]. simpl. tauto. Qed.
Lemma word_space w : word w -> shallow_space 0 w = false.
Proof. intros [H _]. exact (space_none w H). Qed.
Lemma word_strip w : word w -> strip w = w.
Proof. intros [_ [c [r [-> [H _]]]]]. exact (strip_other c r H). Qed.

Lemma symbol_word n : symbol_name n -> word (codes n).
Proof.
  intros [[c [w [E [Hc [Hw _]]]]] | [w [E [_ [Hw _]]]]]; rewrite E.
  - unfold lower_alpha in Hc. split.
    + constructor; [lia | apply alnum_all; exact Hw].
    + exists c, w. split; [reflexivity |]. lia.
  - split.
    + constructor; [lia | apply alnum_all; exact Hw].
    + exists 36, w. split; [reflexivity |]. lia.
Qed.
Lemma variable_word n : variable_name n -> word (codes n).
Proof.
  intros [c [w [E [Hc Hw]]]]. rewrite E. unfold upper_alpha in Hc. split.
  - constructor; [lia | apply alnum_all; exact Hw].
  - exists c, w. split; [reflexivity |]. lia.
Qed.

Definition symbol_token (n : string) : token := match codes n with 36 :: _ => DOLLAR_WORD (codes n) | _ => LOWER_WORD (codes n) end.
Lemma symbol_lex n : symbol_name n -> exists t, fof_functor t n /\ lexeme (codes n) t /\ forall rest, good rest -> follows (codes n) t rest.
Proof.
  intros [[c [w [E [Hc [Hw Hk]]]]] | [w [E [Hne [Hw [Hr Ht]]]]]].
  - exists (LOWER_WORD (codes n)). split; [constructor |]. split.
    + rewrite E. constructor; assumption.
    + intros rest Hg. split; [exact (good_ends rest Hg) |]. intros [[k Hk'] _]. exact (Hk k Hk').
  - exists (DOLLAR_WORD (codes n)). split; [constructor |]. split.
    + rewrite E. constructor; assumption.
    + intros rest Hg. split; [exact (good_ends rest Hg) |]. intros r Hr'. apply Ht.
      destruct Hr' as [Hr' | Hr']; rewrite E in Hr'; injection Hr' as Hr'; [left | right]; exact Hr'.
Qed.
Lemma variable_lex n : variable_name n ->
  lexeme (codes n) (UPPER_WORD (codes n)) /\ forall rest, good rest -> follows (codes n) (UPPER_WORD (codes n)) rest.
Proof.
  intros [c [w [E [Hc Hw]]]]. split.
  - rewrite E. constructor; assumption.
  - intros rest Hg. split; [exact (good_ends rest Hg) |]. intros [[k Hk] _]. rewrite E in Hk. unfold upper_alpha in Hc.
    inversion Hk; subst; lia.
Qed.

(** ** Pieces of text and their tokens *)

Definition piece (s : list Z) (ts : list token) : Prop :=
  exists l, l <> [] /\ body l = s /\ tokens l = ts /\ forall rest, after_formula rest -> ok_with l rest.

Lemma after_32 r : after_formula (32 :: r).
Proof. exists 32, r. split; [reflexivity | simpl; tauto]. Qed.
Lemma after_41 r : after_formula (41 :: r).
Proof. exists 41, r. split; [reflexivity | simpl; tauto]. Qed.
Lemma after_44 r : after_formula (44 :: r).
Proof. exists 44, r. split; [reflexivity | simpl; tauto]. Qed.
Lemma after_93 r : after_formula (93 :: r).
Proof. exists 93, r. split; [reflexivity | simpl; tauto]. Qed.
Lemma space_ok : Forall blank_ok [BChar 32].
Proof. constructor; [left; reflexivity | constructor]. Qed.

(** a separator between spaces *)
Lemma piece_op s ts w o s' ts' : piece s ts -> piece s' ts' -> sign w o -> (forall r, follows w o (32 :: r)) ->
  piece (s ++ 32 :: w ++ 32 :: s') (ts ++ o :: ts').
Proof.
  intros [l [N [B [T K]]]] [l' [N' [B' [T' K']]]] Hs Hf. exists (spaced l ++ (w, o, [BChar 32]) :: l').
  split; [intros E; apply app_eq_nil in E as [_ E]; discriminate |]. split; [| split].
  - rewrite body_app, (spaced_body l N), B. cbn [body]. rewrite B', <- app_assoc. reflexivity.
  - rewrite tokens_app, spaced_tokens, T. cbn. fold (tokens l'). rewrite T'. reflexivity.
  - intros rest H. apply ok_app. split.
    + apply (spaced_ok l _ N). apply K. apply after_32.
    + split; [apply l_sign; exact Hs |]. split; [exact space_ok |]. split; [apply Hf | exact (K' rest H)].
Qed.
(** a comma *)
Lemma piece_comma s ts s' ts' : piece s ts -> piece s' ts' -> piece (s ++ 44 :: 32 :: s') (ts ++ COMMA :: ts').
Proof.
  intros [l [N [B [T K]]]] [l' [N' [B' [T' K']]]]. exists (l ++ ([44], COMMA, [BChar 32]) :: l').
  split; [intros E; apply app_eq_nil in E as [_ E]; discriminate |]. split; [| split].
  - rewrite body_app, B. cbn [body]. rewrite B'. reflexivity.
  - rewrite tokens_app, T. cbn. fold (tokens l'). rewrite T'. reflexivity.
  - intros rest H. apply ok_app. split; [apply K; apply after_44 |].
    split; [apply l_sign; constructor |]. split; [exact space_ok |]. split; [exact Logic.I | exact (K' rest H)].
Qed.
(** parentheses *)
Lemma piece_paren s ts : piece s ts -> piece (40 :: s ++ [41]) (LEFT_PAREN :: ts ++ [RIGHT_PAREN]).
Proof.
  intros [l [N [B [T K]]]]. exists (([40], LEFT_PAREN, []) :: l ++ [([41], RIGHT_PAREN, [])]).
  split; [discriminate |]. split; [| split].
  - cbn [body]. rewrite body_app, B. reflexivity.
  - cbn. fold (tokens (l ++ [([41], RIGHT_PAREN, [])])). rewrite tokens_app, T. reflexivity.
  - intros rest H. split; [apply l_sign; constructor |]. split; [constructor |]. split; [exact Logic.I |].
    apply ok_app. split; [apply K; apply after_41 |]. split; [apply l_sign; constructor |]. split; [constructor |].
    split; exact Logic.I.
Qed.
(** a word, alone or followed by parentheses *)
Lemma piece_word w t : lexeme w t -> (forall rest, good rest -> follows w t rest) -> piece w [t].
Proof.
  intros L F. exists [(w, t, [])]. split; [discriminate |]. split; [cbn; apply app_nil_r |]. split; [reflexivity |].
  intros rest H. split; [exact L |]. split; [constructor |]. split; [apply F; apply after_good; exact H | exact Logic.I].
Qed.
Lemma piece_app w t s ts : lexeme w t -> (forall rest, good rest -> follows w t rest) -> piece s ts ->
  piece (w ++ 40 :: s ++ [41]) (t :: LEFT_PAREN :: ts ++ [RIGHT_PAREN]).
Proof.
  intros L F P. destruct (piece_paren s ts P) as [l [N [B [T K]]]]. exists ((w, t, []) :: l).
  split; [discriminate |]. split; [cbn; rewrite B; reflexivity |]. split; [cbn; fold (tokens l); rewrite T; reflexivity |].
  intros rest H. split; [exact L |]. split; [constructor |]. split; [| exact (K rest H)].
  apply F. rewrite B. exists 40, ((s ++ [41]) ++ rest). split; [reflexivity | simpl; tauto].
Qed.
(** a negation *)
Lemma piece_not s ts : piece s ts -> (exists c r, s = c :: r /\ c <> 124 /\ c <> 38) -> piece (126 :: s) (NOT :: ts).
Proof.
  intros [l [N [B [T K]]]] [c [r [E [H1 H2]]]]. exists (([126], NOT, []) :: l).
  split; [discriminate |]. split; [cbn; rewrite B; reflexivity |]. split; [cbn; fold (tokens l); rewrite T; reflexivity |].
  intros rest H. split; [apply l_sign; constructor |]. split; [constructor |]. split; [| exact (K rest H)].
  rewrite B, E. cbn. unfold next_is. cbn. split; congruence.
Qed.
(** a quantifier *)
Lemma piece_quant q o v vs s ts : sign [q] o -> o = FORALL \/ o = EXISTS -> piece v vs -> piece s ts ->
  piece (q :: 32 :: 91 :: v ++ 93 :: 58 :: 32 :: s) (o :: LEFT_BRACKET :: vs ++ RIGHT_BRACKET :: COLON :: ts).
Proof.
  intros Hq Ho [l [N [B [T K]]]] [l' [N' [B' [T' K']]]].
  exists (([q], o, [BChar 32]) :: ([91], LEFT_BRACKET, []) :: l ++ ([93], RIGHT_BRACKET, []) :: ([58], COLON, [BChar 32]) :: l').
  split; [discriminate |]. split; [| split].
  - cbn [body]. rewrite body_app, B. cbn [body]. rewrite B'. reflexivity.
  - change (o :: LEFT_BRACKET :: tokens (l ++ ([93], RIGHT_BRACKET, []) :: ([58], COLON, [BChar 32]) :: l') =
            o :: LEFT_BRACKET :: vs ++ RIGHT_BRACKET :: COLON :: ts).
    rewrite tokens_app, T. cbn. fold (tokens l'). rewrite T'. reflexivity.
  - intros rest H. split; [apply l_sign; exact Hq |]. split; [exact space_ok |].
    split; [destruct Ho as [-> | ->]; reflexivity |].
    split; [apply l_sign; constructor |]. split; [constructor |]. split; [exact Logic.I |].
    apply ok_app. split; [apply K; apply after_93 |].
    split; [apply l_sign; constructor |]. split; [constructor |]. split; [exact Logic.I |].
    split; [apply l_sign; constructor |]. split; [exact space_ok |]. split; [exact Logic.I | exact (K' rest H)].
Qed.

(** ** Terms *)

Definition starts (s : list Z) : Prop := exists c r, s = c :: r /\ c <> 40 /\ c <> 124 /\ c <> 38.
Lemma starts_app s s' : starts s -> starts (s ++ s').
Proof. intros [c [r [-> H]]]. exists c, (r ++ s'). split; [reflexivity | exact H]. Qed.

(** a text that is read as something, with matched parentheses *)
Record good_term (eqi : Z) (t : term) : Prop := mkGT {
  gt_all : exists s ts q, print_term default_printer eqi t = Some s /\ parsed_term t = Some q /\ fof_term ts q /\
    piece s ts /\ bal s /\ shallow_space 0 s = false /\ starts s }.

Lemma join_args eqi l : l <> [] -> Forall (good_term eqi) l ->
  exists ls ts ql, all_some (map (print_term default_printer eqi) l) = Some ls /\ ls <> [] /\ somes (map parsed_term l) = Some ql /\
    fof_args ts ql /\ piece (join (codes ", ") ls) ts /\ bal (join (codes ", ") ls) /\ join (codes ", ") ls <> [].
Proof.
  intros N H. induction l as [| t l IH]; [congruence |]. inversion H as [| t' l' Ht Hl]; subst.
  destruct Ht as [[s [ts [q [Pr [Pa [G [Pi [B [_ [c [r [Ec _]]]]]]]]]]]]].
  destruct l as [| t' l].
  - exists [s], ts, [q]. cbn. rewrite Pr, Pa. repeat split; try exact Pi; try apply B; try discriminate.
    + constructor. exact G.
    + rewrite Ec. discriminate.
  - destruct (IH ltac:(discriminate) Hl) as [ls [ts' [ql [A [N' [A' [G' [Pi' [B' _]]]]]]]]].
    exists (s :: ls), (ts ++ COMMA :: ts'), (q :: ql).
    cbn [map all_some somes] in *. rewrite Pr, Pa, A, A'. split; [reflexivity |]. split; [discriminate |]. split; [reflexivity |].
    split; [constructor; assumption |].
    destruct ls as [| s1 ls]; [congruence |].
    change (join (codes ", ") (s :: s1 :: ls)) with (s ++ codes ", " ++ join (codes ", ") (s1 :: ls)).
    split; [exact (piece_comma _ _ _ _ Pi Pi') |]. split.
    + apply bal_app; [exact B |]. apply bal_app; [| exact B']. apply bal_all. repeat constructor; discriminate.
    + rewrite Ec. discriminate.
Qed.

Lemma good_app i t s ts : fof_functor t (id_name i) -> symbol_name (id_name i) -> lexeme (codes (id_name i)) t ->
  (forall rest, good rest -> follows (codes (id_name i)) t rest) -> piece s ts -> bal s ->
  let w := codes (id_name i) ++ 40 :: s ++ [41] in
  piece w (t :: LEFT_PAREN :: ts ++ [RIGHT_PAREN]) /\ bal w /\ shallow_space 0 w = false /\ starts w.
Proof.
  intros Hf Hn Hl Hw Hp Hb w. assert (W := symbol_word _ Hn). destruct (bal_paren s Hb) as [B S0].
  split; [apply piece_app; assumption |]. split; [apply bal_app; [apply word_bal; exact W | exact B] |]. split.
  - unfold w. rewrite space_app by (apply word_bal; exact W). rewrite (word_space _ W), S0. reflexivity.
  - apply starts_app. exact (w_first _ W).
Qed.

Lemma str_id_plain i : symbol_name (id_name i) -> str_id default_printer i = codes (id_name i).
Proof. intros H. apply word_strip. apply symbol_word. exact H. Qed.

Lemma surround_cons s : s <> [] -> surround_args s = 40 :: s ++ [41].
Proof. destruct s; [congruence | reflexivity]. Qed.

(** the text of a symbol applied to terms *)
Lemma functional_text eqi i args : id_index i <> eqi -> symbol_name (id_name i) -> Forall (good_term eqi) args ->
  exists s ts ls ql, all_some (map (print_term default_printer eqi) args) = Some ls /\
    on_functional default_printer eqi i (print_tys default_printer []) (sep_args_ty_args default_printer) ls = Some s /\
    somes (map parsed_term args) = Some ql /\ fof_term ts (PFun (id_name i) ql None) /\ fof_atomic ts (PPred (id_name i) ql) /\
    piece s ts /\ bal s /\ shallow_space 0 s = false /\ starts s.
Proof.
  intros Hi Hn Ha. destruct (symbol_lex _ Hn) as [t [Ht [Hl Hw]]]. assert (W := symbol_word _ Hn).
  destruct args as [| a args].
  - exists (codes (id_name i)), [t], [], []. split; [reflexivity |]. split.
    { unfold on_functional. rewrite (proj2 (Z.eqb_neq _ _) Hi), str_id_plain by exact Hn. cbn. rewrite app_nil_r. reflexivity. }
    split; [reflexivity |]. split; [constructor; exact Ht |]. split; [constructor; exact Ht |].
    split; [apply piece_word; assumption |]. split; [apply word_bal; exact W |]. split; [apply word_space; exact W |].
    exact (w_first _ W).
  - destruct (join_args eqi (a :: args) ltac:(discriminate) Ha) as [ls [ts [ql [A [N [A' [G [P [B NE]]]]]]]]].
    destruct (good_app i t _ _ Ht Hn Hl Hw P B) as [X1 [X2 [X3 X4]]].
    exists (codes (id_name i) ++ 40 :: join (codes ", ") ls ++ [41]), (t :: LEFT_PAREN :: ts ++ [RIGHT_PAREN]), ls, ql.
    split; [exact A |]. split.
    { unfold on_functional. rewrite (proj2 (Z.eqb_neq _ _) Hi). rewrite str_id_plain by exact Hn.
      change (print_tys default_printer []) with (@nil Z). cbn beta iota zeta. rewrite surround_cons by exact NE. reflexivity. }
    split; [exact A' |]. split; [constructor; assumption |]. split; [constructor; assumption |]. auto.
Qed.

Lemma good_terms eqi t : writable_term eqi t -> good_term eqi t.
Proof.
  induction t as [i | f tys args IH | i n | m] using term_ind'; simpl; try tauto.
  - intros [Hi [Hn [-> Ha]]]. assert (G : Forall (good_term eqi) args).
    { clear Hi Hn. induction args as [| a args IHa]; [constructor |]. inversion IH; subst. destruct Ha as [Ha Hr].
      constructor; auto. }
    destruct (functional_text eqi f args Hi Hn G) as [s [ts [ls [ql [A [E [A' [F [_ [P [B [S0 St]]]]]]]]]]]].
    split. exists s, ts, (PFun (id_name f) ql None). cbn. rewrite A. split; [exact E |].
    split; [rewrite A'; reflexivity |]. auto.
  - intros Hn. destruct (variable_lex n Hn) as [L W]. assert (Wd := variable_word n Hn). split.
    exists (codes n), [UPPER_WORD (codes n)], (PVar n). split.
    { cbn. f_equal. apply word_strip. exact Wd. }
    split; [reflexivity |]. split; [constructor |]. split; [apply piece_word; assumption |].
    split; [apply word_bal; exact Wd |]. split; [apply word_space; exact Wd | exact (w_first _ Wd)].
Qed.

(** ** Formulas *)

Definition begins (s : list Z) : Prop := exists c r, s = c :: r /\ c <> 124 /\ c <> 38.
Lemma begins_app s s' : begins s -> begins (s ++ s').
Proof. intros [c [r [-> H]]]. exists c, (r ++ s'). split; [reflexivity | exact H]. Qed.
Lemma starts_begins s : starts s -> begins s.
Proof. intros [c [r [E [_ H]]]]. exists c, r. split; assumption. Qed.

Lemma join_flat sep x l : join sep (x :: l) = x ++ flat_map (fun y => sep ++ y) l.
Proof.
  revert x. induction l as [| y l IH]; intros x; [cbn; rewrite app_nil_r; reflexivity |].
  change (join sep (x :: y :: l)) with (x ++ sep ++ join sep (y :: l)). rewrite IH. cbn. rewrite <- app_assoc. reflexivity.
Qed.

(** the variables of a quantifier *)
Definition var_text (v : tvar) : list Z :=
  str default_printer (on_typed_var (act default_printer) (codes (tv_name v)) (print_ty default_printer (tv_ty v))).
Lemma vars_text vs : vs <> [] -> Forall (fun v => variable_name (tv_name v) /\ tv_ty v = TyConstr "$i" []) vs ->
  exists ts l, somes (map parsed_var vs) = Some l /\ fof_vars ts l /\ piece (join (codes ", ") (map var_text vs)) ts /\
    bal (join (codes ", ") (map var_text vs)).
Proof.
  intros N H. induction vs as [| v vs IH]; [congruence |]. inversion H as [| v' vs' [Hn Ht] Hvs]; subst.
  assert (E : var_text v = codes (tv_name v)) by (apply word_strip; apply variable_word; exact Hn).
  assert (Ev : parsed_var v = Some (tv_name v, pty_const "$i")) by (unfold parsed_var; rewrite Ht; reflexivity).
  destruct (variable_lex _ Hn) as [L W]. assert (Wd := variable_word _ Hn).
  destruct vs as [| v2 vs].
  - exists [UPPER_WORD (codes (tv_name v))], [(tv_name v, pty_const "$i")]. cbn [map somes join]. rewrite Ev, E.
    split; [reflexivity |]. split; [constructor |]. split; [apply piece_word; assumption | apply word_bal; exact Wd].
  - destruct (IH ltac:(discriminate) Hvs) as [ts [l [A [G [P B]]]]].
    exists (UPPER_WORD (codes (tv_name v)) :: COMMA :: ts), ((tv_name v, pty_const "$i") :: l).
    cbn [map somes] in *. rewrite Ev, A. split; [reflexivity |]. split; [constructor; exact G |].
    change (join (codes ", ") (var_text v :: var_text v2 :: map var_text vs))
      with (var_text v ++ codes ", " ++ join (codes ", ") (var_text v2 :: map var_text vs)). rewrite E. split.
    + apply (piece_comma _ [UPPER_WORD (codes (tv_name v))]); [apply piece_word; assumption | exact P].
    + apply bal_app; [apply word_bal; exact Wd |]. apply bal_app; [| exact B]. apply bal_all. repeat constructor; discriminate.
Qed.

(** ** The line of an axiom *)

Definition role_word (r : list Z) : Prop := exists n, r = codes n /\ lower_name n.

Lemma lower_lex n : lower_name n ->
  lexeme (codes n) (LOWER_WORD (codes n)) /\ forall rest, good rest -> follows (codes n) (LOWER_WORD (codes n)) rest.
Proof.
  intros [c [w [E [Hc [Hw Hk]]]]]. split.
  - rewrite E. constructor; assumption.
  - intros rest Hg. split; [exact (good_ends rest Hg) |]. intros [[k Hk'] _]. exact (Hk k Hk').
Qed.

Lemma line_lexed name role s ts : lower_name name -> lower_name role -> piece s ts ->
  forall n e, exists st, lex_file (fof_line (codes name) (codes role) s) n e = Some (line_tokens (codes name) (codes role) ts, st).
Proof.
  intros Hn Hr [l [N [B [T K]]]] n e.
  destruct (lower_lex _ Hn) as [Ln Fn]. destruct (lower_lex _ Hr) as [Lr Fr].
  set (items := ((codes "fof", FOF, []) :: ([40], LEFT_PAREN, []) :: (codes name, LOWER_WORD (codes name), []) ::
    ([44], COMMA, [BChar 32]) :: (codes role, LOWER_WORD (codes role), []) :: ([44], COMMA, [BChar 32]) ::
    (l ++ [([41], RIGHT_PAREN, []); ([46], DOT, [BChar 10])])) : list item).
  assert (E : fof_line (codes name) (codes role) s = file_text [] items).
  { unfold file_text, items, blanks_text. cbn [flat_map text blank_text app]. rewrite body_text, B.
    unfold blanks_text. cbn [flat_map text blank_text app]. unfold fof_line.
    change (codes "fof(") with (codes "fof" ++ [40]). change (codes ", ") with [44; 32]. change (codes ").") with [41; 46].
    cbn [flat_map text blank_text app]. rewrite <- !app_assoc. reflexivity. }
  assert (Et : tokens items = line_tokens (codes name) (codes role) ts).
  { unfold items, line_tokens.
    change (FOF :: LEFT_PAREN :: LOWER_WORD (codes name) :: COMMA :: LOWER_WORD (codes role) :: COMMA ::
            tokens (l ++ [([41], RIGHT_PAREN, []); ([46], DOT, [BChar 10])]) =
            FOF :: LEFT_PAREN :: LOWER_WORD (codes name) :: COMMA :: LOWER_WORD (codes role) :: COMMA :: ts ++ [RIGHT_PAREN; DOT]).
    rewrite tokens_app, T. reflexivity. }
  assert (Hf : file_ok [] items).
  { split; [constructor |]. split; [| right; constructor]. unfold items.
    split; [apply l_keyword; constructor |]. split; [constructor |]. split; [reflexivity |].
    split; [apply l_sign; constructor |]. split; [constructor |]. split; [exact Logic.I |].
    split; [exact Ln |]. split; [constructor |]. split; [apply Fn; eexists _, _; split; [reflexivity | simpl; tauto] |].
    split; [apply l_sign; constructor |]. split; [exact space_ok |]. split; [exact Logic.I |].
    split; [exact Lr |]. split; [constructor |]. split; [apply Fr; eexists _, _; split; [reflexivity | simpl; tauto] |].
    split; [apply l_sign; constructor |]. split; [exact space_ok |]. split; [exact Logic.I |].
    apply ok_items; [apply K; eexists _, _; split; [reflexivity | simpl; tauto] |].
    split; [apply l_sign; constructor |]. split; [constructor |]. split; [exact Logic.I |].
    split; [apply l_sign; constructor |]. split; [constructor; [simpl; tauto | constructor] |]. split; exact Logic.I. }
  destruct (lex_file_spec [] items n e Hf) as [st [H _]]. exists st. rewrite E, H, Et. reflexivity.
Qed.

Lemma app_end {A} (l l' : list A) x y x' y' : l ++ [x; y] = l' ++ [x'; y'] -> l = l'.
Proof.
  intros E. change [x; y] with ([x] ++ [y]) in E. change [x'; y'] with ([x'] ++ [y']) in E. rewrite !app_assoc in E.
  apply app_inj_tail in E as [E _]. apply app_inj_tail in E as [E _]. exact E.
Qed.
