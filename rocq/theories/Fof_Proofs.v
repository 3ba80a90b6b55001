(** The grammar of FOF formulas is not ambiguous: a list of tokens is read as at most one formula. *)
From Coq Require Import ZArith List Bool String Ascii Lia Arith.
From Verif Require Import Ast_Model Lexer_Model Elab_Model Print_Model Print_Spec.
Import ListNotations.
Open Scope list_scope.

Scheme fof_term_mind := Minimality for fof_term Sort Prop
  with fof_args_mind := Minimality for fof_args Sort Prop.
Combined Scheme fof_term_args_ind from fof_term_mind, fof_args_mind.
Scheme fof_logic_mind := Minimality for fof_logic Sort Prop
  with fof_chain_mind := Minimality for fof_chain Sort Prop
  with fof_unit_mind := Minimality for fof_unit Sort Prop.
Combined Scheme fof_form_ind from fof_logic_mind, fof_chain_mind, fof_unit_mind.

(** ** Names *)

Definition uncodes (l : list Z) : string := string_of_list_ascii (map (fun z => ascii_of_nat (Z.to_nat z)) l).
Lemma uncodes_codes s : uncodes (codes s) = s.
Proof.
  unfold uncodes, codes. rewrite map_map, <- (string_of_list_ascii_of_string s) at 1. rewrite list_ascii_of_string_of_list_ascii.
  rewrite <- (string_of_list_ascii_of_string s) at 2. f_equal.
  rewrite <- (map_id (list_ascii_of_string s)) at 2. apply map_ext. intros a. rewrite Nat2Z.id. apply ascii_nat_embedding.
Qed.
Lemma codes_inj s s' : codes s = codes s' -> s = s'.
Proof. intros E. rewrite <- (uncodes_codes s), <- (uncodes_codes s'), E. reflexivity. Qed.

(** ** A parser that follows the grammar, with fuel *)

Definition p_functor (t : token) : option string :=
  match t with LOWER_WORD w | SINGLE_QUOTED w | DOLLAR_WORD w => Some (uncodes w) | _ => None end.
Lemma functor_p t s : fof_functor t s -> p_functor t = Some s.
Proof. intros H; destruct H; simpl; rewrite uncodes_codes; reflexivity. Qed.

Fixpoint p_term (n : nat) (ts : list token) : option (pterm * list token) :=
  match n with
  | O => None
  | S n =>
    match ts with
    | UPPER_WORD w :: r => Some (PVar (uncodes w), r)
    | INTEGER w :: r => Some (PFun (uncodes w) [] (Some p_int), r)
    | RATIONAL w :: r => Some (PFun (uncodes w) [] (Some p_rat), r)
    | REAL w :: r => Some (PFun (uncodes w) [] (Some p_real), r)
    | DISTINCT_OBJECT w :: r => Some (PFun (uncodes w) [] None, r)
    | t :: r =>
      match p_functor t with
      | Some s =>
        match r with
        | LEFT_PAREN :: r' =>
          match p_args n r' with
          | Some (l, RIGHT_PAREN :: r'') => Some (PFun s l None, r'')
          | _ => None
          end
        | _ => Some (PFun s [] None, r)
        end
      | None => None
      end
    | [] => None
    end
  end
with p_args (n : nat) (ts : list token) : option (list pterm * list token) :=
  match n with
  | O => None
  | S n =>
    match p_term n ts with
    | Some (t, COMMA :: r) => match p_args n r with Some (l, r') => Some (t :: l, r') | None => None end
    | Some (t, r) => Some ([t], r)
    | None => None
    end
  end.

Fixpoint p_vars (n : nat) (ts : list token) : option (list (string * ptype) * list token) :=
  match n with
  | O => None
  | S n =>
    match ts with
    | UPPER_WORD w :: COMMA :: r =>
      match p_vars n r with Some (l, r') => Some ((uncodes w, pty_const "$i") :: l, r') | None => None end
    | UPPER_WORD w :: r => Some ([(uncodes w, pty_const "$i")], r)
    | _ => None
    end
  end.

(** an atomic formula, when the first token is none of those of the other cases *)
Definition p_atomic (n : nat) (ts : list token) : option (pform * list token) :=
  match p_term n ts with
  | Some (t, EQUAL :: r) => match p_term n r with Some (t', r') => Some (PPred "=" [t; t'], r') | None => None end
  | Some (t, NOT_EQUAL :: r) => match p_term n r with Some (t', r') => Some (PNeg (PPred "=" [t; t']), r') | None => None end
  | Some (PFun s l None, r) => Some (PPred s l, r)
  | _ => None
  end.

Definition p_nonassoc (t : token) : option (pform -> pform -> pform) :=
  match t with
  | EQUIV => Some (PBin PBinaryEqu) | IMPLY => Some (PBin PBinaryImp) | LEFT_IMPLY => Some mk_previmp
  | XOR => Some mk_pxor | NOTVLINE => Some mk_pnotor | NOTAND => Some mk_pnotand
  | _ => None
  end.

Fixpoint p_unit (n : nat) (ts : list token) : option (pform * list token) :=
  match n with
  | O => None
  | S n =>
    match ts with
    | NOT :: r => match p_unit n r with Some (f, r') => Some (PNeg f, r') | None => None end
    | FORALL :: LEFT_BRACKET :: r =>
      match p_vars n r with
      | Some (l, RIGHT_BRACKET :: COLON :: r') =>
        match p_unit n r' with Some (f, r'') => Some (PQuant PQuantAll l f, r'') | None => None end
      | _ => None
      end
    | EXISTS :: LEFT_BRACKET :: r =>
      match p_vars n r with
      | Some (l, RIGHT_BRACKET :: COLON :: r') =>
        match p_unit n r' with Some (f, r'') => Some (PQuant PQuantEx l f, r'') | None => None end
      | _ => None
      end
    | TRUE :: r => Some (PTop, r)
    | FALSE :: r => Some (PBot, r)
    | LEFT_PAREN :: r =>
      match p_logic n r with Some (f, RIGHT_PAREN :: r') => Some (f, r') | _ => None end
    | _ => p_atomic n ts
    end
  end
with p_logic (n : nat) (ts : list token) : option (pform * list token) :=
  match n with
  | O => None
  | S n =>
    match p_unit n ts with
    | Some (f, o :: r) =>
      match p_nonassoc o with
      | Some mk => match p_unit n r with Some (g, r') => Some (mk f g, r') | None => None end
      | None =>
        match o with
        | VLINE => p_chain n VLINE PBinaryOr f (o :: r)
        | AND => p_chain n AND PBinaryAnd f (o :: r)
        | _ => Some (f, o :: r)
        end
      end
    | Some (f, []) => Some (f, [])
    | None => None
    end
  end
(** the rest of a chain after its first elements, read as [f] *)
with p_chain (n : nat) (o : token) (b : pbinop) (f : pform) (ts : list token) : option (pform * list token) :=
  match n with
  | O => None
  | S n =>
    match ts with
    | VLINE :: r =>
      match o with
      | VLINE => match p_unit n r with Some (g, r') => p_chain n o b (PBin b f g) r' | None => None end
      | _ => Some (f, ts)
      end
    | AND :: r =>
      match o with
      | AND => match p_unit n r with Some (g, r') => p_chain n o b (PBin b f g) r' | None => None end
      | _ => Some (f, ts)
      end
    | _ => Some (f, ts)
    end
  end.

(** ** What may follow *)

(** after a term: no parenthesis is opened *)
Definition no_open (r : list token) : Prop := match r with LEFT_PAREN :: _ => False | _ => True end.
Definition no_comma (r : list token) : Prop := match r with LEFT_PAREN :: _ | COMMA :: _ => False | _ => True end.
(** after a unit formula *)
Definition no_eq (r : list token) : Prop := match r with LEFT_PAREN :: _ | EQUAL :: _ | NOT_EQUAL :: _ => False | _ => True end.
(** after a formula *)
Definition no_op (r : list token) : Prop :=
  match r with
  | LEFT_PAREN :: _ | EQUAL :: _ | NOT_EQUAL :: _ | VLINE :: _ | AND :: _
  | EQUIV :: _ | IMPLY :: _ | LEFT_IMPLY :: _ | XOR :: _ | NOTVLINE :: _ | NOTAND :: _ => False
  | _ => True
  end.
Lemma op_eq r : no_op r -> no_eq r.
Proof. destruct r as [| [] r]; simpl; tauto. Qed.
Lemma eq_open r : no_eq r -> no_open r.
Proof. destruct r as [| [] r]; simpl; tauto. Qed.
Lemma comma_open r : no_comma r -> no_open r.
Proof. destruct r as [| [] r]; simpl; tauto. Qed.

Definition from {A} (P : nat -> A -> Prop) (a : A) : Prop := exists n0, forall n, (n0 <= n)%nat -> P n a.

Lemma functor_cases t s : fof_functor t s -> forall n r,
  p_term (S n) (t :: r) = match r with
    | LEFT_PAREN :: r' => match p_args n r' with Some (l, RIGHT_PAREN :: r'') => Some (PFun s l None, r'') | _ => None end
    | _ => Some (PFun s [] None, r)
    end.
Proof. intros H n r. destruct H; simpl; rewrite uncodes_codes; reflexivity. Qed.

Definition reads_term (ts : list token) (t : pterm) : Prop :=
  exists n0, forall n r, (n0 <= n)%nat -> no_open r -> p_term n (ts ++ r) = Some (t, r).
Definition reads_args (ts : list token) (l : list pterm) : Prop :=
  exists n0, forall n r, (n0 <= n)%nat -> no_comma r -> p_args n (ts ++ r) = Some (l, r).

Ltac more n := destruct n as [| n]; [lia |].

Lemma terms_read :
  (forall ts t, fof_term ts t -> reads_term ts t) /\ (forall ts l, fof_args ts l -> reads_args ts l).
Proof.
  apply fof_term_args_ind.
  - intros t s H. exists 1%nat. intros n r Hn Hr. more n. cbn [app]. rewrite (functor_cases t s H).
    destruct r as [| [] r]; simpl in Hr; try tauto; reflexivity.
  - intros t s ts l H _ [n0 IH]. exists (S n0). intros n r Hn Hr. more n. cbn [app]. rewrite (functor_cases t s H).
    rewrite <- app_assoc. cbn [app]. rewrite (IH n (RIGHT_PAREN :: r)) by (simpl; lia || tauto). reflexivity.
  - intros s. exists 1%nat. intros n r Hn Hr. more n. simpl. rewrite uncodes_codes. reflexivity.
  - intros s. exists 1%nat. intros n r Hn Hr. more n. simpl. rewrite uncodes_codes. reflexivity.
  - intros s. exists 1%nat. intros n r Hn Hr. more n. simpl. rewrite uncodes_codes. reflexivity.
  - intros s. exists 1%nat. intros n r Hn Hr. more n. simpl. rewrite uncodes_codes. reflexivity.
  - intros s. exists 1%nat. intros n r Hn Hr. more n. simpl. rewrite uncodes_codes. reflexivity.
  - intros ts t _ [n0 IH]. exists (S n0). intros n r Hn Hr. more n. cbn [p_args].
    rewrite (IH n r) by (lia || apply comma_open; exact Hr). destruct r as [| [] r]; simpl in Hr; try tauto; reflexivity.
  - intros ts t ts' l _ [n0 IH] _ [n1 IH']. exists (S (n0 + n1)). intros n r Hn Hr. more n. cbn [p_args].
    rewrite <- app_assoc. cbn [app]. rewrite (IH n (COMMA :: ts' ++ r)) by (simpl; lia || tauto).
    rewrite (IH' n r) by (lia || exact Hr). reflexivity.
Qed.

Lemma vars_read ts l : fof_vars ts l ->
  exists n0, forall n r, (n0 <= n)%nat -> no_comma r -> p_vars n (ts ++ r) = Some (l, r).
Proof.
  induction 1 as [s | s ts l _ [n0 IH]].
  - exists 1%nat. intros n r Hn Hr. more n. cbn. rewrite uncodes_codes. destruct r as [| [] r]; simpl in Hr; try tauto; reflexivity.
  - exists (S n0). intros n r Hn Hr. more n. cbn. rewrite (IH n r) by (lia || exact Hr). rewrite uncodes_codes. reflexivity.
Qed.

(** the first token of a term *)
Definition term_token (t : token) : Prop :=
  match t with
  | LOWER_WORD _ | SINGLE_QUOTED _ | DOLLAR_WORD _ | UPPER_WORD _ | INTEGER _ | RATIONAL _ | REAL _ | DISTINCT_OBJECT _ => True
  | _ => False
  end.
Lemma term_first ts t : fof_term ts t -> exists k r, ts = k :: r /\ term_token k.
Proof.
  intros H. destruct H as [t s H | t s ts l H | | | | |]; try (eexists _, _; split; [reflexivity | exact Logic.I]).
  - destruct H; eexists _, _; (split; [reflexivity | exact Logic.I]).
  - destruct H; eexists _, _; (split; [reflexivity | exact Logic.I]).
Qed.
Lemma unit_atomic k r n : term_token k -> p_unit (S n) (k :: r) = p_atomic n (k :: r).
Proof. intros H. destruct k; simpl in H; try tauto; reflexivity. Qed.

Definition reads_unit (ts : list token) (f : pform) : Prop :=
  exists n0, forall n r, (n0 <= n)%nat -> no_eq r -> p_unit n (ts ++ r) = Some (f, r).
Definition reads_logic (ts : list token) (f : pform) : Prop :=
  exists n0, forall n r, (n0 <= n)%nat -> no_op r -> p_logic n (ts ++ r) = Some (f, r).
(** a chain is read as its first element and the rest *)
Definition reads_chain (o : token) (b : pbinop) (ts : list token) (f : pform) : Prop :=
  assoc o b -> exists ts1 f1 ts2 d n0, ts = ts1 ++ o :: ts2 /\ reads_unit ts1 f1 /\
    forall n r, (n0 <= n)%nat -> no_eq r -> p_chain (d + n) o b f1 (o :: ts2 ++ r) = p_chain n o b f r.

Lemma atomic_reads ts f : fof_atomic ts f -> reads_unit ts f.
Proof.
  intros H. destruct terms_read as [T A]. destruct H as [t s H | t s ts l H Ha | | | ts t ts' t' H H'].
  - exists 3%nat. intros n r Hn Hr. more n. more n.
    assert (K : term_token t) by (destruct H; exact Logic.I). cbn [app]. rewrite (unit_atomic t r (S n) K).
    unfold p_atomic. rewrite (functor_cases t s H). destruct r as [| [] r]; simpl in Hr; try tauto; reflexivity.
  - destruct (A ts l Ha) as [n0 E]. exists (S (S n0)). intros n r Hn Hr. more n. more n.
    assert (K : term_token t) by (destruct H; exact Logic.I). cbn [app]. rewrite (unit_atomic t _ (S n) K).
    unfold p_atomic. rewrite (functor_cases t s H). rewrite <- app_assoc. cbn [app].
    rewrite (E n (RIGHT_PAREN :: r)) by (simpl; lia || tauto).
    destruct r as [| [] r]; simpl in Hr; try tauto; reflexivity.
  - exists 1%nat. intros n r Hn Hr. more n. reflexivity.
  - exists 1%nat. intros n r Hn Hr. more n. reflexivity.
  - destruct (term_first ts t H) as [k [r0 [E0 K]]]. destruct (T ts t H) as [n0 E]. destruct (T ts' t' H') as [n1 E1].
    exists (S (n0 + n1)). intros n r Hn Hr. more n. rewrite <- app_assoc. cbn [app].
    assert (X : p_unit (S n) (ts ++ EQUAL :: ts' ++ r) = p_atomic n (ts ++ EQUAL :: ts' ++ r)).
    { rewrite E0. cbn [app]. apply (unit_atomic k _ n K). }
    rewrite X. unfold p_atomic. rewrite (E n (EQUAL :: ts' ++ r)) by (simpl; lia || tauto).
    rewrite (E1 n r) by (lia || apply eq_open; exact Hr). destruct t as [| ? ? []]; reflexivity.
Qed.

Lemma chain_step o b (H : assoc o b) n f r :
  p_chain (S n) o b f (o :: r) = match p_unit n r with Some (g, r') => p_chain n o b (PBin b f g) r' | None => None end.
Proof. destruct H; reflexivity. Qed.
Lemma chain_stop o b n f r : no_op r -> p_chain (S n) o b f r = Some (f, r).
Proof. intros H. destruct r as [| [] r]; simpl in H; try tauto; reflexivity. Qed.
Lemma assoc_no_eq o b r : assoc o b -> no_eq (o :: r).
Proof. intros H; destruct H; exact Logic.I. Qed.
Lemma nonassoc_p o mk : nonassoc o mk -> p_nonassoc o = Some mk /\ forall r, no_eq (o :: r).
Proof. intros H; destruct H; split; (reflexivity || intros; exact Logic.I). Qed.

Lemma forms_read :
  (forall ts f, fof_logic ts f -> reads_logic ts f) /\ (forall o b ts f, fof_chain o b ts f -> reads_chain o b ts f) /\
  (forall ts f, fof_unit ts f -> reads_unit ts f).
Proof.
  destruct terms_read as [T _].
  apply fof_form_ind.
  - intros ts f _ [n0 IH]. exists (S n0). intros n r Hn Hr. more n. cbn [p_logic].
    rewrite (IH n r) by (lia || apply op_eq; exact Hr). destruct r as [| [] r]; simpl in Hr; try tauto; reflexivity.
  - intros ts f o mk ts' g Ho _ [n0 IH] _ [n1 IH']. destruct (nonassoc_p o mk Ho) as [E Q].
    exists (S (n0 + n1)). intros n r Hn Hr. more n. cbn [p_logic]. rewrite <- app_assoc. cbn [app].
    rewrite (IH n (o :: ts' ++ r)) by (lia || apply Q). rewrite E.
    rewrite (IH' n r) by (lia || apply op_eq; exact Hr). reflexivity.
  - intros ts f o b Ho _ IH. destruct (IH Ho) as [ts1 [f1 [ts2 [d [n0 [-> [[n1 U] C]]]]]]].
    exists (S (d + S n0 + n1)). intros n r Hn Hr. more n. cbn [p_logic]. rewrite <- app_assoc. cbn [app].
    rewrite (U n (o :: ts2 ++ r)) by (lia || apply (assoc_no_eq o b); exact Ho).
    replace n with (d + S (n - d - 1))%nat by lia.
    assert (X := C (S (n - d - 1)) r ltac:(lia) (op_eq r Hr)). rewrite (chain_stop o b _ f r Hr) in X.
    destruct Ho; exact X.
  - intros o b ts f ts' g _ U _ [n0 IH] Ho. exists ts, f, ts', 1%nat, n0.
    split; [reflexivity |]. split; [exact U |]. intros n r Hn Hr. change (1 + n)%nat with (S n).
    rewrite (chain_step o b Ho), (IH n r Hn Hr). reflexivity.
  - intros o b ts f ts' g _ IC _ [n0 IH] Ho. destruct (IC Ho) as [ts1 [f1 [ts2 [d [n1 [-> [U C]]]]]]].
    exists ts1, f1, (ts2 ++ o :: ts'), (S d), (n0 + n1)%nat. split; [rewrite <- app_assoc; reflexivity |]. split; [exact U |].
    intros n r Hn Hr. replace (S d + n)%nat with (d + S n)%nat by lia. rewrite <- app_assoc. cbn [app].
    rewrite (C (S n) (o :: ts' ++ r)) by (lia || apply (assoc_no_eq o b); exact Ho).
    rewrite (chain_step o b Ho), (IH n r) by (lia || exact Hr). reflexivity.
  - intros ts f _ [n0 IH]. exists (S n0). intros n r Hn Hr. more n. cbn. rewrite (IH n r) by (lia || exact Hr). reflexivity.
  - intros ts t ts' t' H H'. destruct (term_first ts t H) as [k [r0 [E0 K]]]. destruct (T ts t H) as [n0 E].
    destruct (T ts' t' H') as [n1 E1]. exists (S (n0 + n1)). intros n r Hn Hr. more n. rewrite <- app_assoc. cbn [app].
    assert (X : p_unit (S n) (ts ++ NOT_EQUAL :: ts' ++ r) = p_atomic n (ts ++ NOT_EQUAL :: ts' ++ r)).
    { rewrite E0. cbn [app]. apply (unit_atomic k _ n K). }
    rewrite X. unfold p_atomic. rewrite (E n (NOT_EQUAL :: ts' ++ r)) by (simpl; lia || tauto).
    rewrite (E1 n r) by (lia || apply eq_open; exact Hr). destruct t as [| ? ? []]; reflexivity.
  - intros vs l ts f Hv _ [n0 IH]. destruct (vars_read vs l Hv) as [n1 V]. exists (S (n0 + n1)). intros n r Hn Hr. more n.
    cbn. rewrite <- app_assoc. cbn [app]. rewrite (V n (RIGHT_BRACKET :: COLON :: ts ++ r)) by (simpl; lia || tauto).
    rewrite (IH n r) by (lia || exact Hr). reflexivity.
  - intros vs l ts f Hv _ [n0 IH]. destruct (vars_read vs l Hv) as [n1 V]. exists (S (n0 + n1)). intros n r Hn Hr. more n.
    cbn. rewrite <- app_assoc. cbn [app]. rewrite (V n (RIGHT_BRACKET :: COLON :: ts ++ r)) by (simpl; lia || tauto).
    rewrite (IH n r) by (lia || exact Hr). reflexivity.
  - intros ts f H. exact (atomic_reads ts f H).
  - intros ts f _ [n0 IH]. exists (S n0). intros n r Hn Hr. more n. cbn. rewrite <- app_assoc. cbn [app].
    rewrite (IH n (RIGHT_PAREN :: r)) by (simpl; lia || tauto). reflexivity.
Qed.

(** the formula is determined by the tokens *)
Theorem fof_unambiguous ts f g : fof_logic ts f -> fof_logic ts g -> f = g.
Proof.
  destruct forms_read as [L _]. intros Hf Hg. destruct (L ts f Hf) as [n0 E]. destruct (L ts g Hg) as [n1 E'].
  assert (X := E (n0 + n1)%nat [] ltac:(lia) Logic.I). assert (Y := E' (n0 + n1)%nat [] ltac:(lia) Logic.I).
  rewrite X in Y. injection Y as Y. exact Y.
Qed.

(** and so is its end: the text after a formula does not begin by what would continue it *)
Theorem fof_prefix_unique ts f r ts' g r' : fof_logic ts f -> fof_logic ts' g -> no_op r -> no_op r' ->
  ts ++ r = ts' ++ r' -> f = g /\ r = r'.
Proof.
  destruct forms_read as [L _]. intros Hf Hg Hr Hr' E0. destruct (L ts f Hf) as [n0 E]. destruct (L ts' g Hg) as [n1 E'].
  assert (X := E (n0 + n1)%nat r ltac:(lia) Hr). assert (Y := E' (n0 + n1)%nat r' ltac:(lia) Hr').
  rewrite E0, Y in X. injection X as X1 X2. split; congruence.
Qed.
