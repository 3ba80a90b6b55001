(** The variables of a Lambdapi script, and its type checking (C124, C125). *)
From Coq Require Import ZArith List Bool String Lia.
From Verif Require Import Ast_Model Ast_Proofs Sem_Spec Occ_Spec Rules_Proofs Unif_Model GsProof_Model GsProof_Spec GsProof_Sound Tptp_Model Lp_Model Lp_Spec.
Import ListNotations.
Open Scope list_scope.
Open Scope Z_scope.

(** ** The equality of keys *)
Lemma list_eqb_sym {A} (eqb : A -> A -> bool) l : Forall (fun x => forall y, eqb x y = true -> eqb y x = true) l ->
  forall m, list_eqb eqb l m = true -> list_eqb eqb m l = true.
Proof.
  induction 1 as [|x l Hx H IH]; intros [|y m] E; cbn in *; try discriminate; auto.
  apply andb_prop in E. destruct E. apply andb_true_intro. auto.
Qed.
Lemma ty_sym a b : ty_eqb a b = true -> ty_eqb b a = true.
Proof. rewrite !ty_eqb_reflect. apply same_ty_sym. Qed.
Lemma term_sym a b : term_eqb a b = true -> term_eqb b a = true.
Proof. rewrite !term_eqb_reflect. apply same_term_sym. Qed.
Lemma tvar_sym a b : tvar_eqb a b = true -> tvar_eqb b a = true.
Proof. unfold tvar_eqb. rewrite !andb_true_iff, !String.eqb_eq, !Z.eqb_eq. intros [[E1 E2] E3]. repeat split; auto. apply ty_sym. exact E3. Qed.
Lemma all_sym {A} (eqb : A -> A -> bool) l : (forall x y, eqb x y = true -> eqb y x = true) -> Forall (fun x => forall y, eqb x y = true -> eqb y x = true) l.
Proof. intros H. apply Forall_forall. intros x _. apply H. Qed.
Lemma form_sym a : forall b, form_eqb a b = true -> form_eqb b a = true.
Proof.
  induction a using form_ind'; intros [] E; cbn in *; try discriminate; auto; rewrite ?andb_true_iff in *; intuition eauto.
  all: try (unfold id_eqb in *; rewrite Z.eqb_eq in *; congruence).
  all: eapply list_eqb_sym; try eassumption; apply all_sym; auto using tvar_sym, ty_sym, term_sym.
Qed.
Lemma key_sym a b : key_eqb a b = true -> key_eqb b a = true.
Proof. destruct a, b; cbn; try discriminate; [apply form_sym|apply term_sym|apply tvar_sym]. Qed.
Lemma key_trans a b c : key_eqb a b = true -> key_eqb b c = true -> key_eqb a c = true.
Proof. destruct a, b, c; cbn; try discriminate; [apply form_eqb_trans|apply term_eqb_trans|apply tvar_eqb_trans]. Qed.
Lemma key_refl a : key_eqb a a = true.
Proof.
  destruct a; cbn; [apply form_eqb_refl| |].
  - apply term_eqb_reflect, same_term_refl.
  - unfold tvar_eqb. rewrite String.eqb_refl, Z.eqb_refl. cbn. apply ty_eqb_reflect, same_ty_refl.
Qed.

(** ** The map of names *)
Definition ext (a b : names_st) : Prop := exists l, ctx b = ctx a ++ l.
Record inv (st : names_st) : Prop := mkInv {
  inv_lt : forall k n, get_from st k = Some n -> (n < counter st)%nat;
  inv_inj : forall k k' n, get_from st k = Some n -> get_from st k' = Some n -> key_eqb k k' = true }.
Lemma inv_none : inv no_names.
Proof. split; cbn; discriminate. Qed.
Lemma ext_refl a : ext a a. Proof. exists []. rewrite app_nil_r. reflexivity. Qed.
Lemma ext_trans a b c : ext a b -> ext b c -> ext a c.
Proof. intros [l E] [m F]. exists (l ++ m). rewrite F, E, app_assoc. reflexivity. Qed.
Lemma find_app {A} (p : A -> bool) l m : List.find p (l ++ m) = match List.find p l with Some x => Some x | None => List.find p m end.
Proof. induction l as [|a l IH]; cbn; [reflexivity|]. destruct (p a); auto. Qed.
Lemma get_ext a b k n : ext a b -> get_from a k = Some n -> get_from b k = Some n.
Proof. intros [l E] H. unfold get_from in *. rewrite E, find_app. destruct (List.find _ (ctx a)); [exact H|discriminate]. Qed.
Lemma get_same st k k' : key_eqb k k' = true -> get_from st k = get_from st k'.
Proof.
  intros E. unfold get_from. f_equal. induction (ctx st) as [|[x n] l IH]; cbn; [reflexivity|]. rewrite IH.
  destruct (key_eqb x k) eqn:A, (key_eqb x k') eqn:B; try reflexivity.
  - rewrite (key_trans _ _ _ A E) in B. discriminate.
  - rewrite (key_trans _ _ _ B (key_sym _ _ E)) in A. discriminate.
Qed.
Lemma add_spec st k n st' : inv st -> add_to st k = (n, st') -> ext st st' /\ inv st' /\ get_from st' k = Some n.
Proof.
  intros I E. unfold add_to in E. destruct (get_from st k) as [m|] eqn:G; injection E as <- <-; [split; [apply ext_refl|split; auto]|].
  assert (X : ext st (mkNames (ctx st ++ [(k, counter st)]) (S (counter st)))) by (eexists; reflexivity). split; [exact X|].
  assert (C : forall k', get_from (mkNames (ctx st ++ [(k, counter st)]) (S (counter st))) k' =
    match get_from st k' with Some n => Some n | None => if key_eqb k k' then Some (counter st) else None end).
  { intros k'. unfold get_from. cbn [ctx]. rewrite find_app. cbn. destruct (List.find _ (ctx st)); [reflexivity|]. destruct (key_eqb k k'); reflexivity. }
  split; [|rewrite C, G, key_refl; reflexivity].
  split; cbn [counter].
  - intros k' m H. rewrite C in H. destruct (get_from st k') eqn:G'; [injection H as <-; apply (inv_lt st I) in G'; lia|]. destruct (key_eqb k k'); [injection H as <-; lia|discriminate].
  - intros a b m Ha Hb. rewrite C in Ha, Hb. destruct (get_from st a) eqn:Ga, (get_from st b) eqn:Gb.
    + injection Ha as ->. injection Hb as ->. eapply inv_inj; eassumption.
    + injection Ha as ->. destruct (key_eqb k b); [|discriminate]. injection Hb as <-. apply (inv_lt st I) in Ga. lia.
    + injection Hb as ->. destruct (key_eqb k a); [|discriminate]. injection Ha as <-. apply (inv_lt st I) in Gb. lia.
    + destruct (key_eqb k a) eqn:A; [|discriminate]. destruct (key_eqb k b) eqn:B; [|discriminate]. eapply key_trans; [apply key_sym; exact A|exact B].
Qed.
Lemma add_vars_length vs : forall st ns st', add_vars vs st = (ns, st') -> List.length ns = List.length vs.
Proof.
  induction vs as [|v vs IH]; intros st ns st' E; cbn in E; [injection E as <- <-; reflexivity|].
  destruct (add_to st (KVar v)) as [n s1]. destruct (add_vars vs s1) as [ms s2] eqn:B. injection E as <- <-. cbn. f_equal. eapply IH. exact B.
Qed.
Lemma add_vars_spec vs : forall st ns st', inv st -> add_vars vs st = (ns, st') -> ext st st' /\ inv st'.
Proof.
  induction vs as [|v vs IH]; intros st ns st' I E; cbn in E; [injection E as <- <-; split; [apply ext_refl|exact I]|].
  destruct (add_to st (KVar v)) as [n s1] eqn:A. destruct (add_vars vs s1) as [ms s2] eqn:B. injection E as <- <-.
  destruct (add_spec _ _ _ _ I A) as (X & I1 & _). destruct (IH _ _ _ I1 B) as (Y & I2). split; [eapply ext_trans; eassumption|exact I2].
Qed.

(** ** Scopes *)
Definition known (G : scope) (st : names_st) : Prop :=
  forall n o, In (n, o) G -> match o with Some g => get_from st (KForm g) = Some n | None => exists t, get_from st (KTerm t) = Some n end.
Definition covers (G : scope) (F : list form) : Prop := forall f, In f F -> exists n g, In (n, Some g) G /\ same g f.
Lemma known_ext G a b : ext a b -> known G a -> known G b.
Proof. intros X K n o H. specialize (K n o H). destruct o; [eapply get_ext; eassumption|]. destruct K as [t K]. exists t. eapply get_ext; eassumption. Qed.
Lemma same_trans a b c : same a b -> same b c -> same a c. Proof. apply form_eqb_trans. Qed.
Lemma same_refl a : same a a. Proof. apply form_eqb_refl. Qed.
Lemma same_sym a b : same a b -> same b a. Proof. apply form_sym. Qed.
Lemma stands_same G x f g : stands_for G x f -> same f g -> stands_for G x g.
Proof. intros (n & h & E & F & S) K. exists n, h. split; [exact E|]. split; [exact F|]. eapply same_trans; eassumption. Qed.
Lemma stands G st st' F f : inv st -> known G st -> covers G F -> available F f -> ext st st' -> stands_for G (get_from st' (KForm f)) f.
Proof.
  intros I K C (h & Hh & S) X. destruct (C h Hh) as (n & g & Hg & Sg). pose proof (K _ _ Hg) as Kg. cbn in Kg.
  assert (E : get_from st (KForm f) = Some n). { rewrite <- Kg. symmetry. apply get_same. cbn. eapply same_trans; eassumption. }
  rewrite (get_ext _ _ _ _ X E). exists n. assert (P : exists e, List.find (fun e => Nat.eqb (fst e) n) G = Some e).
  { destruct (List.find (fun e => Nat.eqb (fst e) n) G) eqn:Q; [eauto|]. apply (find_none _ _ Q) in Hg. cbn in Hg. rewrite Nat.eqb_refl in Hg. discriminate. }
  destruct P as [[m o] P]. rewrite P. apply find_some in P. destruct P as [P Q]. cbn in Q. apply Nat.eqb_eq in Q. subst m. pose proof (K _ _ P) as Ko. destruct o as [g'|].
  - exists g'. split; [reflexivity|]. split; [reflexivity|]. pose proof (inv_inj st I _ _ _ Ko E) as Y. exact Y.
  - destruct Ko as [t Ko]. pose proof (inv_inj st I _ _ _ Ko E) as Y. discriminate.
Qed.
Lemma add_forms_spec fs : forall st bs st' G F, inv st -> known G st -> covers G F -> add_forms fs st = (bs, st') ->
  ext st st' /\ inv st' /\ known (bind_all bs G) st' /\ covers (bind_all bs G) (F ++ fs) /\ Forall2 (fun b f => exists n, b = BForm n f) bs fs.
Proof.
  induction fs as [|f fs IH]; intros st bs st' G F I K C E; cbn in E.
  - injection E as <- <-. rewrite app_nil_r. unfold bind_all. cbn. split; [apply ext_refl|]. auto.
  - destruct (add_to st (KForm f)) as [n s1] eqn:A. destruct (add_forms fs s1) as [ms s2] eqn:B. injection E as <- <-.
    destruct (add_spec _ _ _ _ I A) as (X & I1 & N).
    destruct (IH s1 ms s2 ((n, Some f) :: G) (F ++ [f]) I1) as (Y & I2 & K2 & C2 & L); [| |exact B|].
    + intros m o [H|H]; [injection H as <- <-; exact N|]. eapply known_ext; eassumption.
    + intros g H. apply in_app_iff in H. destruct H as [H|[<-|[]]]; [destruct (C g H) as (m & h & P & Q); exists m, h; split; [right|]; assumption|].
      exists n, f. split; [left; reflexivity|apply same_refl].
    + split; [eapply ext_trans; eassumption|]. split; [exact I2|]. assert (R : bind_all ms ((n, Some f) :: G) = bind_all (BForm n f :: ms) G) by (unfold bind_all; cbn; rewrite <- app_assoc; reflexivity).
      rewrite R in K2, C2. rewrite <- app_assoc in C2. cbn in C2. split; [exact K2|]. split; [exact C2|]. constructor; eauto.
Qed.
Lemma bind_app a b G : bind_all (a ++ b) G = bind_all b (bind_all a G).
Proof. unfold bind_all. rewrite map_app, rev_app_distr, app_assoc. reflexivity. Qed.

(** ** The steps *)
Definition walk (s : sequent) (t : option term) (bind_term : bool) : nat -> list sequent -> names_st -> out (list (list binder * lp) * names_st) :=
  fix go (i : nat) (l : list sequent) (st : names_st) : out (list (list binder * lp) * names_st) :=
    match l with
    | [] => Ok ([], st)
    | k :: rest =>
      do p <- (if bind_term then add_term_to t st else Ok ([], st));
      do fs <- forms_of s i;
      let '(bs, st) := add_forms fs (snd p) in
      do a <- proof_step k st;
      do b <- go (S i) rest (snd a);
      Ok ((fst p ++ bs, fst a) :: fst b, snd b)
    end.
Lemma walk_nil s t b i st : walk s t b i [] st = Ok ([], st). Proof. reflexivity. Qed.
Lemma walk_cons s t b i k rest st : walk s t b i (k :: rest) st =
  (do p <- (if b then add_term_to t st else Ok ([], st));
   do fs <- forms_of s i;
   let '(bs, st) := add_forms fs (snd p) in
   do a <- proof_step k st;
   do b <- walk s t b (S i) rest (snd a);
   Ok ((fst p ++ bs, fst a) :: fst b, snd b)).
Proof. reflexivity. Qed.
Lemma step_eq s st : proof_step s st =
  (do f <- target_form s;
   match s_rule s with
   | AX => Ok (closure_axiom f st, st)
   | NNOT | AND | NOR | NIMP | OR | NAND | IMP | EQU | NEQU =>
     do args <- composing (s_rule s) f;
     do q <- walk s (s_term s) false 0 (s_kids s) st;
     Ok (LRule (s_rule s) [] args None (fst q) (get_from (snd q) (KForm f)), snd q)
   | EX | NALL =>
     do args <- composing (s_rule s) f;
     do a <- at_ args 0;
     let '(vs, st) := add_vars (quant_vars (s_rule s) f) st in
     do q <- walk s (s_term s) true 0 (s_kids s) st;
     Ok (LRule (s_rule s) vs [a] None (fst q) (get_from (snd q) (KForm f)), snd q)
   | ALL | NEX =>
     do args <- composing (s_rule s) f;
     do a <- at_ args 0;
     let '(vs, st) := add_vars (quant_vars (s_rule s) f) st in
     match s_term s with
     | None => Crash
     | Some u =>
       do q <- walk s (s_term s) false 0 (s_kids s) st;
       Ok (LRule (s_rule s) vs [a] (Some u) (fst q) (get_from (snd q) (KForm f)), snd q)
     end
   | W => Crash
   | NOT | R | REWRITE => Ok (LEmpty, st)
   end).
Proof. destruct s as [h r o w t fs ks p i]. destruct r; reflexivity. Qed.

Section Walk.
Variable P : scope -> lp -> Prop.
Definition good_step (F : list form) (k : sequent) : Prop := forall G st, inv st -> known G st -> covers G F ->
  exists t st', proof_step k st = Ok (t, st') /\ ext st st' /\ inv st' /\ P G t.
Lemma walk_ok s b F : (b = true -> s_term s <> None) -> forall ks fss i G st, skipn i (s_forms s) = fss ->
  Forall2 (fun fs k => good_step (F ++ fs) k) fss ks -> inv st -> known G st -> covers G F ->
  exists l st', walk s (s_term s) b i ks st = Ok (l, st') /\ ext st st' /\ inv st' /\ Forall (fun k => P (bind_all (fst k) G) (snd k)) l /\
    Forall2 (fun fs k => exists pre bs, fst k = pre ++ bs /\ (b = false -> pre = []) /\ (b = true -> exists n t, pre = [BTerm n t]) /\ Forall2 (fun b f => exists n, b = BForm n f) bs fs) fss l.
Proof.
  intros T. induction ks as [|k ks IH]; intros fss i G st E H I K C; inversion H as [|fs k' fss' ks' Hk Hr Ef]; rewrite ?walk_cons, ?walk_nil.
  - exists [], st. split; [reflexivity|]. split; [apply ext_refl|]. auto.
  - assert (N : nth_error (s_forms s) i = Some fs /\ skipn (S i) (s_forms s) = fss').
    { rewrite <- Ef in E. clear -E. revert E. generalize (s_forms s). induction i as [|i IH]; intros [|x l] E; cbn in *; try discriminate; [injection E as <- <-; auto|]. apply IH. exact E. }
    destruct N as [N N']. unfold forms_of. rewrite N.
    assert (Q : exists pre st1, (if b then add_term_to (s_term s) st else Ok ([], st)) = Ok (pre, st1) /\ ext st st1 /\ inv st1 /\ known (bind_all pre G) st1 /\ covers (bind_all pre G) F /\ (b = false -> pre = []) /\ (b = true -> exists n t, pre = [BTerm n t])).
    { destruct b.
      - destruct (s_term s) as [t|]; [|exfalso; apply T; reflexivity]. cbn [add_term_to]. destruct (add_to st (KTerm t)) as [n st1] eqn:A. destruct (add_spec _ _ _ _ I A) as (X & I1 & Nn).
        exists [BTerm n t], st1. split; [reflexivity|]. split; [exact X|]. split; [exact I1|]. split; [|split; [|split; [discriminate|eauto]]].
        + intros m o [Q|Q]; [injection Q as <- <-; eauto|]. eapply known_ext; eassumption.
        + intros g Hg. destruct (C g Hg) as (m & h & Q1 & Q2). exists m, h. split; [right|]; assumption.
      - exists [], st. split; [reflexivity|]. split; [apply ext_refl|]. repeat (split; auto). discriminate. }
    destruct Q as (pre & st1 & -> & X1 & I1 & K1 & C1 & Pre & Pre'). cbn [bind fst snd].
    destruct (add_forms fs st1) as [bs st2] eqn:A. destruct (add_forms_spec _ _ _ _ _ _ I1 K1 C1 A) as (X2 & I2 & K2 & C2 & L).
    destruct (Hk _ _ I2 K2 C2) as (t & st3 & -> & X3 & I3 & Pt). cbn [bind fst snd].
    assert (X : ext st st3) by eauto using ext_trans.
    destruct (IH fss' (S i) G st3 N' Hr I3 (known_ext _ _ _ X K) C) as (l & st4 & -> & X4 & I4 & Pl & Ll). cbn [bind fst snd].
    eexists _, _. split; [reflexivity|]. split; [eapply ext_trans; eassumption|]. split; [exact I4|]. split; constructor; cbn [fst snd]; auto.
    + rewrite bind_app. exact Pt.
    + exists pre, bs. auto.
Qed.
End Walk.

Lemma target_eq s f : target s f -> target_form s = Ok f.
Proof. unfold target, target_form. intros ->. reflexivity. Qed.
Ltac samef := unfold same; match goal with |- form_eqb ?a _ = true => exact (form_eqb_refl a) end.
Lemma alpha_composing r f l : alpha_of r f l -> exists args, composing r f = Ok args /\ match main_of r args with Some m => same f m | None => False end.
Proof. intros []; eexists; (split; [reflexivity|]); cbn [main_of child_forms at_ nth_error bind neg]; samef. Qed.
Lemma beta_composing r f l : beta_of r f l -> exists args, composing r f = Ok args /\ match main_of r args with Some m => same f m | None => False end.
Proof. intros []; eexists; (split; [reflexivity|]); cbn [main_of child_forms at_ nth_error bind neg]; samef. Qed.
Lemma forall2_all {A B} (P Q : A -> B -> Prop) l m : Forall2 P l m -> (forall a b, In b m -> P a b -> Q a b) -> Forall2 Q l m.
Proof. induction 1; intros H'; constructor; [apply H'; [left; reflexivity|assumption]|]. apply IHForall2. intros a b Hb. apply H'. right. exact Hb. Qed.

Lemma closure_ok s f G st F : s_rule s = AX -> target s f -> opposites F f -> inv st -> known G st -> covers G F ->
  proof_step s st = Ok (closure_axiom f st, st) /\ in_scope G (closure_axiom f st) /\ checks G (closure_axiom f st).
Proof.
  intros R T O I K C. rewrite step_eq, (target_eq _ _ T), R. split; [reflexivity|].
  pose proof (fun g => stands G st st F g I K C) as S. unfold opposites in O. destruct f; try contradiction; cbn [closure_axiom pos_and_neg].
  - destruct f; try contradiction.
    + destruct O as [O1 O2]. split; constructor; (eapply stands_same; [apply S; [eassumption|apply ext_refl]|samef]).
    + split; constructor; (eapply stands_same; [apply S; [eassumption|apply ext_refl]|samef]).
  - destruct O as [O1 O2]. split; constructor; (eapply stands_same; [apply S; [eassumption|apply ext_refl]|samef]).
  - split; constructor; (eapply stands_same; [apply S; [eassumption|apply ext_refl]|samef]).
Qed.
Lemma prop_step s f st : target s f -> (exists l, alpha_of (s_rule s) f l) \/ (exists l, beta_of (s_rule s) f l) ->
  exists args m, composing (s_rule s) f = Ok args /\ main_of (s_rule s) args = Some m /\ same f m /\
  proof_step s st = (do q <- walk s (s_term s) false 0 (s_kids s) st; Ok (LRule (s_rule s) [] args None (fst q) (get_from (snd q) (KForm f)), snd q)).
Proof.
  intros T H. rewrite step_eq, (target_eq _ _ T). cbn [bind].
  assert (X : exists args, composing (s_rule s) f = Ok args /\ match main_of (s_rule s) args with Some m => same f m | None => False end) by (destruct H as [[l H]|[l H]]; [eapply alpha_composing|eapply beta_composing]; exact H).
  destruct X as (args & E & M). destruct (main_of (s_rule s) args) as [m|] eqn:Em; [|contradiction]. exists args, m. split; [exact E|]. split; [exact Em|]. split; [exact M|]. rewrite E.
  destruct H as [[l H]|[l H]]; inversion H; reflexivity.
Qed.

Lemma binders_at b fss (l : list (list binder * lp)) :
  Forall2 (fun fs k => exists pre bs, fst k = pre ++ bs /\ (b = false -> pre = []) /\ (b = true -> exists n t, pre = [BTerm n t]) /\ Forall2 (fun b f => exists n, b = BForm n f) bs fs) fss l ->
  Forall (fun k => if b then exists n u l, fst k = BTerm n u :: l /\ Forall hypothesis l else Forall hypothesis (fst k)) l.
Proof.
  assert (F : forall bs (fs : list form), Forall2 (fun b f => exists n, b = BForm n f) bs fs -> Forall hypothesis bs) by (induction 1 as [|x y ? ? [n ->]]; constructor; [exact Logic.I|assumption]).
  induction 1 as [|fs k fss l (pre & bs & E & P1 & P2 & B) H IH]; constructor; [|exact IH]. rewrite E. destruct b; [destruct (P2 eq_refl) as (n & t & ->); exists n, t, bs|rewrite (P1 eq_refl)]; cbn; eauto.
Qed.
Theorem scope_ok s : forall F, printed_well F s -> good_step in_scope F s.
Proof.
  induction s as [s IH] using seq_ind'. rewrite Forall_forall in IH. intros F H G st I K C.
  assert (Pr : forall f, target s f -> available F f -> (exists l, alpha_of (s_rule s) f l) \/ (exists l, beta_of (s_rule s) f l) ->
    Forall2 (fun fs k => printed_well (F ++ fs) k) (s_forms s) (s_kids s) -> exists t st', proof_step s st = Ok (t, st') /\ ext st st' /\ inv st' /\ in_scope G t).
  { intros f T A Sh Hk. destruct (prop_step s f st T Sh) as (args & m & _ & M & Sm & ->).
    destruct (walk_ok in_scope s false F (fun X => False_ind _ (Bool.diff_false_true X)) (s_kids s) (s_forms s) 0%nat G st eq_refl) as (l & st' & -> & X & I' & Pl & _); auto.
    { eapply forall2_all; [exact Hk|]. intros fs k Hin Hw. apply IH; [exact Hin|exact Hw]. }
    cbn [bind fst snd]. eexists _, _. split; [reflexivity|]. split; [exact X|]. split; [exact I'|]. eapply Sc_rule; [exact M| |exact Pl].
    eapply stands_same; [exact (stands G st st' F f I K C A X)|exact Sm]. }
  inversion H as [? ? f R T O|? ? f l T A Al Hk|? ? f ls T A Be Hk|? ? f xs a T A Q Tm Hk]; subst.
  - destruct (closure_ok s f G st F R T O I K C) as (-> & S & _). eexists _, _. split; [reflexivity|]. split; [apply ext_refl|]. auto.
  - eapply Pr; eauto.
  - eapply Pr; eauto.
  - clear Pr. rewrite step_eq, (target_eq _ _ T). cbn [bind].
    destruct (add_vars (quant_vars (s_rule s) f) st) as [vs st1] eqn:V. destruct (add_vars_spec _ _ _ _ I V) as (X1 & I1).
    assert (W : forall b, exists l st', walk s (s_term s) b 0 (s_kids s) st1 = Ok (l, st') /\ ext st1 st' /\ inv st' /\ Forall (fun k => in_scope (bind_all (fst k) G) (snd k)) l /\
      Forall (fun k => if b then exists n u l, fst k = BTerm n u :: l /\ Forall hypothesis l else Forall hypothesis (fst k)) l).
    { intros b. destruct (walk_ok in_scope s b F (fun _ => Tm) (s_kids s) (s_forms s) 0%nat G st1 eq_refl) as (l & st' & E & X & I' & Pl & Lb); [|exact I1|exact (known_ext _ _ _ X1 K)|exact C|exists l, st'; repeat (split; [assumption|]); eapply binders_at; exact Lb].
      eapply forall2_all; [exact Hk|]. intros fs k Hin Hw. apply IH; [exact Hin|exact Hw]. }
    assert (St : forall st', ext st1 st' -> stands_for G (get_from st' (KForm f)) f) by (intros st' X; exact (stands G st st' F f I K C A (ext_trans _ _ _ X1 X))).
    destruct (s_rule s) eqn:R; cbn in Q; try contradiction.
    + destruct Q as (i & ->). cbn [composing child_forms bind at_ nth_error] in *. destruct (W true) as (l & st' & -> & X & I' & Pl & Lb). cbn [bind fst snd]. eexists _, _. split; [reflexivity|]. split; [eauto using ext_trans|]. split; [exact I'|].
      eapply Sc_quant; [cbn; eauto|exact (add_vars_length _ _ _ _ V)|apply St; exact X| |exact Pl]. eapply Forall_impl; [|exact Lb]. cbn. intros k' Hk'. split; [congruence|exact Hk'].
    + destruct Q as (i & ->). cbn [composing child_forms bind at_ nth_error] in *. destruct (W false) as (l & st' & E & X & I' & Pl & Lb). destruct (s_term s) as [u|] eqn:Eu; [|contradiction]. rewrite E. cbn [bind fst snd]. eexists _, _. split; [reflexivity|]. split; [eauto using ext_trans|]. split; [exact I'|].
      eapply Sc_quant; [cbn; eauto|exact (add_vars_length _ _ _ _ V)|apply St; exact X| |exact Pl]. eapply Forall_impl; [|exact Lb]. cbn. intros k' Hk'. split; [congruence|exact Hk'].
    + destruct Q as (i & j & ->). cbn [composing child_forms bind at_ nth_error] in *. destruct (W false) as (l & st' & E & X & I' & Pl & Lb). destruct (s_term s) as [u|] eqn:Eu; [|contradiction]. rewrite E. cbn [bind fst snd]. eexists _, _. split; [reflexivity|]. split; [eauto using ext_trans|]. split; [exact I'|].
      eapply Sc_quant; [cbn; eauto|exact (add_vars_length _ _ _ _ V)|apply St; exact X| |exact Pl]. eapply Forall_impl; [|exact Lb]. cbn. intros k' Hk'. split; [congruence|exact Hk'].
    + destruct Q as (i & j & ->). cbn [composing child_forms bind at_ nth_error] in *. destruct (W true) as (l & st' & -> & X & I' & Pl & Lb). cbn [bind fst snd]. eexists _, _. split; [reflexivity|]. split; [eauto using ext_trans|]. split; [exact I'|].
      eapply Sc_quant; [cbn; eauto|exact (add_vars_length _ _ _ _ V)|apply St; exact X| |exact Pl]. eapply Forall_impl; [|exact Lb]. cbn. intros k' Hk'. split; [congruence|exact Hk'].
Qed.

(** ** The type checker *)
Lemma len2 {A} (l : list A) : List.length l = 2%nat -> exists a b, l = [a; b].
Proof. destruct l as [|a [|b [|c l]]]; try discriminate. eauto. Qed.
Lemma len1 {A} (l : list A) : List.length l = 1%nat -> exists a, l = [a].
Proof. destruct l as [|a [|b l]]; try discriminate. eauto. Qed.
(** the premises of the constant are the components *)
Lemma alpha_const r f l args : alpha_of r f l -> (r = NNOT \/ List.length l = 2%nat) -> composing r f = Ok args -> exists m, const_type r args = Some (m, [l]) /\ same f m.
Proof.
  intros H L E. inversion H; subst; cbn in E; injection E as <-.
  - destruct L as [L|L]; [discriminate|]. apply len2 in L. destruct L as (a & b & ->). eexists. split; [reflexivity|]. samef.
  - destruct L as [L|L]; [discriminate|]. rewrite map_length in L. apply len2 in L. destruct L as (a & b & ->). eexists. split; [reflexivity|]. samef.
  - eexists. split; [reflexivity|]. samef.
  - eexists. split; [reflexivity|]. samef.
Qed.
Lemma beta_const r f ls args : beta_of r f ls -> List.length ls = 2%nat -> composing r f = Ok args -> exists m, const_type r args = Some (m, ls) /\ same f m.
Proof.
  intros H L E. inversion H; subst; cbn in E; injection E as <-; try (eexists; split; [reflexivity|]; samef).
  - rewrite map_length in L. apply len2 in L. destruct L as (a & b & ->). eexists. split; [reflexivity|]. samef.
  - rewrite map_length in L. apply len2 in L. destruct L as (a & b & ->). eexists. split; [reflexivity|]. samef.
Qed.
Lemma binds_same l : forall fs bs, Forall2 same l fs -> Forall2 (fun b f => exists n, b = BForm n f) bs fs -> Forall2 binds bs l.
Proof.
  induction l as [|a l IH]; intros fs bs H K; inversion H; subst; inversion K; subst; constructor; [|eapply IH; eassumption].
  match goal with Q : exists n, _ = BForm n _ |- _ => destruct Q as [n ->] end. cbn. apply same_sym. assumption.
Qed.
Lemma premises_binds ls : forall fss (l : list (list binder * lp)), Forall2 (Forall2 same) ls fss ->
  Forall2 (fun fs k => exists pre bs, fst k = pre ++ bs /\ (false = false -> pre = []) /\ Forall2 (fun b f => exists n, b = BForm n f) bs fs) fss l ->
  Forall2 (fun p k => Forall2 binds (fst k) p) ls l.
Proof.
  induction ls as [|a ls IH]; intros fss l H K; inversion H; subst; inversion K; subst; constructor; [|eapply IH; eassumption].
  match goal with Q : exists pre bs, _ |- _ => destruct Q as (pre & bs & -> & E & B) end. rewrite (E eq_refl). cbn. eapply binds_same; eassumption.
Qed.
Theorem checks_ok s : forall F, propositional F s -> good_step checks F s.
Proof.
  induction s as [s IH] using seq_ind'. rewrite Forall_forall in IH. intros F H G st I K C.
  assert (Pr : forall f ls, target s f -> available F f -> (exists l, alpha_of (s_rule s) f l) \/ (exists l, beta_of (s_rule s) f l) ->
    (forall args, composing (s_rule s) f = Ok args -> exists m, const_type (s_rule s) args = Some (m, ls) /\ same f m) ->
    Forall2 (Forall2 same) ls (s_forms s) ->
    Forall2 (fun fs k => propositional (F ++ fs) k) (s_forms s) (s_kids s) -> exists t st', proof_step s st = Ok (t, st') /\ ext st st' /\ inv st' /\ checks G t).
  { intros f ls T A Sh Co Sa Hk. destruct (prop_step s f st T Sh) as (args & m0 & Ea & _ & _ & ->). destruct (Co args Ea) as (m & M & Sm).
    destruct (walk_ok checks s false F (fun X => False_ind _ (Bool.diff_false_true X)) (s_kids s) (s_forms s) 0%nat G st eq_refl) as (l & st' & -> & X & I' & Pl & L); auto.
    { eapply forall2_all; [exact Hk|]. intros fs k Hin Hw. apply IH; [exact Hin|exact Hw]. }
    cbn [bind fst snd]. eexists _, _. split; [reflexivity|]. split; [exact X|]. split; [exact I'|]. eapply Ck_rule; [exact M| | |exact Pl].
    - eapply stands_same; [exact (stands G st st' F f I K C A X)|exact Sm].
    - eapply premises_binds; [exact Sa|]. eapply forall2_all; [exact L|]. intros fs k _ (pre & bs & E & P1 & _ & B). exists pre, bs. auto. }
  inversion H as [? ? f R T O|? ? f l T A Al L Sa Hk|? ? f ls T A Be L Sa Hk]; subst.
  - destruct (closure_ok s f G st F R T O I K C) as (-> & _ & S). eexists _, _. split; [reflexivity|]. split; [apply ext_refl|]. auto.
  - eapply (Pr f [l]); eauto. intros args E. eapply alpha_const; eassumption.
  - eapply (Pr f ls); eauto. intros args E. eapply beta_const; eassumption.
Qed.
