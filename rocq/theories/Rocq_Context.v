(** The declarations of a Rocq script. *)
From Coq Require Import ZArith List Bool String Lia.
From Verif Require Import Ast_Model Ast_Proofs Sem_Spec Occ_Spec Rocq_Model Rocq_Spec.
Import ListNotations.
Open Scope list_scope.
Open Scope Z_scope.

Lemma ty_refl t : ty_eqb t t = true.
Proof. apply ty_eqb_reflect. apply same_ty_refl. Qed.
Lemma decl_refl d : decl_eqb d d = true.
Proof. unfold decl_eqb. rewrite String.eqb_refl, ty_refl. reflexivity. Qed.

Section Context.
Variables (id_eq : Z) (env : string -> option ty).
Notation term_decls := (term_decls env).
Notation form_decls := (form_decls id_eq env).
Notation tu := (type_of_use env).
Definition of_use (u : string * bool * nat) : decl := (fst (fst u), tu u).
(** two declarations that [decl_eqb] takes for the same are the same, for the declarations of symbols *)
Definition wf (d : decl) : Prop := exists u, d = of_use u.
Lemma repeat_eqb a n : forall m, list_eqb ty_eqb (repeat a n) (repeat a m) = true -> n = m.
Proof. induction n as [|n IH]; intros [|m] H; try discriminate; [reflexivity|]. cbn in H. apply andb_prop in H. f_equal. apply IH, H. Qed.
Lemma wf_eqb d e : wf d -> wf e -> decl_eqb d e = true -> d = e.
Proof.
  intros ([[s p] n] & ->) ([[s' p'] n'] & ->) H. unfold decl_eqb, of_use in H. cbn [fst snd] in H. apply andb_prop in H. destruct H as [E T]. apply String.eqb_eq in E. subst s'. unfold of_use. cbn [fst]. f_equal. cbn [type_of_use] in *. destruct (env s); [reflexivity|].
  unfold arrow in *. destruct (Nat.eqb n 0) eqn:E1, (Nat.eqb n' 0) eqn:E2; cbn in T; try (destruct p, p'; discriminate).
  - destruct p, p'; (reflexivity || discriminate).
  - apply andb_prop in T. destruct T as [T1 T2]. apply repeat_eqb in T1. subst. destruct p, p'; (reflexivity || discriminate).
Qed.
Definition good (l : list decl) : Prop := NoDup l /\ Forall wf l.
Lemma clean_in set add d : Forall wf set -> Forall wf add -> In d (clean_decls set add) <-> In d add /\ ~ In d set.
Proof.
  intros S A. unfold clean_decls. rewrite filter_In, negb_true_iff. split; intros [H K]; (split; [exact H|]).
  - intros Q. apply not_true_iff_false in K. apply K. apply existsb_exists. exists d. split; [exact Q|apply decl_refl].
  - apply not_true_iff_false. rewrite existsb_exists. intros (e & He & E). rewrite Forall_forall in S, A. rewrite (wf_eqb d e (A d H) (S e He) E) in K. contradiction.
Qed.
Lemma nodup_filter {A} (q : A -> bool) l : NoDup l -> NoDup (filter q l).
Proof. induction 1 as [|a l N H IH]; cbn; [constructor|]. destruct (q a); [constructor; [rewrite filter_In; tauto|exact IH]|exact IH]. Qed.
Lemma clean_good set add : Forall wf set -> good add -> good (clean_decls set add).
Proof. intros S [N W]. split; [apply nodup_filter, N|]. apply Forall_forall. intros d H. apply filter_In in H. rewrite Forall_forall in W. apply W, H. Qed.
Lemma join_good a b : good a -> good b -> good (a ++ clean_decls a b) /\ forall d, In d (a ++ clean_decls a b) <-> In d a \/ In d b.
Proof.
  intros A B. pose proof (clean_good a b (proj2 A) B) as C. split.
  - split; [|apply Forall_app; split; [apply A|apply C]]. destruct A as [NA WA], C as [NC WC]. clear -NA NC WA B. revert NC. assert (D : forall d, In d (clean_decls a b) -> ~ In d a) by (intros d H; apply clean_in in H; [apply H|exact WA|apply B]). revert D. generalize (clean_decls a b). clear WA B.
    induction NA as [|x a N H IH]; intros l D NL; cbn; [exact NL|]. constructor; [rewrite in_app_iff; intros [K|K]; [contradiction|]; apply (D x K); left; reflexivity|]. apply IH; [|exact NL]. intros d Hd K. apply (D d Hd). right. exact K.
  - intros d. rewrite in_app_iff, clean_in by (apply A || apply B). split; [tauto|]. intros [H|H]; [auto|]. destruct (existsb (decl_eqb d) a) eqn:E.
    + left. apply existsb_exists in E. destruct E as (e & He & E). rewrite (wf_eqb d e); [exact He| | |exact E]; [apply (proj1 (Forall_forall _ _) (proj2 B) d H)|apply (proj1 (Forall_forall _ _) (proj2 A) e He)].
    + right. split; [exact H|]. intros Q. apply not_true_iff_false in E. apply E. apply existsb_exists. exists d. split; [exact Q|apply decl_refl].
Qed.
Lemma add_good {A} (f : A -> list decl) (us : A -> list (string * bool * nat)) l :
  (forall x, In x l -> good (f x) /\ forall d, In d (f x) <-> In d (map of_use (us x))) ->
  forall start, good start -> good (add_decls f l start) /\ forall d, In d (add_decls f l start) <-> In d start \/ In d (map of_use (flat_map us l)).
Proof.
  induction l as [|x l IH]; intros H start S; cbn [add_decls fold_left]; [split; [exact S|]; intros d; cbn; tauto|].
  destruct (H x (or_introl eq_refl)) as [G E]. destruct (join_good start (f x) S G) as [G1 E1]. destruct (IH (fun y Hy => H y (or_intror Hy)) _ G1) as [G2 E2]. split; [exact G2|].
  intros d. unfold add_decls in E2. rewrite E2, E1, E. cbn [flat_map]. rewrite map_app, in_app_iff. tauto.
Qed.
Lemma term_good t : good (term_decls t) /\ forall d, In d (term_decls t) <-> In d (map of_use (t_uses t)).
Proof.
  induction t as [i|p tys l IH| |] using term_ind'; try (split; [split; constructor|]; intros d; cbn; tauto).
  cbn [Rocq_Model.term_decls t_uses]. rewrite Forall_forall in IH.
  destruct (add_good term_decls t_uses l IH [of_use (id_name p, false, List.length l)]) as [G E]; [split; [constructor; [intros []|constructor]|constructor; [eexists; reflexivity|constructor]]|].
  assert (Q : of_use (id_name p, false, List.length l) = (id_name p, match env (id_name p) with Some ty => ty | None => function_type (List.length l) end)) by (unfold of_use; cbn; destruct (env (id_name p)); [reflexivity|]; destruct l; reflexivity).
  rewrite <- Q. split; [exact G|]. intros d. rewrite E. cbn [map In]. tauto.
Qed.
Lemma form_good f : good (form_decls f) /\ forall d, In d (form_decls f) <-> In d (map of_use (f_uses id_eq f)).
Proof.
  assert (Z : good []) by (split; constructor).
  assert (N : forall (l : list decl), clean_decls [] l = l) by (intros l; unfold clean_decls; cbn; induction l as [|x l IH]; cbn; [reflexivity|]; f_equal; exact IH).
  unfold f_uses. induction f as [i vs f IH|i vs f IH|i l IH|i l IH|i a b IHa IHb|i a b IHa IHb|i f IH|i p tys l|i|i] using form_ind'; cbn [Rocq_Model.form_decls f_collect]; rewrite ?N; try exact IH; try (split; [exact Z|]; intros d; cbn; tauto).
  all: try (destruct IHa as [Ga Ea], IHb as [Gb Eb]; destruct (join_good _ _ Ga Gb) as [G E]; split; [exact G|]; intros d; rewrite E, Ea, Eb, map_app, in_app_iff; tauto).
  all: try (rewrite Forall_forall in IH; destruct (add_good _ _ l IH [] Z) as [G E]; split; [exact G|]; intros d; rewrite E; cbn [In]; tauto).
  assert (Q : of_use (id_name p, true, List.length l) = (id_name p, match env (id_name p) with Some ty => ty | None => pred_type (List.length l) end)) by (unfold of_use; cbn; destruct (env (id_name p)); [reflexivity|]; destruct l; reflexivity).
  rewrite <- Q. destruct (id_index p =? id_eq).
  - destruct (add_good term_decls t_uses l (fun x _ => term_good x) [] Z) as [G E]. split; [exact G|]. intros d. rewrite E. cbn [app In]. tauto.
  - destruct (add_good term_decls t_uses l (fun x _ => term_good x) [of_use (id_name p, true, List.length l)]) as [G E]; [split; [constructor; [intros []|constructor]|constructor; [eexists; reflexivity|constructor]]|].
    split; [exact G|]. intros d. rewrite E. cbn [app map In]. tauto.
Qed.
(** the declarations are those of the symbols that are used, each once *)
Theorem context_uses reg root : NoDup (context id_eq env reg root) /\
  forall s t, In (s, t) (context id_eq env reg root) <-> exists f p n, In f (match reg with Some l => l ++ [root] | None => [root] end) /\ In (s, p, n) (f_uses id_eq f) /\ t = tu (s, p, n).
Proof.
  unfold context. destruct (form_good (match reg with Some l => And 0 (l ++ [root]) | None => root end)) as [[N _] E]. split; [exact N|].
  intros s t. rewrite E, in_map_iff. split.
  - intros ([[s' p] n] & Q & H). injection Q as <- <-. destruct reg as [l|].
    + unfold f_uses in H. cbn [f_collect] in H. apply in_flat_map in H. destruct H as (f & Hf & H). exists f, p, n. auto.
    + exists root, p, n. cbn. auto.
  - intros (f & p & n & Hf & H & ->). exists (s, p, n). split; [reflexivity|]. destruct reg as [l|].
    + unfold f_uses. cbn [f_collect]. apply in_flat_map. exists f. split; [exact Hf|exact H].
    + destruct Hf as [<-|[]]. exact H.
Qed.
(** with one declaration for each name, Rocq accepts them *)
Theorem context_accepted reg root known :
  let uses := flat_map (f_uses id_eq) (match reg with Some l => l ++ [root] | None => [root] end) in
  (forall s p n, In (s, p, n) uses -> ~ In s known /\ type_ok known (tu (s, p, n))) ->
  (forall s p n p' n', In (s, p, n) uses -> In (s, p', n') uses -> tu (s, p, n) = tu (s, p', n')) ->
  decls_ok known (context id_eq env reg root).
Proof.
  intros uses H1 H2. destruct (context_uses reg root) as [N E].
  assert (U : forall s t, In (s, t) (context id_eq env reg root) -> exists p n, In (s, p, n) uses /\ t = tu (s, p, n)) by (intros s t H; apply E in H; destruct H as (f & p & n & Hf & H & ->); exists p, n; split; [apply in_flat_map; exists f; auto|reflexivity]).
  assert (M : forall k k' t, (forall x, In x k -> In x k') -> type_ok k t -> type_ok k' t).
  { intros k k' t I. induction t as [n| | |s l IH|l IH|a b IHa IHb|vs b IHb] using ty_ind'; cbn [type_ok]; try tauto.
    - intros [Hs Hl]. split; [rewrite in_app_iff in *; destruct Hs as [Hs|Hs]; [left; exact Hs|right; apply I, Hs]|]. revert Hl. induction IH as [|a r Ha _ IHr]; [tauto|]. intros [P Q]. split; [apply Ha, P|apply IHr, Q].
    - induction IH as [|a r Ha _ IHr]; [tauto|]. intros [P Q]. split; [apply Ha, P|apply IHr, Q]. }
  clear E. assert (A : forall s t, In (s, t) (context id_eq env reg root) -> type_ok known t) by (intros s t H; destruct (U s t H) as (p & n & K & ->); apply (H1 s p n K)).
  assert (B : forall s t, In (s, t) (context id_eq env reg root) -> ~ In s known) by (intros s t H; destruct (U s t H) as (p & n & K & ->); apply (H1 s p n K)).
  assert (C : forall s t t', In (s, t) (context id_eq env reg root) -> In (s, t') (context id_eq env reg root) -> t = t') by (intros s t t' H H'; destruct (U s t H) as (p & n & K & ->), (U s t' H') as (p' & n' & K' & ->); exact (H2 s p n p' n' K K')).
  clear U H1 H2. revert N known A B C M. generalize (context id_eq env reg root). clear. induction l as [|[s t] r IH]; intros N known A B C M; cbn [decls_ok]; [exact Logic.I|].
  apply NoDup_cons_iff in N. destruct N as [N1 N2]. split; [apply (B s t); left; reflexivity|]. split; [apply (A s t); left; reflexivity|]. apply IH; [exact N2| | |intros s' t1 t2 H H'; apply (C s'); right; assumption|exact M].
  - intros s' t' H. apply (M known); [intros x Hx; right; exact Hx|]. apply (A s' t'). right. exact H.
  - intros s' t' H [->|K]; [|apply (B s' t' (or_intror H) K)]. apply N1. rewrite (C s' t t'); [exact H|left; reflexivity|right; exact H].
Qed.
End Context.
