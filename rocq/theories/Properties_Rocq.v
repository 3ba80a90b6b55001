(** C99-C102: a GS3 proof printed as a Rocq script. *)
From Coq Require Import ZArith String List Bool Lia Classical.
From Verif Require Import Ast_Model Sem_Spec Occ_Spec Unif_Model GsTerm_Spec GsProof_Model GsProof_Spec GsProof_Witness Tptp_Model Tptp_Spec Tptp_Witness
  Rocq_Model Rocq_Spec Rocq_Sound Rocq_Proofs Rocq_Ends Rocq_Context Rocq_Witness.
Import ListNotations.
Open Scope list_scope.
Open Scope Z_scope.

(** C99 is false: a conjunction of three formulas *)
Theorem C99_refuted : exists c s, gs3 [neg c] s /\ begins s [] c s /\ rejected s [] c.
Proof. exact (ex_intro _ three (ex_intro _ three_root (conj three_gs3 (conj (Be_goal three_root 0 three eq_refl) three_rejected)))). Qed.
Print Assumptions C99_refuted.
(** a constant of the problem has a name with sko in it *)
Theorem C99_name_refuted : exists t, gs3 [neg (instance t)] (inst_root t) /\ begins (inst_root t) [] (instance t) (inst_root t) /\ rejected (inst_root t) [] (instance t) /\ exists p, t = Fun p [] [].
Proof. exact (ex_intro _ risko (conj (inst_gs3 _ _) (conj (inst_begins _) (conj risko_rejected (ex_intro _ _ eq_refl))))). Qed.
Print Assumptions C99_name_refuted.
(** a term with type arguments; its name is well chosen *)
Theorem C99_types_refuted : exists t, gs3 [neg (instance t)] (inst_root t) /\ begins (inst_root t) [] (instance t) (inst_root t) /\ rejected (inst_root t) [] (instance t) /\
  exists p tys, t = Fun p tys [] /\ has_sko (id_name p) = false.
Proof. exact (ex_intro _ poly (conj (inst_gs3 _ _) (conj (inst_begins _) (conj poly_rejected (ex_intro _ _ (ex_intro _ _ (conj eq_refl eq_refl))))))). Qed.
Print Assumptions C99_types_refuted.
(** a Skolem term introduced twice on a branch *)
Theorem C99_skolem_refuted : exists c s, gs3 [neg c] s /\ begins s [] c s /\ rejected s [] c /\ every plain_terms s.
Proof. exact (ex_intro _ again (ex_intro _ again_root (conj again_gs3 (conj again_begins (conj again_rejected again_plain))))). Qed.
Print Assumptions C99_skolem_refuted.
(** a constant of the problem is hidden by the constant of a quantifier without occurrences *)
Theorem C99_hidden_refuted : exists c s globals base, gs3 [neg c] s /\ begins s [] c s /\
  NoDup (map (fun x => id_name (fst x)) globals) /\ (forall x n, In (x, false, n) (f_uses 1 c) -> exists p, In (p, n) globals /\ id_name p = x) /\
  exists st ts, rocq 1 [] s = Ok (st, ts) /\ forall cong, ~ accepted cong globals base st ts.
Proof.
  destruct hide_rejected as (g & b & N & A & B & R). exists hide, hide_root, g, b. split; [exact hide_gs3|]. split; [exact (Be_goal hide_root 0 hide eq_refl)|]. split; [exact N|]. split; [|exact R].
  intros x n H. cbn in H. repeat match goal with K : _ \/ _ |- _ => destruct K as [K|K] | K : False |- _ => destruct K end; inversion H; subst; exists (mkId 63 "x0"); split; [exact B|reflexivity].
Qed.
Print Assumptions C99_hidden_refuted.
(** elsewhere the script is accepted as a proof of the statement *)
Theorem C99_partial id_eq cong globals base registered s axs c k :
  (forall l a b, In a l -> In b l -> same (neg a) b -> cong l = true) -> declared base globals -> begins s axs c k ->
  Rocq_Spec.ok globals base [] ((axs ++ registered) ++ [neg c]) k ->
  exists ts, rocq id_eq registered s = Ok (imp_chain (axs ++ registered) (neg (neg c)), ts) /\
             accepted cong globals base (imp_chain (axs ++ registered) (neg (neg c))) ts.
Proof. exact (rocq_accepted id_eq cong globals base registered s axs c k). Qed.
Print Assumptions C99_partial.
Example C99_case : (forall l a b, In a l -> In b l -> same (neg a) b -> opposite l = true) /\ declared 100 good_globals /\ begins good_root [ax1; ax2] Tptp_Witness.goal k0 /\
  Rocq_Spec.ok good_globals 100 [] (([ax1; ax2] ++ []) ++ [neg Tptp_Witness.goal]) k0 /\ exists st ts, rocq 1 [] good_root = Ok (st, ts) /\ List.length ts = 8%nat.
Proof. exact (conj opposite_closes (conj good_declared (conj good_begins (conj good_rocq_ok good_script)))). Qed.

(** a rewriting is printed with the rule it uses and the formula it rewrites, which is replaced by the result *)
Theorem C99_rewrite_partial id_eq s f w hyps created d t hs c' d' : s_rule s = REWRITE -> target s f -> is_equal id_eq f = false -> nth_error (s_hyps s) (s_rew s) = Some w ->
  Rocq_Model.make_step id_eq s hyps created d = Ok (t, hs, c', d') ->
  exists i j hi hj g l h, t = TRewrite i j /\ nth_error hyps i = Some hi /\ same w hi /\ nth_error hyps j = Some hj /\ same f hj /\
    nth_error (s_forms s) 0 = Some (g :: l) /\ hs = [h] /\ List.length h = List.length hyps /\ nth_error h j = Some g /\ (forall k, k <> j -> nth_error h k = nth_error hyps k) /\ c' = created /\ d' = d.
Proof. exact (rewrite_printed id_eq s f w hyps created d t hs c' d'). Qed.
Print Assumptions C99_rewrite_partial.
Example C99_rewrite_case : let s := Seq [Equ 0 (p1 a0) (q1 a0); p1 a0; no (q1 a0)] REWRITE 1 0 None [[q1 a0]] [] gs_zero 0 in
  target s (p1 a0) /\ is_equal 1 (p1 a0) = false /\ exists c d, Rocq_Model.make_step 1 s [Equ 0 (p1 a0) (q1 a0); p1 a0; no (q1 a0)] [] 0 = Ok (TRewrite 0 1, [[Equ 0 (p1 a0) (q1 a0); q1 a0; no (q1 a0)]], c, d).
Proof. split; [reflexivity|]. split; [reflexivity|]. vm_compute. eexists _, _. reflexivity. Qed.

(** C100: a script that is accepted proves the conjecture from the axioms *)
Theorem C100 id_eq cong globals base registered s st ts axs c k :
  (forall l, cong l = true -> forall I (v : val I), real_eq id_eq I -> (forall f, In f l -> holds f v) -> False) ->
  (forall p n, In (p, n) globals -> id_index p < base) -> below base st -> begins s axs c k ->
  rocq id_eq registered s = Ok (st, ts) -> accepted cong globals base st ts ->
  forall I v, real_eq id_eq I -> (forall f, In f (axs ++ registered) -> holds (I := I) f v) -> holds c v.
Proof. exact (rocq_sound id_eq cong globals base registered s st ts axs c k). Qed.
Print Assumptions C100.
Example C100_case : (forall l, opposite l = true -> forall I (v : val I), real_eq 1 I -> (forall f, In f l -> holds f v) -> False) /\
  (forall p n, In (p, n) good_globals -> id_index p < 100) /\ begins good_root [ax1; ax2] Tptp_Witness.goal k0 /\
  exists st ts, rocq 1 [] good_root = Ok (st, ts) /\ accepted opposite good_globals 100 st ts /\ below 100 st.
Proof.
  split; [|split; [intros p n H; apply (proj2 (proj2 good_declared) p n H)|exact (conj good_begins good_accepted)]].
  intros l H I v _ A. apply existsb_exists in H. destruct H as (a & Ha & H). apply existsb_exists in H. destruct H as (b & Hb & H).
  pose proof (A a Ha) as Ta. pose proof (A b Hb) as Tb. apply (Rules_Proofs.form_eqb_equiv _ _ H) in Tb. exact (Tb Ta).
Qed.
(** the lemmas of the preamble (context.go:181-249) that the steps apply *)
Theorem C100_preamble :
  (forall P : Prop, P -> (~ P -> False)) /\ (~ True -> False) /\
  (forall P Q : Prop, (P -> (Q -> False)) -> (P /\ Q -> False)) /\
  (forall P Q : Prop, (P -> False) -> (Q -> False) -> (P \/ Q -> False)) /\
  (forall P Q : Prop, (~ P -> False) -> (Q -> False) -> ((P -> Q) -> False)) /\
  (forall P Q : Prop, (~ P -> ~ Q -> False) -> (P -> Q -> False) -> ((P <-> Q) -> False)) /\
  (forall P Q : Prop, (~ P -> False) -> (~ Q -> False) -> (~ (P /\ Q) -> False)) /\
  (forall P Q : Prop, (~ P -> ~ Q -> False) -> (~ (P \/ Q) -> False)) /\
  (forall P Q : Prop, (P -> ~ Q -> False) -> (~ (P -> Q) -> False)) /\
  (forall P Q : Prop, (~ P -> Q -> False) -> (P -> ~ Q -> False) -> (~ (P <-> Q) -> False)) /\
  (forall (T : Type) (P : T -> Prop), (forall z : T, P z -> False) -> ((exists x : T, P x) -> False)) /\
  (forall (T : Type) (P : T -> Prop) (t : T), (P t -> False) -> ((forall x : T, P x) -> False)) /\
  (forall (T : Type) (P : T -> Prop) (t : T), (~ P t -> False) -> (~ (exists x : T, P x) -> False)) /\
  (forall (T : Type) (P : T -> Prop), (forall z : T, ~ P z -> False) -> (~ (forall x : T, P x) -> False)).
Proof. exact preamble_lemmas. Qed.
Print Assumptions C100_preamble.

(** C101 is false: the problem has axioms and no conjecture *)
Theorem C101_refuted : exists f s, gs3 [f] s /\ target s f /\ rocq 1 [] s = Crash.
Proof. exact (ex_intro _ only_axioms (ex_intro _ axioms_root (conj axioms_gs3 (conj eq_refl axioms_stop)))). Qed.
Print Assumptions C101_refuted.
(** one axiom and no conjecture *)
Theorem C101_lone_refuted : exists f s, gs3 [f] s /\ target s f /\ (forall i l, f <> And i l) /\ rocq 1 [] s = Crash.
Proof. exists lone, lone_root. split; [exact lone_gs3|]. split; [reflexivity|]. split; [discriminate|exact lone_stop]. Qed.
Print Assumptions C101_lone_refuted.
(** with a conjecture, a proof is printed *)
Theorem C101_partial id_eq registered s axs c k : begins s axs c k -> gs3 ((axs ++ registered) ++ [neg c]) k -> every plain_terms k ->
  exists st ts, rocq id_eq registered s = Ok (st, ts).
Proof. exact (rocq_ends_gs3 id_eq registered s axs c k). Qed.
Print Assumptions C101_partial.
Example C101_case : begins again_root [] again again_root /\ gs3 ((@nil form ++ []) ++ [neg again]) again_root /\ every plain_terms again_root.
Proof. exact (conj again_begins (conj again_gs3 again_plain)). Qed.
(** terms may be forgotten, and the formulas need not be those of the rules *)
Theorem C101_tree_partial id_eq registered s axs c k : begins s axs c k -> shown ((axs ++ registered) ++ [neg c]) k -> exists st ts, rocq id_eq registered s = Ok (st, ts).
Proof. exact (rocq_ends id_eq registered s axs c k). Qed.
Print Assumptions C101_tree_partial.
Example C101_tree_case : begins good_root [ax1; ax2] Tptp_Witness.goal k0 /\ shown (([ax1; ax2] ++ []) ++ [neg Tptp_Witness.goal]) k0.
Proof. exact (conj good_begins good_shown). Qed.

(** C102 is false: a predicate is used with two numbers of arguments *)
Theorem C102_refuted : exists root, (forall s p p' n n', In (s, p, n) (f_uses 1 root) -> In (s, p', n') (f_uses 1 root) -> p = p') /\ ~ decls_ok preamble (context 1 no_env None root).
Proof.
  exists two_arities. split; [|exact two_arities_bad]. intros s p p' n n' H H'. cbn in H, H'.
  repeat match goal with K : _ \/ _ |- _ => destruct K as [K|K] | K : False |- _ => destruct K end; inversion H; subst; inversion H'; subst; reflexivity.
Qed.
Print Assumptions C102_refuted.
(** a name is that of a predicate and of a function *)
Theorem C102_kind_refuted : exists root, (forall s p p' n n', In (s, p, n) (f_uses 1 root) -> In (s, p', n') (f_uses 1 root) -> n = n') /\ ~ decls_ok preamble (context 1 no_env None root).
Proof.
  exists two_kinds. split; [|exact two_kinds_bad]. intros s p p' n n' H H'. cbn in H, H'.
  repeat match goal with K : _ \/ _ |- _ => destruct K as [K|K] | K : False |- _ => destruct K end; inversion H; subst; inversion H'; subst; reflexivity.
Qed.
Print Assumptions C102_kind_refuted.
(** a constant of the problem has the name of one of the preamble *)
Theorem C102_name_refuted : exists root, (forall s p p' n n', In (s, p, n) (f_uses 1 root) -> In (s, p', n') (f_uses 1 root) -> p = p' /\ n = n') /\ ~ decls_ok preamble (context 1 no_env None root).
Proof.
  exists own_name. split; [|exact own_name_bad]. intros s p p' n n' H H'. cbn in H, H'.
  repeat match goal with K : _ \/ _ |- _ => destruct K as [K|K] | K : False |- _ => destruct K end; inversion H; subst; inversion H'; subst; split; reflexivity.
Qed.
Print Assumptions C102_name_refuted.
(** a type of the problem is not declared *)
Theorem C102_type_refuted : exists env root, (forall s p n, In (s, p, n) (f_uses 1 root) -> ~ In s preamble /\ env s <> None) /\ ~ decls_ok preamble (context 1 env None root).
Proof.
  exists typed_env, typed_root. split; [|exact typed_bad]. intros s p n H. cbn in H.
  repeat match goal with K : _ \/ _ |- _ => destruct K as [K|K] | K : False |- _ => destruct K end; inversion H; subst; (split; [intros Q; cbn in Q; repeat (destruct Q as [Q|Q]; [discriminate|]); destruct Q|discriminate]).
Qed.
Print Assumptions C102_type_refuted.
(** the declarations are those of the symbols used, each line once *)
Theorem C102_lines id_eq env reg root : NoDup (context id_eq env reg root) /\
  forall s t, In (s, t) (context id_eq env reg root) <->
    exists f p n, In f (match reg with Some l => l ++ [root] | None => [root] end) /\ In (s, p, n) (f_uses id_eq f) /\ t = type_of_use env (s, p, n).
Proof. exact (context_uses id_eq env reg root). Qed.
Print Assumptions C102_lines.
Example C102_lines_case : context 1 no_env None decl_root =
  [("p"%string, arrow 2 (TyConstr "$o" [])); ("f"%string, arrow 2 (TyConstr "$i" [])); ("a"%string, TyConstr "$i" [])].
Proof. reflexivity. Qed.
(** with one type for a name, known types and no name of the preamble, Rocq accepts the declarations *)
Theorem C102_partial id_eq env reg root known :
  let uses := flat_map (f_uses id_eq) (match reg with Some l => l ++ [root] | None => [root] end) in
  (forall s p n, In (s, p, n) uses -> ~ In s known /\ type_ok known (type_of_use env (s, p, n))) ->
  (forall s p n p' n', In (s, p, n) uses -> In (s, p', n') uses -> type_of_use env (s, p, n) = type_of_use env (s, p', n')) ->
  decls_ok known (context id_eq env reg root).
Proof. exact (context_accepted id_eq env reg root known). Qed.
Print Assumptions C102_partial.
Example C102_case : (forall s p n, In (s, p, n) decl_uses -> ~ In s preamble /\ type_ok preamble (type_of_use no_env (s, p, n))) /\
  (forall s p n p' n', In (s, p, n) decl_uses -> In (s, p', n') decl_uses -> type_of_use no_env (s, p, n) = type_of_use no_env (s, p', n')) /\
  List.length (context 1 no_env None decl_root) = 3%nat.
Proof. exact decl_cond. Qed.
