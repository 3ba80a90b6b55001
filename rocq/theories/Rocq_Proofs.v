(** The printed scripts are accepted. *)
From Coq Require Import ZArith List Bool String Ascii Lia.
From Verif Require Import Ast_Model Ast_Proofs Sem_Spec Occ_Spec Free_Spec Rename_Final Unif_Model GsTerm_Spec GsProof_Model GsProof_Spec GsProof_Fresh Tptp_Model Tptp_Spec Tptp_Rep Tptp_Rules Tptp_Proofs Rocq_Model Rocq_Spec.
Import ListNotations.
Open Scope list_scope.
Open Scope Z_scope.

(** ** Names *)
Lemma prefix_ex a s : String.prefix a s = true -> exists b, s = (a ++ b)%string.
Proof.
  revert s. induction a as [|c a IH]; intros s H; [exists s; reflexivity|]. destruct s as [|c' s]; [discriminate|]. cbn in H. destruct (ascii_dec c c') as [->|]; [|discriminate].
  destruct (IH s H) as [b ->]. exists b. reflexivity.
Qed.
Lemma prefix_app a b : String.prefix a (a ++ b) = true.
Proof. induction a as [|c a IH]; cbn; [destruct b; reflexivity|]. destruct (ascii_dec c c); [exact IH|contradiction]. Qed.
Lemma has_sko_ok s : has_sko s = true <-> sko_name s.
Proof.
  split.
  - induction s as [|c s IH]; intros H; [discriminate|]. cbn [has_sko] in H. apply orb_prop in H. destruct H as [H|H].
    + apply prefix_ex in H. destruct H as [b H]. exists EmptyString, b. exact H.
    + destruct (IH H) as (a & b & ->). exists (String c a), b. reflexivity.
  - intros (a & b & ->). induction a as [|c a IH].
    + change (EmptyString ++ "sko" ++ b)%string with ("sko" ++ b)%string. assert (H := prefix_app "sko" b). destruct ("sko" ++ b)%string eqn:E; [discriminate E|]. cbn [has_sko]. rewrite H. reflexivity.
    + change ((String c a ++ "sko" ++ b)%string) with (String c (a ++ "sko" ++ b)%string). cbn [has_sko]. rewrite IH. apply orb_true_r.
Qed.
Lemma has_sko_no s : ~ sko_name s -> has_sko s = false.
Proof. intros N. destruct (has_sko s) eqn:E; [|reflexivity]. apply has_sko_ok in E. contradiction. Qed.
Lemma digits_no_sko s : all_digits s = true -> has_sko s = false.
Proof.
  induction s as [|c s IH]; intros H; [reflexivity|]. cbn [all_digits] in H. apply andb_prop in H. destruct H as [H1 H2]. cbn [has_sko]. rewrite (IH H2), orb_false_r. cbn [String.prefix]. destruct (ascii_dec "s" c) as [<-|]; [discriminate H1|reflexivity].
Qed.
Lemma dummy_no_sko k : 0 <= k -> ~ sko_name ("x" ++ dec k)%string.
Proof. intros K H. apply has_sko_ok in H. cbn [append has_sko] in H. rewrite (digits_no_sko _ (dec_digits k K)) in H. discriminate H. Qed.
Lemma dummy_inj k k' : 0 <= k -> 0 <= k' -> ("x" ++ dec k)%string = ("x" ++ dec k')%string -> k = k'.
Proof. intros A B E. cbn in E. injection E as E. exact (dec_inj _ _ A B E). Qed.

(** ** Skolem terms as local constants *)
Definition cst (c : ident) : term := Fun c [] [].
Definition tr (sg : list (Z * ident)) (f : form) : form := fold_right (fun x f => frep (fst x) (cst (snd x)) f) f sg.
Definition trt (sg : list (Z * ident)) (t : term) : term := fold_right (fun x t => trep (fst x) (cst (snd x)) t) t sg.
Lemma tr_alpha sg r f l : alpha_of r f l -> alpha_of r (tr sg f) (map (tr sg) l).
Proof. intros H. induction sg as [|x sg IH]; cbn [tr fold_right]; [rewrite map_id; exact H|]. apply (frep_alpha (fst x) (cst (snd x))) in IH. rewrite map_map in IH. exact IH. Qed.
Lemma tr_beta sg r f ls : beta_of r f ls -> beta_of r (tr sg f) (map (map (tr sg)) ls).
Proof.
  intros H. induction sg as [|x sg IH]; cbn [tr fold_right].
  - assert (E : map (map (fun f : form => f)) ls = ls) by (rewrite <- (map_id ls) at 2; apply map_ext; intros a; apply map_id). cbn [tr] in *. unfold tr. cbn [fold_right]. rewrite E. exact H.
  - apply (frep_beta (fst x) (cst (snd x))) in IH. rewrite map_map in IH. rewrite (map_ext _ (map (tr (x :: sg)))) in IH; [exact IH|]. intros a. cbn beta. rewrite map_map. reflexivity.
Qed.
Lemma tr_gamma sg r f v b u x : gamma_by r f v b u x -> gamma_by r (tr sg f) v (tr sg b) (trt sg u) (tr sg x).
Proof. intros H. induction sg as [|y sg IH]; cbn [tr trt fold_right]; [exact H|]. apply frep_gamma; [reflexivity|exact IH]. Qed.
Lemma tr_delta sg r f v b u x : delta_by r f v b u x -> delta_by r (tr sg f) v (tr sg b) (trt sg u) (tr sg x).
Proof. intros H. induction sg as [|y sg IH]; cbn [tr trt fold_right]; [exact H|]. apply frep_delta; [reflexivity|exact IH]. Qed.
Lemma tr_same sg f g : same f g -> same (tr sg f) (tr sg g).
Proof. intros H. induction sg as [|y sg IH]; cbn [tr fold_right]; [exact H|]. apply frep_same, IH. Qed.
Lemma tr_neg sg i f : tr sg (Not i f) = Not i (tr sg f).
Proof. induction sg as [|y sg IH]; cbn [tr fold_right]; [reflexivity|]. unfold tr in IH. rewrite IH. reflexivity. Qed.
Lemma tr_bot sg i : tr sg (Bot i) = Bot i.
Proof. induction sg as [|y sg IH]; cbn [tr fold_right]; [reflexivity|]. unfold tr in IH. rewrite IH. reflexivity. Qed.
Lemma tr_top sg i : tr sg (Top i) = Top i.
Proof. induction sg as [|y sg IH]; cbn [tr fold_right]; [reflexivity|]. unfold tr in IH. rewrite IH. reflexivity. Qed.
Lemma tr_clean sg f v b : clean v b (rest_vars f) -> clean v (tr sg b) (rest_vars (tr sg f)).
Proof. intros H. induction sg as [|y sg IH]; cbn [tr fold_right]; [exact H|]. unfold clean. rewrite frep_binders, frep_rest. exact IH. Qed.
Lemma tr_funs sg f i : In i (f_funs (tr sg f)) -> In i (f_funs f) \/ exists x, In x sg /\ id_index (snd x) = i.
Proof.
  induction sg as [|y sg IH]; cbn [tr fold_right]; [auto|]. intros H. apply frep_funs in H. destruct H as [H|[H|[]]].
  - destruct (IH H) as [K|(x & A & B)]; [auto|]. right. exists x. cbn. auto.
  - right. exists y. cbn. auto.
Qed.
Lemma tr_syms sg f p : In p (f_syms (tr sg f)) -> In p (f_syms f) \/ exists x, In x sg /\ snd x = p.
Proof.
  induction sg as [|y sg IH]; cbn [tr fold_right]; [auto|]. intros H. apply frep_syms in H. destruct H as [H|[H|[]]].
  - destruct (IH H) as [K|(x & A & B)]; [auto|]. right. exists x. cbn. auto.
  - right. exists y. cbn. auto.
Qed.
(** a symbol that does not occur *)
Lemma tr_drop s1 x s2 f : ~ In (fst x) (f_funs f) -> (forall y, In y s2 -> id_index (snd y) <> fst x) -> tr (s1 ++ x :: s2) f = tr (s1 ++ s2) f.
Proof.
  intros N D. unfold tr. rewrite !fold_right_app. cbn [fold_right]. f_equal. apply frep_id. intros K. apply (tr_funs s2) in K. destruct K as [K|(y & A & B)]; [contradiction|]. exact (D y A B).
Qed.
Lemma trt_other sg p tys l : ~ In (id_index p) (map fst sg) -> trt sg (Fun p tys l) = Fun p tys (map (trt sg) l).
Proof.
  induction sg as [|y sg IH]; cbn [trt fold_right map]; intros N; [f_equal; symmetry; apply map_id|]. unfold trt in IH. rewrite IH by (intros K; apply N; right; exact K). cbn [trep].
  destruct (id_index p =? fst y) eqn:E; [apply Z.eqb_eq in E; exfalso; apply N; left; auto|]. rewrite map_map. reflexivity.
Qed.
Lemma trt_const sg c : ~ In (id_index c) (map fst sg) -> trt sg (cst c) = cst c.
Proof. intros N. unfold cst. rewrite trt_other by exact N. reflexivity. Qed.
Lemma trt_here sg p c tys l : NoDup (map fst sg) -> (forall x y, In x sg -> In y sg -> id_index (snd x) <> fst y) -> In (id_index p, c) sg -> trt sg (Fun p tys l) = cst c.
Proof.
  induction sg as [|y sg IH]; intros ND D H; [destruct H|]. cbn [map] in ND. apply NoDup_cons_iff in ND. destruct ND as [N ND]. cbn [trt fold_right]. destruct H as [->|H].
  - cbn [fst snd] in *. fold (trt sg (Fun p tys l)). rewrite (trt_other sg p tys l N). cbn [trep]. rewrite Z.eqb_refl. reflexivity.
  - fold (trt sg (Fun p tys l)). rewrite IH; [|exact ND|intros a b A B; apply D; right; assumption|exact H]. cbn [cst trep].
    destruct (id_index c =? fst y) eqn:E; [|reflexivity]. apply Z.eqb_eq in E. exfalso. exact (D (id_index p, c) y (or_intror H) (or_introl eq_refl) E).
Qed.
(** symbols up to indices *)
Lemma list_eqb_flat {A B} (e : A -> A -> bool) (g : A -> list B) l : Forall (fun a => forall b, e a b = true -> g a = g b) l -> forall m, list_eqb e l m = true -> flat_map g l = flat_map g m.
Proof. induction 1 as [|a l Ha Hl IH]; intros [|b m] E; try discriminate; [reflexivity|]. cbn in E. apply andb_prop in E. destruct E. cbn. rewrite (Ha b), (IH m); auto. Qed.
Definition t_ix (t : term) : list Z := map id_index (t_syms t).
Definition f_ix (f : form) : list Z := map id_index (f_syms f).
Lemma map_flat {A B C} (g : B -> C) (h : A -> list B) l : map g (flat_map h l) = flat_map (fun x => map g (h x)) l.
Proof. induction l as [|a l IH]; cbn; [reflexivity|]. rewrite map_app, IH. reflexivity. Qed.
Lemma t_ix_eqb t : forall u, term_eqb t u = true -> t_ix t = t_ix u.
Proof.
  induction t as [x|p tys l IH|x m|m] using term_ind'; intros [y|q tys' l'|y m'|m'] E; try discriminate; try reflexivity; unfold t_ix; cbn in E |- *.
  - unfold id_eqb in E. apply Z.eqb_eq in E. f_equal. exact E.
  - rewrite !andb_true_iff in E. destruct E as [[E1 E2] E3]. unfold id_eqb in E1. apply Z.eqb_eq in E1. rewrite E1. f_equal. rewrite !map_flat. exact (list_eqb_flat term_eqb t_ix l IH l' E3).
Qed.
Lemma f_ix_eqb f : forall g, same f g -> f_ix f = f_ix g.
Proof.
  unfold same, f_ix, f_syms. induction f using form_ind'; intros [] E; try discriminate; cbn in E |- *; rewrite ?andb_true_iff in E; rewrite ?map_app; try reflexivity; try (apply IHf; tauto); try (f_equal; [apply IHf1|apply IHf2]; tauto).
  all: rewrite !map_flat.
  all: try (apply (list_eqb_flat form_eqb); [exact H|exact E]).
  apply (list_eqb_flat term_eqb); [|tauto]. apply Forall_forall. intros t _ u. apply t_ix_eqb.
Qed.

(** ** The goal and the branch *)
Section Accept.
Variables (id_eq : Z) (cong : list form -> bool) (globals : list (ident * nat)) (base : Z).
Hypothesis Hcong : forall l a b, In a l -> In b l -> same (neg a) b -> cong l = true.
Hypothesis Hdecl : declared base globals.
Notation run := (run cong globals).
Notation exec := (exec cong globals).
Notation ok := (Rocq_Spec.ok globals base).
Notation follow := (Rocq_Model.follow id_eq).
Definition is_top (f : form) : Prop := match f with Top _ => True | _ => False end.
Definition tied (g : goal) (t : term) (x : Z * ident) : Prop :=
  exists p tys args, t = Fun p tys args /\ id_index p = fst x /\ id_name p = id_name (snd x) /\ sko_name (id_name p) /\ id_index p < base <= id_index (snd x) /\
    id_index (snd x) < g_next g /\ In (snd x) (g_vars g) /\ ~ In (id_index p) (map (fun x => id_index (fst x)) globals).
Record rel (C : list term) (sg : list (Z * ident)) (hyps : list form) (g : goal) (d : Z) : Prop := mkRel {
  r_tied : Forall2 (tied g) C sg;
  r_fst : NoDup (map fst sg);
  r_snd : NoDup (map (fun x => id_index (snd x)) sg);
  r_names : NoDup (map head_name C);
  r_vars : NoDup (map id_name (g_vars g));
  r_which : forall c, In c (g_vars g) -> In (id_name c) (map head_name C) \/ exists k, 0 <= k < d /\ id_name c = ("x" ++ dec k)%string;
  r_here : forall n f, nth_error hyps n = Some f -> is_top f \/ exists h, hyp g n = Some h /\ same (tr sg f) h;
  r_back : forall n h, In (n, h) (g_hyps g) -> exists f, nth_error hyps n = Some f /\ same (tr sg f) h;
  r_base : base <= g_next g;
  r_false : is_false (g_concl g) = true;
  r_d : 0 <= d }.

Lemma rel_d C sg hyps g d d' : d <= d' -> rel C sg hyps g d -> rel C sg hyps g d'.
Proof. intros L [A1 A2 A3 A4 A5 A6 A7 A8 A9 A10 A11]. split; auto; [|lia]. intros c Hc. destruct (A6 c Hc) as [K|(k & K & E)]; [auto|]. right. exists k. split; [lia|exact E]. Qed.
Lemma hyp_in2 g n f : hyp g n = Some f -> In (n, f) (g_hyps g).
Proof.
  unfold hyp. destruct (find (fun x => Nat.eqb (fst x) n) (g_hyps g)) as [[m h]|] eqn:E; [|discriminate]. intros H. injection H as <-. apply find_some in E. destruct E as [A B]. cbn in B. apply Nat.eqb_eq in B. subst. exact A.
Qed.
Lemma hyp_fresh C sg hyps g d n : rel C sg hyps g d -> (List.length hyps <= n)%nat -> hyp g n = None.
Proof.
  intros R L. destruct (hyp g n) as [h|] eqn:E; [|reflexivity]. apply hyp_in2 in E. destruct (r_back _ _ _ _ _ R _ _ E) as (f & F & _). pose proof (proj1 (nth_error_Some hyps n)) as K. rewrite F in K. specialize (K ltac:(discriminate)). lia.
Qed.
Lemma hyp_push n f g m : hyp (push n f g) m = if Nat.eqb n m then Some f else hyp g m.
Proof. unfold hyp, push. cbn. destruct (Nat.eqb n m); reflexivity. Qed.
Lemma tied_more g g' t x : g_next g <= g_next g' -> incl (g_vars g) (g_vars g') -> tied g t x -> tied g' t x.
Proof. intros A B (p & tys & args & E & H1 & H2 & H3 & H4 & H5 & H6 & H7). exists p, tys, args. repeat split; auto; try tauto. lia. Qed.
(** introducing hypotheses *)
Lemma rel_push C sg hyps g d f h : rel C sg hyps g d -> same (tr sg f) h -> rel C sg (hyps ++ [f]) (push (List.length hyps) h g) d.
Proof.
  intros R S. destruct R as [A1 A2 A3 A4 A5 A6 A7 A8 A9 A10 A11]. split; auto.
  - intros n x Hx. rewrite hyp_push. destruct (Nat.eqb (List.length hyps) n) eqn:E.
    + apply Nat.eqb_eq in E. subst n. rewrite nth_error_app2, Nat.sub_diag in Hx by lia. injection Hx as <-. right. eauto.
    + apply Nat.eqb_neq in E. destruct (Nat.lt_ge_cases n (List.length hyps)) as [L|L].
      * rewrite nth_error_app1 in Hx by exact L. auto.
      * rewrite nth_error_app2 in Hx by exact L. destruct (n - List.length hyps)%nat as [|k] eqn:K; [lia|]. cbn in Hx. destruct k; discriminate Hx.
  - intros n x [E|H].
    + injection E as <- <-. exists f. rewrite nth_error_app2, Nat.sub_diag by lia. auto.
    + destruct (A8 n x H) as (y & Y1 & Y2). exists y. split; [|exact Y2]. rewrite nth_error_app1; [exact Y1|]. apply nth_error_Some. rewrite Y1. discriminate.
Qed.
Lemma intro_rel C sg d fs : forall hs hyps g, rel C sg hyps g d -> Forall2 (fun f h => same (tr sg f) h) fs hs ->
  exists g', intro_all (seq (List.length hyps) (List.length fs)) hs g = Some g' /\ rel C sg (hyps ++ fs) g' d.
Proof.
  induction fs as [|f fs IH]; intros hs hyps g R H; inversion H as [|? h ? hs' S H']; subst; cbn [seq List.length intro_all].
  - exists g. rewrite app_nil_r. auto.
  - rewrite (hyp_fresh _ _ _ _ _ _ R (le_n _)). destruct (IH hs' (hyps ++ [f]) _ (rel_push _ _ _ _ _ _ _ R S) H') as (g' & E & R'). exists g'.
    rewrite app_length in E. cbn [List.length] in E. rewrite Nat.add_1_r in E. split; [exact E|]. rewrite <- app_assoc in R'. exact R'.
Qed.
(** finding the formula of a step *)
Lemma find_hyp C sg hyps g d f : rel C sg hyps g d -> available hyps f -> exists i, index_of f hyps = Some i /\ (is_top f \/ exists h, hyp g i = Some h /\ same (tr sg f) h).
Proof.
  intros R A. destruct (get_ok f hyps A) as (i & h & E & N & S). unfold get in E. destruct (index_of f hyps) as [i'|] eqn:Ei; [|discriminate]. injection E as ->. exists i. split; [reflexivity|].
  destruct (r_here _ _ _ _ _ R i h N) as [T|(x & X1 & X2)].
  - left. destruct f; try discriminate; destruct h; try contradiction; try discriminate; exact Logic.I.
  - right. exists x. split; [exact X1|]. eapply same_trans; [apply tr_same, S|exact X2].
Qed.
Lemma avail_hyp C sg hyps g d f : rel C sg hyps g d -> available hyps f -> is_top f \/ exists h, In h (map snd (g_hyps g)) /\ same (tr sg f) h.
Proof.
  intros R A. destruct (find_hyp _ _ _ _ _ _ R A) as (i & _ & [T|(h & H1 & H2)]); [auto|]. right. exists h. split; [|exact H2]. apply hyp_in2 in H1. change h with (snd (i, h)). apply in_map, H1.
Qed.
(** the lemmas *)
Lemma two {A} (l : list A) : List.length l = 2%nat -> exists a b, l = [a; b].
Proof. destruct l as [|a [|b [|]]]; try discriminate. eauto. Qed.
Definition alpha_tac (r : rule) : string := match r with AND => "goeland_and_s" | NOR => "goeland_notor_s" | NIMP => "goeland_notimply_s" | _ => "" end.
Definition beta_tac (r : rule) : string := match r with OR => "goeland_or_s" | NAND => "goeland_notand_s" | IMP => "goeland_imply_s" | EQU => "goeland_equiv_s" | NEQU => "goeland_notequiv_s" | _ => "" end.
Ltac F2 := repeat match goal with H : Forall2 _ [] _ |- _ => inversion H; subst; clear H | H : Forall2 _ (_ :: _) _ |- _ => inversion H; subst; clear H end.
Lemma alpha_found r f l h : alpha_of r f l -> (r = NNOT \/ List.length l = 2%nat) -> same f h -> exists m, alpha_lemma (alpha_tac r) h = Some m /\ Forall2 same l m.
Proof.
  intros A L S. destruct A as [i l|i j l|i j a b|i j a].
  - destruct L as [L|L]; [discriminate|]. destruct (two _ L) as (a & b & ->). apply inv_and in S. destruct S as (j & m & -> & S). F2. eexists. split; [reflexivity|]. repeat constructor; assumption.
  - destruct L as [L|L]; [discriminate|]. rewrite map_length in L. destruct (two _ L) as (a & b & ->). apply inv_not in S. destruct S as (k & m & -> & S). apply inv_or in S. destruct S as (k' & m' & -> & S). F2. eexists. split; [reflexivity|]. repeat constructor; apply same_neg; assumption.
  - apply inv_not in S. destruct S as (k & m & -> & S). apply inv_imp in S. destruct S as (k' & a' & b' & -> & S1 & S2). eexists. split; [reflexivity|]. repeat constructor; [|apply same_neg]; assumption.
  - apply inv_not in S. destruct S as (k & m & -> & S). apply inv_not in S. destruct S as (k' & a' & -> & S). eexists. split; [reflexivity|]. repeat constructor; assumption.
Qed.
Lemma beta_found r f ls h : beta_of r f ls -> List.length ls = 2%nat -> same f h -> exists m, beta_lemma (beta_tac r) h = Some m /\ Forall2 (Forall2 same) ls m.
Proof.
  intros A L S. destruct A as [i l|i j l|i a b|i a b|i j a b].
  - rewrite map_length in L. destruct (two _ L) as (a & b & ->). apply inv_or in S. destruct S as (j & m & -> & S). F2. eexists. split; [reflexivity|]. repeat constructor; assumption.
  - rewrite map_length in L. destruct (two _ L) as (a & b & ->). apply inv_not in S. destruct S as (k & m & -> & S). apply inv_and in S. destruct S as (k' & m' & -> & S). F2. eexists. split; [reflexivity|]. repeat constructor; apply same_neg; assumption.
  - apply inv_imp in S. destruct S as (k' & a' & b' & -> & S1 & S2). eexists. split; [reflexivity|]. repeat constructor; try apply same_neg; assumption.
  - apply inv_equ in S. destruct S as (k' & a' & b' & -> & S1 & S2). eexists. split; [reflexivity|]. repeat constructor; try apply same_neg; assumption.
  - apply inv_not in S. destruct S as (k & m & -> & S). apply inv_equ in S. destruct S as (k' & a' & b' & -> & S1 & S2). eexists. split; [reflexivity|]. repeat constructor; try apply same_neg; assumption.
Qed.
(** the terms *)
Lemma var_names C sg hyps g d c : rel C sg hyps g d -> In c (g_vars g) -> sko_name (id_name c) \/ exists k, 0 <= k /\ id_name c = ("x" ++ dec k)%string.
Proof.
  intros R H. destruct (r_which _ _ _ _ _ R c H) as [K|(k & K & E)]; [|right; exists k; split; [lia|exact E]]. left. apply in_map_iff in K. destruct K as (t & <- & Ht).
  assert (T : forall C sg, Forall2 (tied g) C sg -> In t C -> exists x, tied g t x). { induction 1; intros []; subst; eauto. }
  destruct (T _ _ (r_tied _ _ _ _ _ R) Ht) as (x & p & tys & args & -> & _ & _ & S & _). exact S.
Qed.
Lemma find_unique {A} (nm : A -> string) l a : NoDup (map nm l) -> In a l -> find (fun c => String.eqb (nm c) (nm a)) l = Some a.
Proof.
  induction l as [|b l IH]; intros ND H; [destruct H|]. cbn in *. apply NoDup_cons_iff in ND. destruct ND as [N ND]. destruct H as [->|H]; [rewrite String.eqb_refl; reflexivity|].
  destruct (String.eqb (nm b) (nm a)) eqn:E; [|auto]. apply String.eqb_eq in E. exfalso. apply N. rewrite E. apply in_map, H.
Qed.
Lemma find_no {A} (nm : A -> string) l s : (forall a, In a l -> nm a <> s) -> find (fun c => String.eqb (nm c) s) l = None.
Proof. induction l as [|b l IH]; intros H; [reflexivity|]. cbn. destruct (String.eqb (nm b) s) eqn:E; [apply String.eqb_eq in E; exfalso; exact (H b (or_introl eq_refl) E)|]. apply IH. intros a Ha. apply H. right. exact Ha. Qed.
Lemma global_resolve C sg hyps g d p n : rel C sg hyps g d -> In (p, n) globals -> ~ sko_name (id_name p) ->
  find (fun c => String.eqb (id_name c) (id_name p)) (g_vars g) = None /\ find (fun x => String.eqb (id_name (fst x)) (id_name p)) globals = Some (p, n).
Proof.
  intros R H N. destruct Hdecl as (D1 & _ & D3). split.
  - apply find_no. intros c Hc E. destruct (var_names _ _ _ _ _ _ R Hc) as [S|(k & K & E')]; [rewrite E in S; contradiction|]. apply (proj2 (D3 p n H) k K). rewrite <- E. exact E'.
  - exact (find_unique (fun x : ident * nat => id_name (fst x)) globals (p, n) D1 H).
Qed.
Lemma f2_in {A B} (P : A -> B -> Prop) l m a : Forall2 P l m -> In a l -> exists b, In b m /\ P a b.
Proof. induction 1 as [|x y l m H HF IH]; intros []; subst; [exists y; cbn; auto|]. destruct IH as (b & B1 & B2); auto. exists b. cbn. auto. Qed.
Lemma f2_in2 {A B} (P : A -> B -> Prop) l m b : Forall2 P l m -> In b m -> exists a, In a l /\ P a b.
Proof. induction 1 as [|x y l m H HF IH]; intros []; subst; [exists x; cbn; auto|]. destruct IH as (a & B1 & B2); auto. exists a. cbn. auto. Qed.
Lemma sg_apart C sg g : Forall2 (tied g) C sg -> forall x y, In x sg -> In y sg -> id_index (snd x) <> fst y.
Proof.
  intros T x y Hx Hy. destruct (f2_in2 _ _ _ _ T Hx) as (? & _ & p & tys & args & _ & _ & _ & _ & P & _). destruct (f2_in2 _ _ _ _ T Hy) as (? & _ & q & tys' & args' & _ & Q1 & _ & _ & Q & _). lia.
Qed.
Lemma nth_names p tys l q tys' l' C : NoDup (map head_name C) -> In (Fun p tys l) C -> In (Fun q tys' l') C -> id_name p = id_name q -> Fun p tys l = Fun q tys' l'.
Proof.
  induction C as [|t C IH]; intros ND A B E; [destruct A|]. cbn in ND. apply NoDup_cons_iff in ND. destruct ND as [N ND]. destruct A as [->|A], B as [B|B]; auto.
  - exfalso. apply N. cbn. rewrite E. apply (in_map head_name) in B. exact B.
  - subst t. exfalso. apply N. cbn. rewrite <- E. apply (in_map head_name) in A. exact A.
Qed.
Definition go_names (created : list term) :=
  fix go (l : list term) : out (list pterm) := match l with [] => Ok [] | a :: r => do a <- real_name created a; do r <- go r; Ok (a :: r) end.
Definition go_resolve (vars : list ident) :=
  fix go (l : list pterm) : option (list term) :=
    match l with [] => Some [] | a :: r => match resolve globals vars a, go r with Some a, Some r => Some (a :: r) | _, _ => None end end.
Lemma real_name_fun created p tys l : real_name created (Fun p tys l) = if has_sko (id_name p) then find_in created (Fun p tys l) else do l <- go_names created l; Ok (PT (id_name p) l).
Proof. reflexivity. Qed.
Lemma resolve_pt vars s l : resolve globals vars (PT s l) =
  match find (fun c => String.eqb (id_name c) s) vars with
  | Some c => match l with [] => Some (Fun c [] []) | _ => None end
  | None => match find (fun x => String.eqb (id_name (fst x)) s) globals with
            | Some (p, n) => if Nat.eqb (List.length l) n then match go_resolve vars l with Some l => Some (Fun p [] l) | None => None end else None
            | None => None end end.
Proof. reflexivity. Qed.
Lemma term_named C sg hyps g d created : rel C sg hyps g d -> incl C created -> forall u, printable globals C u ->
  exists pt, real_name created u = Ok pt /\ resolve globals (g_vars g) pt = Some (trt sg u) /\ t_vars (trt sg u) = [] /\ t_tyvars (trt sg u) = [].
Proof.
  intros R I. induction u as [x|p tys l IH|x m|m] using term_ind'; intros P; inversion P as [? ? ? tys' l' S H E|? ? N H F]; subst.
  - exists (PT (id_name p) []). rewrite real_name_fun, (proj2 (has_sko_ok _) S). unfold find_in, been_created.
    replace (existsb _ created) with true by (symmetry; apply existsb_exists; exists (Fun p tys' l'); split; [apply I, H|exact E]).
    destruct (f2_in _ _ _ _ (r_tied _ _ _ _ _ R) H) as ([ix c] & Hx & q & tq & lq & Eq & X1 & X2 & X3 & X4 & X5 & X6 & X7). injection Eq as <- <- <-. cbn [fst snd] in *. subst ix.
    rewrite (trt_here sg p c tys l (r_fst _ _ _ _ _ R) (sg_apart _ _ _ (r_tied _ _ _ _ _ R)) Hx). split; [reflexivity|]. rewrite resolve_pt. rewrite X2. rewrite (find_unique id_name _ _ (r_vars _ _ _ _ _ R) X6). auto.
  - rewrite real_name_fun, (has_sko_no _ N).
    assert (Q : ~ In (id_index p) (map fst sg) -> exists ps, go_names created l = Ok ps /\ List.length ps = List.length l /\ go_resolve (g_vars g) ps = Some (map (trt sg) l) /\ flat_map t_vars (map (trt sg) l) = [] /\ flat_map t_tyvars (map (trt sg) l) = []).
    { intros _. clear H P. induction l as [|a l IHl]; [exists []; cbn; auto|]. inversion IH as [|? ? Ia Il]; subst. inversion F as [|? ? Fa Fl]; subst. destruct (Ia Fa) as (pt & A1 & A2 & A3 & A4). destruct (IHl Il Fl) as (ps & B1 & B2 & B3 & B4 & B5).
      exists (pt :: ps). cbn [go_names go_resolve map flat_map List.length]. rewrite A1. cbn [bind]. rewrite B1. cbn [bind]. rewrite A2, B3, A3, A4, B2. cbn [app]. auto. }
    assert (NP : ~ In (id_index p) (map fst sg)).
    { intros K. apply in_map_iff in K. destruct K as (x & E & Hx). destruct (f2_in2 _ _ _ _ (r_tied _ _ _ _ _ R) Hx) as (t & _ & q & tq & lq & _ & X1 & _ & _ & _ & _ & _ & X7). apply X7. apply in_map_iff. exists (p, List.length l). split; [cbn; congruence|exact H]. }
    destruct (Q NP) as (ps & B1 & B2 & B3 & B4 & B5). exists (PT (id_name p) ps). rewrite B1. cbn [bind]. split; [reflexivity|]. rewrite (trt_other sg p [] l NP). rewrite resolve_pt.
    destruct (global_resolve _ _ _ _ _ p _ R H N) as [G1 G2]. rewrite G1, G2, B2, Nat.eqb_refl, B3. cbn [t_vars t_tyvars]. rewrite B4, B5. auto.
Qed.
(** *** the printing of a sequent *)
Definition fgo (hs : option (list (list form))) (hyps : list form) (created : list term) :=
  fix go (i : nat) (l : list sequent) (d : Z) : out (list tactic * Z) :=
    match l with
    | [] => Ok ([], d)
    | k :: r =>
      do h <- match hs with None => Ok hyps | Some hs => at_ hs i end;
      do a <- follow k h created d;
      do b <- go (S i) r (snd a);
      Ok (fst a ++ fst b, snd b)
    end.
Lemma follow_eq s hyps created d : follow s hyps created d =
  do p <- (if is_empty s then Ok ([], None, created, d)
           else do x <- make_step id_eq s hyps created d; let '(t, hs, c, d) := x in Ok ([t], Some hs, c, d));
  let '(ts, hs, created, d) := p in
  do q <- fgo hs hyps created 0 (s_kids s) d;
  Ok (ts ++ fst q, snd q).
Proof. destruct s; reflexivity. Qed.
Lemma target_not_empty s f : target s f -> is_empty s = false.
Proof. unfold target, is_empty. destruct (s_hyps s); [|reflexivity]. intros H. destruct (s_on s); discriminate. Qed.
Lemma follow_one s hyps created d f t h c d' k r : target s f -> make_step id_eq s hyps created d = Ok (t, [h], c, d') -> s_kids s = [k] -> follow k h c d' = Ok r ->
  follow s hyps created d = Ok (t :: fst r, snd r).
Proof.
  intros T M K F. rewrite follow_eq, (target_not_empty _ _ T), M. cbn [bind]. rewrite K. cbn [fgo at_ nth_error bind]. rewrite F. cbn [bind]. cbn [fst snd app]. rewrite app_nil_r. reflexivity.
Qed.
Lemma run_step t g new ts gs : exec t g = Some new -> run (t :: ts) (g :: gs) = run ts (new ++ gs).
Proof. intros E. cbn [Rocq_Spec.run]. destruct t; try (rewrite E; reflexivity). cbn in E. destruct (is_false (g_concl g)); discriminate. Qed.
Lemma exec_f t g : is_false (g_concl g) = true -> (forall ns, t <> TIntros ns) -> exec t g = exec_false cong globals t g.
Proof. intros F N. unfold Rocq_Spec.exec. destruct t; try (rewrite F; reflexivity). destruct (N ns eq_refl). Qed.
Lemma step_start s f hyps created d i : target s f -> index_of f hyps = Some i -> make_step id_eq s hyps created d =
  match s_rule s with
  | AX => Ok (if is_equal id_eq f then TCongruence else TAuto, [hyps], created, d)
  | NNOT => alpha_step s hyps i "" created d
  | AND => alpha_step s hyps i "goeland_and_s" created d
  | NOR => alpha_step s hyps i "goeland_notor_s" created d
  | NIMP => alpha_step s hyps i "goeland_notimply_s" created d
  | NAND => beta_step s hyps i "goeland_notand_s" created d
  | NEQU => beta_step s hyps i "goeland_notequiv_s" created d
  | OR => beta_step s hyps i "goeland_or_s" created d
  | IMP => beta_step s hyps i "goeland_imply_s" created d
  | EQU => beta_step s hyps i "goeland_equiv_s" created d
  | NALL => delta_step s hyps i TNotAll created d
  | EX => delta_step s hyps i TElim created d
  | ALL => gamma_step s hyps i TGeneralize created d
  | NEX => gamma_step s hyps i TNotEx created d
  | W =>
    match s_term s with
    | Some (Fun p _ _) => Ok (TClearVar (id_name p), [hyps], created, d)
    | Some _ => Crash
    | None => clean_hyps f hyps created d
    end
  | REWRITE => rewrite_step s hyps i created d
  | NOT | R => Ok (TNothing, [hyps], created, d)
  end%string.
Proof. intros T E. unfold make_step, target_form. unfold target in T. rewrite T. cbn [bind]. rewrite E. reflexivity. Qed.
(** what is shown of each sequent *)
Definition goes (s : sequent) : Prop :=
  forall C sg hyps g d created, ok C hyps s -> rel C sg hyps g d -> incl C created ->
  exists ts d', follow s hyps created d = Ok (ts, d') /\ d <= d' /\ forall rest gs, run (ts ++ rest) (g :: gs) = run rest gs.

Lemma step_goes s f t h c d' C sg hyps g d created k C' sg' g' : goes k -> target s f -> make_step id_eq s hyps created d = Ok (t, [h], c, d') -> s_kids s = [k] -> d <= d' ->
  exec t g = Some [g'] -> ok C' h k -> rel C' sg' h g' d' -> incl C' c -> rel C sg hyps g d ->
  exists ts d', follow s hyps created d = Ok (ts, d') /\ d <= d' /\ forall rest gs, run (ts ++ rest) (g :: gs) = run rest gs.
Proof.
  intros G T M K L E O R I _. destruct (G _ _ _ _ _ _ O R I) as (ts & d2 & F & L2 & X). exists (t :: ts), d2. split; [exact (follow_one _ _ _ _ _ _ _ _ _ _ _ T M K F)|]. split; [lia|].
  intros rest gs. cbn [app]. rewrite (run_step _ _ _ _ _ E). cbn [app]. apply X.
Qed.
(** alpha *)
Lemma goes_alpha C sg hyps g d created s f l fs k : goes k -> rel C sg hyps g d -> incl C created ->
  target s f -> available hyps f -> alpha_of (s_rule s) f l -> (s_rule s = NNOT \/ List.length l = 2%nat) ->
  s_forms s = [fs] -> Forall2 same l fs -> s_kids s = [k] -> ok C (hyps ++ fs) k ->
  exists ts d', follow s hyps created d = Ok (ts, d') /\ d <= d' /\ forall rest gs, run (ts ++ rest) (g :: gs) = run rest gs.
Proof.
  intros G R I T A AL L FS S K O. destruct (find_hyp _ _ _ _ _ _ R A) as (i & Ei & [TT|(h & H1 & H2)]); [exfalso; destruct AL; exact TT|].
  pose proof (tr_alpha sg _ _ _ AL) as AL'. destruct (alpha_found _ _ _ h AL' ltac:(rewrite map_length; exact L) H2) as (m & M1 & M2).
  assert (F2' : Forall2 (fun f h => same (tr sg f) h) fs m).
  { clear -S M2. revert m M2. induction S as [|a b l fs Hab S IH]; intros m M2; inversion M2; subst; constructor; auto. eapply same_trans; [apply same_sym, tr_same, Hab|assumption]. }
  destruct (intro_rel _ _ _ _ _ _ _ R F2') as (g' & E & R').
  eapply (step_goes s f (TAlpha (alpha_tac (s_rule s)) i (seq (List.length hyps) (List.length fs))) (hyps ++ fs) created d C sg hyps g d created k C sg g'); eauto; [|lia|].
  - rewrite (step_start _ _ _ _ _ _ T Ei). unfold alpha_step, forms_of. rewrite FS. destruct AL; reflexivity.
  - rewrite exec_f; [|exact (r_false _ _ _ _ _ R)|discriminate]. cbn [exec_false]. rewrite H1, M1, E. reflexivity.
Qed.
(** beta *)
Lemma goes_beta C sg hyps g d created s f ls : Forall goes (s_kids s) -> rel C sg hyps g d -> incl C created ->
  target s f -> available hyps f -> beta_of (s_rule s) f ls -> List.length ls = 2%nat ->
  Forall2 (Forall2 same) ls (s_forms s) -> Forall2 (fun fs k => ok C (hyps ++ fs) k) (s_forms s) (s_kids s) ->
  exists ts d', follow s hyps created d = Ok (ts, d') /\ d <= d' /\ forall rest gs, run (ts ++ rest) (g :: gs) = run rest gs.
Proof.
  intros G R I T A BE L S O. destruct (find_hyp _ _ _ _ _ _ R A) as (i & Ei & [TT|(h & H1 & H2)]); [exfalso; destruct BE; exact TT|].
  pose proof (tr_beta sg _ _ _ BE) as BE'. destruct (beta_found _ _ _ h BE' ltac:(rewrite map_length; exact L) H2) as (m & M1 & M2).
  destruct (two _ L) as (l1 & l2 & ->). cbn [map] in M2.
  inversion S as [|? fs1 ? ? S1 S' Ex EF]; subst. inversion S' as [|? fs2 ? ? S2 S'' Ex' EF']; subst. inversion S''; subst.
  rewrite <- EF in O. inversion O as [|? k1 ? ? O1 O' Ey EK]; subst. inversion O' as [|? k2 ? ? O2 O'' Ey' EK']; subst. inversion O''; subst.
  rewrite <- EK in G. inversion G as [|? ? G1 G']; subst. inversion G' as [|? ? G2 _]; subst.
  inversion M2 as [|? m1 ? ? N1 M2' Ez EM]; subst. inversion M2' as [|? m2 ? ? N2 M2'' Ez' EM']; subst. inversion M2''; subst.
  assert (FF : forall l fs m, Forall2 same l fs -> Forall2 same (map (tr sg) l) m -> Forall2 (fun f h => same (tr sg f) h) fs m).
  { clear. intros l fs m S. revert m. induction S as [|a b l fs Hab S IH]; intros m M2; inversion M2; subst; constructor; auto. eapply same_trans; [apply same_sym, tr_same, Hab|assumption]. }
  destruct (intro_rel _ _ _ _ _ _ _ R (FF _ _ _ S1 N1)) as (g1 & E1 & R1). destruct (intro_rel _ _ _ _ _ _ _ R (FF _ _ _ S2 N2)) as (g2 & E2 & R2).
  destruct (G1 _ _ _ _ _ _ O1 R1 I) as (ts1 & d1 & F1 & L1 & X1). destruct (G2 _ _ _ _ _ _ O2 (rel_d _ _ _ _ _ _ L1 R2) I) as (ts2 & d2 & F2 & L2 & X2).
  set (t := TBeta (beta_tac (s_rule s)) i [seq (List.length hyps) (List.length fs1); seq (List.length hyps) (List.length fs2)]).
  exists (t :: ts1 ++ ts2), d2. split; [|split; [lia|]].
  - rewrite follow_eq, (target_not_empty _ _ T), (step_start _ _ _ _ _ _ T Ei).
    assert (M : beta_step s hyps i (beta_tac (s_rule s)) created d = Ok (t, [hyps ++ fs1; hyps ++ fs2], created, d)).
    { unfold beta_step. rewrite <- EK. unfold beta_hyps, forms_of. rewrite <- EF. reflexivity. }
    assert (M' : forall X, X = beta_step s hyps i (beta_tac (s_rule s)) created d -> 
      (do p <- (do x <- X; let '(t, hs, c, d0) := x in Ok ([t], Some hs, c, d0)); let '(ts, hs, created0, d0) := p in do q <- fgo hs hyps created0 0 (s_kids s) d0; Ok (ts ++ fst q, snd q)) = Ok (t :: ts1 ++ ts2, d2)).
    { intros X ->. rewrite M. cbn [bind]. rewrite <- EK. cbn [fgo at_ nth_error bind]. rewrite F1. cbn [bind fst snd]. rewrite F2. cbn [bind fst snd app]. rewrite app_nil_r. reflexivity. }
    apply M'. destruct BE; reflexivity.
  - intros rest gs. cbn [app]. rewrite (run_step _ _ [g1; g2]).
    + cbn [app]. rewrite <- app_assoc. rewrite X1. apply X2.
    + rewrite exec_f; [|exact (r_false _ _ _ _ _ R)|discriminate]. unfold t. cbn [exec_false]. rewrite H1, M1. cbn [branches]. rewrite E1, E2. reflexivity.
Qed.
(** gamma *)
Lemma goes_gamma C sg hyps g d created s f v b u r k : goes k -> rel C sg hyps g d -> incl C created ->
  target s f -> available hyps f -> gamma_by (s_rule s) f v b u r -> clean v b (rest_vars f) ->
  (s_term s = Some u /\ printable globals C u \/ s_term s = None /\ ~ In (tv_index v) (f_vars b)) ->
  s_forms s = [[r]] -> s_kids s = [k] -> ok C (hyps ++ [r]) k ->
  exists ts d', follow s hyps created d = Ok (ts, d') /\ d <= d' /\ forall rest gs, run (ts ++ rest) (g :: gs) = run rest gs.
Proof.
  intros G R I T A GA CL TM FS K O. destruct (find_hyp _ _ _ _ _ _ R A) as (i & Ei & [TT|(h & H1 & H2)]); [exfalso; destruct GA; exact TT|].
  assert (P : exists pt w, real_name_opt created (s_term s) = Ok pt /\ resolve globals (g_vars g) pt = Some w /\ t_vars w = [] /\ t_tyvars w = [] /\ gamma_by (s_rule s) (tr sg f) v (tr sg b) w (tr sg r)).
  { destruct TM as [[-> P]|[-> N]].
    - destruct (term_named _ _ _ _ _ _ R I u P) as (pt & P1 & P2 & P3 & P4). exists pt, (trt sg u). repeat (split; [assumption|]). apply tr_gamma, GA.
    - destruct Hdecl as (_ & (p & Hp & Ep) & _). destruct (global_resolve _ _ _ _ _ p _ R Hp) as [G1 G2]; [rewrite Ep; intros Q; apply has_sko_ok in Q; discriminate Q|]. rewrite Ep in G1, G2.
      exists goeland_I, (Fun p [] []). split; [reflexivity|]. split; [unfold goeland_I; rewrite resolve_pt, G1, G2; reflexivity|]. split; [reflexivity|]. split; [reflexivity|].
      assert (NP : ~ In (id_index p) (map fst sg)).
      { intros Q. apply in_map_iff in Q. destruct Q as (x & E & Hx). destruct (f2_in2 _ _ _ _ (r_tied _ _ _ _ _ R) Hx) as (t & _ & q & tq & lq & _ & X1 & _ & _ & _ & _ & _ & X7). apply X7. apply in_map_iff. exists (p, 0%nat). split; [cbn; congruence|exact Hp]. }
      change (Fun p [] []) with (cst p). rewrite <- (trt_const sg p NP). apply tr_gamma. eapply gamma_any; [exact N|exact GA]. }
  destruct P as (pt & w & P1 & P2 & P3 & P4 & GA').
  destruct (gamma_quant _ _ _ _ _ _ GA' (tr_clean sg _ _ _ CL) P3 P4) as (x & Q1 & Q2). destruct (quantified_same _ _ _ _ _ H2 Q1) as (y & Y1 & Y2).
  destruct (intro_rel C sg d [r] [y] hyps g R ltac:(constructor; [eapply same_trans; eassumption|constructor])) as (g' & E & R').
  set (tac := match s_rule s with ALL => TGeneralize | _ => TNotEx end).
  eapply (step_goes s f (tac i pt (seq (List.length hyps) 1)) (hyps ++ [r]) created d C sg hyps g d created k C sg g'); eauto; [|lia|].
  - rewrite (step_start _ _ _ _ _ _ T Ei). unfold tac. destruct GA; unfold gamma_step, forms_of; rewrite FS; cbn [nth_error bind introduce_list]; rewrite P1; reflexivity.
  - unfold tac. destruct GA; (rewrite exec_f; [|exact (r_false _ _ _ _ _ R)|discriminate]); cbn [exec_false]; rewrite H1, P2; cbn [quant_name] in Y1; rewrite Y1; cbn [List.length seq] in E |- *; rewrite E; reflexivity.
Qed.
(** delta *)
Lemma tr_new C sg hyps g d i c f : rel C sg hyps g d -> i < base -> In f hyps -> ~ In i (flat_map f_funs hyps) -> tr ((i, c) :: sg) f = tr sg f.
Proof.
  intros R B H N. apply (tr_drop [] (i, c) sg f); cbn [fst].
  - intros K. apply N. apply in_flat_map. eauto.
  - intros y Hy. destruct (f2_in2 _ _ _ _ (r_tied _ _ _ _ _ R) Hy) as (? & _ & p & tys & args & _ & _ & _ & _ & P & _). lia.
Qed.
Lemma rel_new C sg hyps g d p tys args : rel C sg hyps g d -> sko_name (id_name p) -> id_index p < base -> ~ In (id_index p) (flat_map f_funs hyps) ->
  ~ In (id_name p) (map head_name C) -> ~ In (id_index p) (map head_index C) -> ~ In (id_index p) (map (fun x => id_index (fst x)) globals) ->
  rel (Fun p tys args :: C) ((id_index p, mkId (g_next g) (id_name p)) :: sg) hyps (with_var (id_name p) g) d.
Proof.
  intros R S B N N1 N2 N3. pose proof R as R0. destruct R as [A1 A2 A3 A4 A5 A6 A7 A8 A9 A10 A11]. split; auto.
  - constructor.
    + exists p, tys, args. cbn. repeat split; auto; lia.
    + eapply F2_impl; [|exact A1]. intros t x. apply tied_more; cbn; [lia|]. intros c Hc. right. exact Hc.
  - cbn [map fst]. constructor; [|exact A2]. intros K. apply N2. clear -K A1. induction A1 as [|t x C sg (q & tq & lq & -> & E & _) F IH]; cbn in *; [exact K|]. destruct K as [K|K]; [left; congruence|auto].
  - cbn [map snd id_index]. constructor; [|exact A3]. intros K. apply in_map_iff in K. destruct K as (x & E & Hx). destruct (f2_in2 _ _ _ _ A1 Hx) as (? & _ & q & tq & lq & _ & _ & _ & _ & _ & P & _). lia.
  - cbn [map head_name]. constructor; assumption.
  - cbn [g_vars with_var map id_name]. constructor; [|exact A5]. intros K. apply in_map_iff in K. destruct K as (c & E & Hc). destruct (A6 c Hc) as [Q|(k & Q & E')]; [rewrite E in Q; contradiction|]. rewrite E in E'. rewrite E' in S. exact (dummy_no_sko k ltac:(lia) S).
  - intros c [<-|Hc]; [left; left; reflexivity|]. destruct (A6 c Hc) as [Q|Q]; [left; right; exact Q|auto].
  - intros n f H. change (hyp (with_var (id_name p) g) n) with (hyp g n). rewrite (tr_new _ _ _ _ _ _ (mkId (g_next g) (id_name p)) f R0 B (nth_error_In _ _ H) N). auto.
  - intros n h H. destruct (A8 n h H) as (f & F1 & F2). exists f. split; [exact F1|]. rewrite (tr_new _ _ _ _ _ _ (mkId (g_next g) (id_name p)) f R0 B (nth_error_In _ _ F1) N). exact F2.
  - cbn. lia.
Qed.
Lemma rel_dummy C sg hyps g d : rel C sg hyps g d -> rel C sg hyps (with_var ("x" ++ dec d)%string g) (d + 1).
Proof.
  intros R. pose proof R as R0. destruct R as [A1 A2 A3 A4 A5 A6 A7 A8 A9 A10 A11]. split; auto.
  - eapply F2_impl; [|exact A1]. intros t x. apply tied_more; cbn; [lia|]. intros c Hc. right. exact Hc.
  - cbn [g_vars with_var map id_name]. constructor; [|exact A5]. intros K. apply in_map_iff in K. destruct K as (c & E & Hc). destruct (A6 c Hc) as [Q|(k & Q & E')].
    + apply in_map_iff in Q. destruct Q as (t & Q & Ht). destruct (f2_in _ _ _ _ A1 Ht) as (y & _ & q & tq & lq & -> & _ & _ & S & _). cbn in Q. rewrite Q, E in S. exact (dummy_no_sko d A11 S).
    + rewrite E in E'. apply dummy_inj in E'; lia.
  - intros c [<-|Hc]; [right; exists d; split; [lia|reflexivity]|]. destruct (A6 c Hc) as [Q|(k & Q & E)]; [auto|]. right. exists k. split; [lia|exact E].
  - cbn. lia.
  - lia.
Qed.
Lemma no_var C sg hyps g d x : rel C sg hyps (with_var x g) d -> existsb (Rocq_Spec.named x) (g_vars g) = false.
Proof.
  intros R. apply not_true_iff_false. rewrite existsb_exists. intros (c & Hc & E). unfold Rocq_Spec.named in E. apply String.eqb_eq in E. pose proof (r_vars _ _ _ _ _ R) as N. cbn in N. apply NoDup_cons_iff in N. apply (proj1 N). rewrite <- E. apply in_map, Hc.
Qed.
Definition delta_tac (r : rule) : nat -> string -> list nat -> tactic := match r with EX => TElim | _ => TNotAll end.
(** with the local constant [c] *)
Lemma goes_const C sg hyps g d created s f v b u r k x C' sg' d' created' : goes k ->
  rel C sg hyps g d -> rel C' sg' hyps (with_var x g) d' -> d <= d' -> incl C' created' ->
  target s f -> available hyps f -> tr sg' f = tr sg f -> delta_by (s_rule s) f v b u r -> delta_by (s_rule s) (tr sg' f) v (tr sg' b) (cst (mkId (g_next g) x)) (tr sg' r) -> clean v b (rest_vars f) ->
  add_term created d (s_term s) = Ok (created', x, d') -> s_forms s = [[r]] -> s_kids s = [k] -> ok C' (hyps ++ [r]) k ->
  exists ts d', follow s hyps created d = Ok (ts, d') /\ d <= d' /\ forall rest gs, run (ts ++ rest) (g :: gs) = run rest gs.
Proof.
  intros G R Rn L I T A TR DE0 DE CL AD FS K O. destruct (find_hyp _ _ _ _ _ _ R A) as (i & Ei & [TT|(h & H1 & H2)]); [exfalso; destruct DE0; exact TT|].
  destruct (delta_quant _ _ _ _ _ _ DE (tr_clean sg' _ _ _ CL) eq_refl eq_refl) as (z & Q1 & Q2). rewrite TR in Q1. destruct (quantified_same _ _ _ _ _ H2 Q1) as (y & Y1 & Y2).
  destruct (intro_rel C' sg' d' [r] [y] hyps _ Rn ltac:(constructor; [eapply same_trans; eassumption|constructor])) as (g' & E & R').
  eapply (step_goes s f (delta_tac (s_rule s) i x (seq (List.length hyps) 1)) (hyps ++ [r]) created' d' C sg hyps g d created k C' sg' g'); eauto.
  - rewrite (step_start _ _ _ _ _ _ T Ei). destruct DE0; unfold delta_step, forms_of; rewrite FS; cbn [nth_error bind introduce_list]; rewrite AD; reflexivity.
  - pose proof (no_var _ _ _ _ _ _ Rn) as NV. destruct DE0; cbn [delta_tac]; (rewrite exec_f; [|exact (r_false _ _ _ _ _ R)|discriminate]); cbn [exec_false]; rewrite H1, NV; cbn [quant_name] in Y1; unfold cst in Y1; rewrite Y1; cbn [List.length seq] in E |- *; rewrite E; reflexivity.
Qed.
Lemma delta_any r f v b u u' x : ~ In (tv_index v) (f_vars b) -> delta_by r f v b u x -> delta_by r f v b u' x.
Proof.
  intros N H. destruct H as [i vs g v b u x K|i j vs g v b u x K]; constructor; unfold delta_instance in *; rewrite (fvinst_notin _ u' b N); rewrite (fvinst_notin _ u b N) in K; exact K.
Qed.
(** weakening *)
Lemma nth_upd {A} (x : A) l : forall i n, nth_error (Tptp_Model.upd i x l) n = if (Nat.eqb i n && Nat.ltb n (List.length l))%bool then Some x else nth_error l n.
Proof.
  induction l as [|a l IH]; intros i n; cbn.
  - destruct i; cbn; rewrite ?andb_false_r; reflexivity.
  - destruct i as [|i], n as [|n]; cbn; try reflexivity. rewrite IH. reflexivity.
Qed.
Lemma find_filter {A} (p q : A -> bool) l : find p (filter q l) = find (fun x => q x && p x) l.
Proof. induction l as [|a l IH]; cbn; [reflexivity|]. destruct (q a); cbn; [destruct (p a); [reflexivity|exact IH]|exact IH]. Qed.
Definition cleared (i : nat) (g : goal) : goal := mkGoal (filter (fun x => negb (Nat.eqb (fst x) i)) (g_hyps g)) (g_vars g) (g_next g) (g_concl g).
Lemma hyp_cleared i g n : hyp (cleared i g) n = if Nat.eqb i n then None else hyp g n.
Proof.
  unfold hyp, cleared. cbn [g_hyps]. induction (g_hyps g) as [|[m f] l IH]; cbn; [destruct (Nat.eqb i n); reflexivity|].
  destruct (Nat.eqb m i) eqn:E; cbn [negb].
  - apply Nat.eqb_eq in E. subst m. destruct (Nat.eqb i n) eqn:E2; exact IH.
  - cbn. destruct (Nat.eqb m n) eqn:E2; [|exact IH]. apply Nat.eqb_eq in E2. subst m. rewrite Nat.eqb_sym, E. reflexivity.
Qed.
Lemma rel_clear C sg hyps g d i : rel C sg hyps g d -> rel C sg (Tptp_Model.upd i (Top 0) hyps) (cleared i g) d.
Proof.
  intros [A1 A2 A3 A4 A5 A6 A7 A8 A9 A10 A11]. split; auto.
  - intros n f H. rewrite hyp_cleared. rewrite nth_upd in H. destruct (Nat.eqb i n) eqn:E.
    + left. destruct (Nat.ltb n (List.length hyps)) eqn:L; cbn [andb] in H; [injection H as <-; exact Logic.I|]. apply Nat.ltb_ge in L. apply nth_error_None in L. congruence.
    + cbn [andb] in H. auto.
  - intros n h H. cbn in H. apply filter_In in H. destruct H as [H1 H2]. cbn in H2. destruct (A8 n h H1) as (f & F1 & F2). exists f. split; [|exact F2]. rewrite nth_upd. apply negb_true_iff in H2. rewrite Nat.eqb_sym, H2. exact F1.
Qed.
Definition forgot (x : string) (g : goal) : goal := mkGoal (g_hyps g) (filter (fun c => negb (Rocq_Spec.named x c)) (g_vars g)) (g_next g) (g_concl g).
Lemma nodup_mid {A} (l1 : list A) x l2 : NoDup (l1 ++ x :: l2) -> NoDup (l1 ++ l2) /\ ~ In x (l1 ++ l2).
Proof. intros H. split; [eapply NoDup_remove_1; exact H|eapply NoDup_remove_2; exact H]. Qed.
Lemma nodup_filter {A B} (g : A -> B) (q : A -> bool) l : NoDup (map g l) -> NoDup (map g (filter q l)).
Proof.
  induction l as [|a l IH]; cbn; intros H; [constructor|]. apply NoDup_cons_iff in H. destruct H as [N H]. destruct (q a); [|auto]. cbn. constructor; [|auto]. intros K. apply N. apply in_map_iff in K. destruct K as (c & <- & Hc). apply filter_In in Hc. apply in_map, Hc.
Qed.
Lemma f2_mid {A B} (P : A -> B -> Prop) C1 t C2 sg : Forall2 P (C1 ++ t :: C2) sg -> exists s1 x s2, sg = s1 ++ x :: s2 /\ Forall2 P C1 s1 /\ P t x /\ Forall2 P C2 s2.
Proof. intros H. apply Forall2_app_inv_l in H. destruct H as (s1 & s' & F1 & F2 & ->). inversion F2 as [|? x ? s2 Hx F3]; subst. exists s1, x, s2. auto. Qed.
Lemma rel_forget C1 C2 sg hyps g d p tys args : rel (C1 ++ Fun p tys args :: C2) sg hyps g d -> ~ In (id_index p) (flat_map f_funs hyps) -> Forall (below base) hyps ->
  exists sg' c, find (Rocq_Spec.named (id_name p)) (g_vars g) = Some c /\ existsb (fun y => uses c (snd y)) (g_hyps g) = false /\ rel (C1 ++ C2) sg' hyps (forgot (id_name p) g) d.
Proof.
  intros R N B. destruct R as [A1 A2 A3 A4 A5 A6 A7 A8 A9 A10 A11]. destruct (f2_mid _ _ _ _ _ A1) as (s1 & [ix c] & s2 & -> & T1 & TX & T2).
  assert (T : Forall2 (tied g) (C1 ++ C2) (s1 ++ s2)) by (apply Forall2_app; assumption).
  destruct TX as (q & tq & lq & E & X1 & X2 & X3 & X4 & X5 & X6 & X7). injection E as <- <- <-. cbn [fst snd] in *. subst ix.
  rewrite map_app in A2, A3, A4. cbn [map fst snd head_name] in A2, A3, A4. apply nodup_mid in A2, A3, A4. rewrite <- map_app in A2, A3, A4. destruct A2 as [A2 A2'], A3 as [A3 A3'], A4 as [A4 A4'].
  assert (TR : forall f, In f hyps -> tr (s1 ++ (id_index p, c) :: s2) f = tr (s1 ++ s2) f).
  { intros f Hf. apply tr_drop; cbn [fst]; [intros K; apply N, in_flat_map; eauto|]. intros y Hy. destruct (f2_in2 _ _ _ _ T2 Hy) as (? & _ & q & tq & lq & _ & _ & _ & _ & P & _). lia. }
  exists (s1 ++ s2), c. split; [|split].
  - pose proof (find_unique id_name _ _ A5 X6) as F. rewrite <- X2 in F. exact F.
  - apply not_true_iff_false. rewrite existsb_exists. intros ([n h] & Hh & U). cbn [snd] in U. unfold uses in U. apply existsb_exists in U. destruct U as (q & Hq & Eq). apply Z.eqb_eq in Eq.
    destruct (A8 n h Hh) as (f & F1 & F2). pose proof (nth_error_In _ _ F1) as Hf. rewrite (TR f Hf) in F2. apply f_ix_eqb in F2.
    assert (K : In (id_index c) (f_ix (tr (s1 ++ s2) f))) by (rewrite F2, <- Eq; apply in_map, Hq). unfold f_ix in K. apply in_map_iff in K. destruct K as (z & Ez & Hz). apply tr_syms in Hz. destruct Hz as [Hz|(x & Hx & Ex)].
    + rewrite Forall_forall in B. pose proof (B f Hf z Hz). lia.
    + apply A3'. apply in_map_iff. exists x. split; [congruence|exact Hx].
  - assert (NV : forall t x, In t (C1 ++ C2) -> tied g t x -> In (snd x) (filter (fun c => negb (Rocq_Spec.named (id_name p) c)) (g_vars g))).
    { intros t x Ht (q & tq & lq & -> & Y1 & Y2 & Y3 & Y4 & Y5 & Y6 & Y7). apply filter_In. split; [exact Y6|]. unfold Rocq_Spec.named. apply negb_true_iff. apply String.eqb_neq. intros E. apply A4'. rewrite <- E, <- Y2. apply (in_map head_name) in Ht. exact Ht. }
    split; auto.
    + clear -T NV. induction T as [|t x l m H T IH]; constructor.
      * pose proof (NV t x (or_introl eq_refl) H) as K. destruct H as (q & tq & lq & -> & Y1 & Y2 & Y3 & Y4 & Y5 & Y6 & Y7). exists q, tq, lq. repeat split; auto; tauto.
      * apply IH. intros t' x' Ht. apply NV. right. exact Ht.
    + apply nodup_filter, A5.
    + intros c' H. apply filter_In in H. destruct H as [H1 H2]. destruct (A6 c' H1) as [K|K]; [|auto]. left. rewrite map_app in K |- *. apply in_app_iff in K. apply in_app_iff. destruct K as [K|[K|K]]; auto. cbn in K. unfold Rocq_Spec.named in H2. rewrite K, String.eqb_refl in H2. discriminate.
    + intros n f H. rewrite <- (TR f (nth_error_In _ _ H)). exact (A7 n f H).
    + intros n h H. destruct (A8 n h H) as (f & F1 & F2). exists f. split; [exact F1|]. rewrite <- (TR f (nth_error_In _ _ F1)). exact F2.
Qed.
(** closing *)
Lemma auto_opposite l a b : In a l -> In b l -> same (neg a) b -> auto_closes l = true.
Proof.
  intros A B S. apply existsb_exists. exists a. split; [exact A|]. assert (M : mem (neg a) l = true) by (apply existsb_exists; exists b; auto). destruct a as [| | | | | |i a| | |]; auto. destruct a; auto.
Qed.
Lemma auto_bot l i : In (Bot i) l -> auto_closes l = true.
Proof. intros H. apply existsb_exists. exists (Bot i). auto. Qed.
Lemma auto_top l i j : In (Not i (Top j)) l -> auto_closes l = true.
Proof. intros H. apply existsb_exists. exists (Not i (Top j)). auto. Qed.
Lemma same_bot i f : same (Bot i) f -> exists j, f = Bot j. Proof. destruct f; try discriminate. eauto. Qed.
Lemma same_top i f : same (Top i) f -> exists j, f = Top j. Proof. destruct f; try discriminate. eauto. Qed.
Lemma not_top_hyp C sg hyps g d i j : rel C sg hyps g d -> available hyps (Not i (Top j)) -> auto_closes (map snd (g_hyps g)) = true.
Proof.
  intros R A. destruct (avail_hyp _ _ _ _ _ _ R A) as [[]|(h & H1 & H2)]. rewrite tr_neg, tr_top in H2. apply inv_not in H2. destruct H2 as (j' & b & -> & S). apply same_top in S. destruct S as (j'' & ->). exact (auto_top _ _ _ H1).
Qed.
Lemma closes C sg hyps g d f : rel C sg hyps g d -> available hyps f -> closed_on hyps f -> exec (if is_equal id_eq f then TCongruence else TAuto) g = Some [].
Proof.
  intros R A CL. assert (F := r_false _ _ _ _ _ R).
  assert (OPP : forall a b, available hyps a -> available hyps b -> ~ is_top a -> ~ is_top b -> same (neg a) b -> exists x y, In x (map snd (g_hyps g)) /\ In y (map snd (g_hyps g)) /\ same (neg x) y).
  { intros a b Ha Hb Na Nb S. destruct (avail_hyp _ _ _ _ _ _ R Ha) as [K|(x & X1 & X2)]; [contradiction|]. destruct (avail_hyp _ _ _ _ _ _ R Hb) as [K|(y & Y1 & Y2)]; [contradiction|]. exists x, y. split; [exact X1|]. split; [exact Y1|].
    eapply same_trans; [apply same_sym, same_neg, X2|]. eapply same_trans; [|exact Y2]. eapply same_trans; [|apply tr_same, S]. unfold neg. rewrite tr_neg. apply same_refl. }
  destruct CL as [(i & ->)|[(i & j & ->)|CL]].
  - cbn [is_equal]. rewrite exec_f by (auto; discriminate). cbn [exec_false]. destruct (avail_hyp _ _ _ _ _ _ R A) as [[]|(h & H1 & H2)]. rewrite tr_bot in H2. apply same_bot in H2. destruct H2 as (j & ->). rewrite (auto_bot _ _ H1). reflexivity.
  - cbn [is_equal]. rewrite exec_f by (auto; discriminate). cbn [exec_false]. rewrite (not_top_hyp _ _ _ _ _ _ _ R A). reflexivity.
  - assert (OR : is_equal id_eq f = false /\ auto_closes (map snd (g_hyps g)) = true \/ exists x y, In x (map snd (g_hyps g)) /\ In y (map snd (g_hyps g)) /\ same (neg x) y).
    { destruct CL as [AN|(i & a & -> & Aa)].
      - destruct f eqn:Ef; try (right; eapply OPP; [exact A|exact AN| | |apply same_refl]; intros []; fail). left. split; [reflexivity|]. exact (not_top_hyp _ _ _ _ _ _ _ R AN).
      - destruct a eqn:Ea; try (right; eapply OPP; [exact Aa|exact A| | |apply same_not, same_refl]; intros []; fail). left. split; [reflexivity|]. exact (not_top_hyp _ _ _ _ _ _ _ R A). }
    destruct OR as [[E1 E2]|(x & y & X & Y & S)].
    + rewrite E1. rewrite exec_f by (auto; discriminate). cbn [exec_false]. rewrite E2. reflexivity.
    + destruct (is_equal id_eq f); rewrite exec_f by (auto; discriminate); cbn [exec_false]; [rewrite (Hcong _ _ _ X Y S)|rewrite (auto_opposite _ _ _ X Y S)]; reflexivity.
Qed.

Lemma kid_depth k s : In k (s_kids s) -> (seq_depth k < seq_depth s)%nat.
Proof. destruct s as [h r o w t fs ks p i]. cbn [s_kids seq_depth]. intros H. assert (K : (seq_depth k <= list_max (map seq_depth ks))%nat); [|lia]. assert (L := proj1 (list_max_le (map seq_depth ks) _) (le_n _)). rewrite Forall_forall in L. apply L, in_map, H. Qed.
Theorem all_goes s : goes s.
Proof.
  assert (M : forall n s, (seq_depth s < n)%nat -> goes s).
  2:{ apply (M (S (seq_depth s))). lia. }
  clear s. induction n as [|n IH]; intros s L; [lia|].
  assert (IHk : forall k, In k (s_kids s) -> goes k) by (intros k Hk; apply IH; pose proof (kid_depth k s Hk); lia). clear IH L n.
  assert (IH1 : forall k, s_kids s = [k] -> goes k) by (intros k E; apply IHk; rewrite E; left; reflexivity).
  intros C sg hyps g d created O R I. destruct O as [C hyps s k E K O|C hyps s f RU T A CL K|C hyps s f l fs k T A AL L FS S K O|C hyps s f ls T A BE L S O|C hyps s f v b u r k T A GA CL TM FS K O|
    C hyps s f v b p tys args r k T A DE CL S B N N1 N2 N3 N4 TM FS K O|C hyps s f v b u r k T A DE CL NV TM FS K O|C hyps s f i k RU TM T Ei NT K O|C1 C2 hyps s f p tys args k RU TM T A N B K O].
  - destruct (IH1 _ K _ _ _ _ _ _ O R I) as (ts & d' & F & L & X). exists ts, d'. split; [|auto]. rewrite follow_eq. unfold is_empty. rewrite E, K. cbn [bind fgo]. rewrite F. cbn [bind fst snd]. rewrite app_nil_r. reflexivity.
  - destruct (find_hyp _ _ _ _ _ _ R A) as (i & Ei & _). eexists [_], d. split; [|split; [lia|]].
    + rewrite follow_eq, (target_not_empty _ _ T), (step_start _ _ _ _ _ _ T Ei), RU, K. reflexivity.
    + intros rest gs. cbn [app]. rewrite (run_step _ _ [] _ _ (closes _ _ _ _ _ _ R A CL)). reflexivity.
  - eapply goes_alpha; eauto.
  - eapply goes_beta; eauto. apply Forall_forall, IHk.
  - eapply goes_gamma; eauto.
  - pose proof (rel_new C sg hyps g d p tys args R S B N N1 N2 N4) as Rn.
    assert (Nf : ~ In (id_index p) (f_funs f)) by (exact (avail_funs _ _ _ A N)).
    eapply (goes_const C sg hyps g d created s f v b (Fun p tys args) r k (id_name p) (Fun p tys args :: C) _ d (created ++ [Fun p tys args])); eauto; [lia| | | |].
    + intros t [<-|Ht]; apply in_or_app; [right; left; reflexivity|left; apply I, Ht].
    + apply (tr_drop [] (id_index p, _) sg f); [exact Nf|]. intros y Hy. cbn [fst]. destruct (f2_in2 _ _ _ _ (r_tied _ _ _ _ _ R) Hy) as (? & _ & q & tq & lq & _ & _ & _ & _ & P & _). lia.
    + pose proof (tr_delta ((id_index p, mkId (g_next g) (id_name p)) :: sg) _ _ _ _ _ _ DE) as D. rewrite (trt_here _ p (mkId (g_next g) (id_name p)) tys args (r_fst _ _ _ _ _ Rn) (sg_apart _ _ _ (r_tied _ _ _ _ _ Rn)) (or_introl eq_refl)) in D. exact D.
    + rewrite TM. reflexivity.
  - pose proof (rel_dummy _ _ _ _ _ R) as Rn.
    eapply (goes_const C sg hyps g d created s f v b u r k ("x" ++ dec d)%string C sg (d + 1) created); eauto; [lia| |].
    + assert (NC : ~ In (id_index (mkId (g_next g) ("x" ++ dec d)%string)) (map fst sg)).
      { intros Q. apply in_map_iff in Q. destruct Q as (y & E & Hy). destruct (f2_in2 _ _ _ _ (r_tied _ _ _ _ _ R) Hy) as (? & _ & q & tq & lq & _ & X1 & _ & _ & P & _). pose proof (r_base _ _ _ _ _ R). cbn in E. lia. }
      rewrite <- (trt_const sg _ NC). apply tr_delta. eapply delta_any; [exact NV|exact DE].
    + rewrite TM. reflexivity.
  - assert (Ah : exists h, hyp g i = Some h).
    { assert (Q : exists h, nth_error hyps i = Some h /\ same f h).
      { clear -Ei. revert i Ei. induction hyps as [|x l IH]; intros i Ei; [discriminate|]. cbn in Ei. destruct (form_eqb f x) eqn:E; [injection Ei as <-; exists x; auto|]. destruct (index_of f l) as [j|]; [|discriminate]. injection Ei as <-. exact (IH j eq_refl). }
      destruct Q as (h & Q1 & Q2). destruct (r_here _ _ _ _ _ R i h Q1) as [TT|(x & X & _)]; [|eauto]. destruct h; try contradiction. apply same_sym, same_top in Q2. destruct Q2 as (j & ->). destruct (NT j eq_refl). }
    destruct Ah as (h & Hh).
    eapply (step_goes s f (TClear i) (Tptp_Model.upd i (Top 0) hyps) created d C sg hyps g d created k C sg (cleared i g)); eauto; [|lia| |apply rel_clear, R].
    + rewrite (step_start _ _ _ _ _ _ T Ei), RU, TM. unfold clean_hyps, get. rewrite Ei. reflexivity.
    + rewrite exec_f; [|exact (r_false _ _ _ _ _ R)|discriminate]. cbn [exec_false]. rewrite Hh. reflexivity.
  - destruct (find_hyp _ _ _ _ _ _ R A) as (i & Ei & _). destruct (rel_forget _ _ _ _ _ _ _ _ _ R N B) as (sg' & c & F1 & F2 & R').
    eapply (step_goes s f (TClearVar (id_name p)) hyps created d (C1 ++ Fun p tys args :: C2) sg hyps g d created k (C1 ++ C2) sg' (forgot (id_name p) g)); eauto; [|lia| |].
    + rewrite (step_start _ _ _ _ _ _ T Ei), RU, TM. reflexivity.
    + rewrite exec_f; [|exact (r_false _ _ _ _ _ R)|discriminate]. cbn [exec_false]. rewrite F1, F2. reflexivity.
    + intros t Ht. apply I. apply in_app_iff in Ht. apply in_or_app. cbn. tauto.
Qed.
End Accept.

(** ** The whole script *)
Definition start_goal (hyps : list form) (base : Z) (c : form) : goal := mkGoal (rev (combine (seq 0 (List.length hyps)) hyps)) [] base c.
Lemma in_combine_seq {A} (l : list A) : forall m n x, In (n, x) (combine (seq m (List.length l)) l) <-> (m <= n)%nat /\ nth_error l (n - m) = Some x.
Proof.
  induction l as [|a l IH]; intros m n x; cbn.
  - split; [intros []|]. intros [_ H]. destruct (n - m)%nat; discriminate.
  - rewrite IH. split.
    + intros [E|[L H]]; [injection E as <- <-; split; [lia|]; rewrite Nat.sub_diag; reflexivity|]. split; [lia|]. replace (n - m)%nat with (S (n - S m)) by lia. exact H.
    + intros [L H]. destruct (n - m)%nat as [|j] eqn:E; cbn in H.
      * left. injection H as ->. f_equal. lia.
      * right. split; [lia|]. replace (n - S m)%nat with j by lia. exact H.
Qed.
Lemma start_none hyps base c n : (List.length hyps <= n)%nat -> hyp (start_goal hyps base c) n = None.
Proof.
  intros L. destruct (hyp _ n) as [h|] eqn:E; [|reflexivity]. apply hyp_in2 in E. cbn in E. apply in_rev in E. apply in_combine_seq in E. destruct E as [_ E]. rewrite Nat.sub_0_r in E. apply nth_error_None in L. congruence.
Qed.
Lemma start_some hyps base c n f : nth_error hyps n = Some f -> hyp (start_goal hyps base c) n = Some f.
Proof.
  intros H. unfold hyp, start_goal. cbn [g_hyps]. destruct (find _ _) as [[m h]|] eqn:E.
  - apply find_some in E. destruct E as [E1 E2]. cbn in E2. apply Nat.eqb_eq in E2. subst m. apply in_rev in E1. apply in_combine_seq in E1. destruct E1 as [_ E1]. rewrite Nat.sub_0_r in E1. cbn. congruence.
  - exfalso. assert (K : In (n, f) (rev (combine (seq 0 (List.length hyps)) hyps))) by (apply in_rev; rewrite rev_involutive; apply in_combine_seq; split; [lia|rewrite Nat.sub_0_r; exact H]).
    apply (find_none _ _ E) in K. cbn in K. rewrite Nat.eqb_refl in K. discriminate.
Qed.
Lemma start_push hyps base c f : mkGoal ((List.length hyps, f) :: g_hyps (start_goal hyps base c)) [] base c = start_goal (hyps ++ [f]) base c.
Proof.
  unfold start_goal. f_equal. cbn [g_hyps]. rewrite app_length. cbn [List.length].
  assert (E : forall m (l : list form), combine (seq m (List.length l + 1)) (l ++ [f]) = combine (seq m (List.length l)) l ++ [((m + List.length l)%nat, f)]).
  { intros m l. revert m. induction l as [|a l IH]; intros m; cbn; [rewrite Nat.add_0_r; reflexivity|]. rewrite IH. cbn. do 4 f_equal. lia. }
  rewrite E, rev_app_distr. reflexivity.
Qed.
Lemma intros_chain l base c : forall hyps, intros (seq (List.length hyps) (List.length l)) (start_goal hyps base (imp_chain l c)) = Some (start_goal (hyps ++ l) base c).
Proof.
  induction l as [|a l IH]; intros hyps; cbn [seq List.length intros imp_chain fold_right]; [rewrite app_nil_r; reflexivity|].
  rewrite start_none by lia. cbn [g_concl start_goal g_vars g_next]. pose proof (start_push hyps base (imp_chain l c) a) as E. unfold imp_chain in E. unfold start_goal at 1 in E. cbn [g_hyps] in E. unfold start_goal at 1. cbn [g_hyps]. rewrite E.
  specialize (IH (hyps ++ [a])). rewrite app_length in IH. cbn [List.length] in IH. rewrite Nat.add_1_r in IH. unfold imp_chain in IH. rewrite IH, <- app_assoc. reflexivity.
Qed.
Lemma intro_last hyps base a : intros [List.length hyps] (start_goal hyps base (Not 0 a)) = Some (start_goal (hyps ++ [a]) base (Bot 0)).
Proof. cbn [intros]. rewrite start_none by lia. cbn [g_concl start_goal g_vars g_next]. pose proof (start_push hyps base (Bot 0) a) as E. cbn [g_hyps start_goal] in E |- *. rewrite E. reflexivity. Qed.
Lemma start_rel globals base hyps : rel globals base [] [] hyps (start_goal hyps base (Bot 0)) 0.
Proof.
  split; cbn; try (constructor; fail); try lia; try reflexivity.
  - intros n f H. right. exists f. split; [apply start_some, H|apply same_refl].
  - intros n h H. apply in_rev in H. apply in_combine_seq in H. destruct H as [_ H]. rewrite Nat.sub_0_r in H. exists h. split; [exact H|apply same_refl].
Qed.
Lemma begins_follow id_eq registered s axs c k : begins s axs c k ->
  rocq id_eq registered s =
  do p <- follow id_eq k ((axs ++ registered) ++ [Not 0 c]) [] 0;
  Ok (imp_chain (axs ++ registered) (Not 0 (Not 0 c)), (match axs ++ registered with [] => [] | _ => [TIntros (seq 0 (List.length (axs ++ registered)))] end ++ [TIntros [List.length (axs ++ registered)]]) ++ fst p).
Proof.
  intros B. unfold rocq, target_form. inversion B as [? i ? T|? j ? i ? ? r Ne T K]; subst; unfold target in T; rewrite T; cbn [bind main_formula].
  - destruct ([] ++ registered) eqn:E; reflexivity.
  - rewrite last_last, removelast_last. cbn [bind]. destruct axs as [|a axs]; [contradiction|]. cbn [app]. rewrite K. reflexivity.
Qed.
Theorem rocq_accepted id_eq cong globals base registered s axs c k :
  (forall l a b, In a l -> In b l -> same (neg a) b -> cong l = true) -> declared base globals -> begins s axs c k ->
  Rocq_Spec.ok globals base [] ((axs ++ registered) ++ [neg c]) k ->
  exists ts, rocq id_eq registered s = Ok (imp_chain (axs ++ registered) (neg (neg c)), ts) /\ accepted cong globals base (imp_chain (axs ++ registered) (neg (neg c))) ts.
Proof.
  intros Hc Hd B O. destruct (all_goes id_eq cong globals base Hc Hd k [] [] _ _ 0 [] O (start_rel globals base _) (incl_refl _)) as (ts & d & F & _ & X).
  rewrite (begins_follow _ _ _ _ _ _ B). unfold neg in F. rewrite F. cbn [bind fst]. eexists. split; [reflexivity|]. unfold accepted. rewrite <- app_assoc.
  set (all := axs ++ registered) in *. clearbody all.
  assert (E : run cong globals ((match all with [] => [] | _ => [TIntros (seq 0 (List.length all))] end) ++ [TIntros [List.length all]] ++ ts) [mkGoal [] [] base (imp_chain all (neg (neg c)))] = run cong globals ts [start_goal (all ++ [neg c]) base (Bot 0)]).
  { assert (L : forall rest, run cong globals ((match all with [] => [] | _ => [TIntros (seq 0 (List.length all))] end) ++ rest) [mkGoal [] [] base (imp_chain all (neg (neg c)))] = run cong globals rest [start_goal all base (neg (neg c))]).
    { intros rest. pose proof (intros_chain all base (neg (neg c)) []) as E. cbn [List.length app] in E. destruct all as [|a all]; [reflexivity|]. cbn [app run exec]. change (mkGoal [] [] base (imp_chain (a :: all) (neg (neg c)))) with (start_goal [] base (imp_chain (a :: all) (neg (neg c)))). rewrite E. reflexivity. }
    rewrite L. cbn [app run exec]. pose proof (intro_last all base (neg c)) as E2. unfold neg in *. rewrite E2. reflexivity. }
  rewrite E. pose proof (X [] []) as Y. rewrite app_nil_r in Y. exact Y.
Qed.
