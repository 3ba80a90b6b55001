(** The canonical model of the classes, the clauses and the substitution. *)
From Coq Require Import ZArith List Bool Arith Lia.
From Verif Require Import Ast_Model Ast_Proofs Unif_Model Unif_Spec Bse_Spec UnifRun_Proofs Elim_Proofs SatEq_Model SatEq_Spec SatEqUf_Proofs SatEqClose_Proofs SatEqLoad_Proofs.
Import ListNotations.
Open Scope list_scope.
Open Scope nat_scope.

Section Sat.
Variable ar : signature.
Notation inv := (inv ar).
Notation state := (state ar).
Variable h : heap.
Variable pb : problem.
Hypothesis I : inv h pb.

(** ** The algebra of the classes *)
Definition opt_eqb (a b : option nat) : bool := match a, b with Some x, Some y => Nat.eqb x y | None, None => true | _, _ => false end.
Lemma opt_eqb_eq a b : opt_eqb a b = true <-> a = b.
Proof. destruct a, b; cbn; rewrite ?Nat.eqb_eq; split; congruence. Qed.
Lemma opts_eqb_eq l : forall l', list_eqb opt_eqb l l' = true <-> l = l'.
Proof.
  induction l as [|a l IH]; intros [|b l']; cbn; try (split; congruence). rewrite andb_true_iff, opt_eqb_eq. split.
  - intros [-> E]. apply IH in E. congruence.
  - intros E. injection E as -> ->. split; auto. apply IH. auto.
Qed.
Definition recs : list trec := flat_map snd (pb_part pb).
Lemma recs_in t : In t recs <-> rec_in pb t.
Proof. unfold recs. rewrite in_flat_map. split; [intros ([c l] & A & B)|intros (c & l & A & B)]; [exists c, l|exists (c, l)]; auto. Qed.
Definition canon_fun (i : Z) (args : list (option nat)) : option nat :=
  match List.find (fun t => negb (tr_is_meta t) && (tr_index t =? i)%Z && list_eqb opt_eqb (map (fun a => Some (root h a)) (tr_args t)) args) recs with
  | Some t => Some (root h (tr_class t))
  | None => None
  end.
Definition canon : alg := mkAlg (option nat) (fun i _ l => canon_fun i l) (fun _ => None) (fun _ => None).
Definition canon_val (i : Z) : option nat := match zget (pb_metas pb) i with Some u => Some (root h (tr_class u)) | None => None end.
Lemma rep_canon t : closed h pb -> forall x, rep h pb t x -> tev canon canon_val t = Some x.
Proof.
  intros C. induction t as [i|p tys l IH|i n|m] using term_ind'; intros x R; [destruct R| |destruct R|].
  - apply rep_fun in R. destruct R as (u & A & B & E & -> & D). cbn [tev].
    assert (EM : map (tev canon canon_val) l = map (fun a => Some (root h a)) (tr_args u)).
    { revert D. generalize (tr_args u). clear -IH. induction IH as [|a l Pa Pl IHl]; intros [|c cs] D; cbn in *; try tauto. destruct D. f_equal; auto. }
    etransitivity; [exact (f_equal (canon_fun (id_index p)) EM)|]. unfold canon_fun.
    destruct (List.find _ recs) as [t|] eqn:F.
    + apply find_some in F. destruct F as (J & F). apply andb_prop in F. destruct F as (F & F3). apply andb_prop in F. destruct F as (F1 & F2).
      apply negb_true_iff in F1. apply Z.eqb_eq in F2. apply opts_eqb_eq in F3. apply recs_in in J. f_equal. apply C; auto. split; [congruence|].
      revert F3. generalize (tr_args t) (tr_args u). clear. induction l as [|a l IH]; intros [|b l'] E; try discriminate; constructor; [|injection E; auto].
      cbn in E. congruence.
    + exfalso. pose proof (find_none _ _ F u (proj2 (recs_in u) A)) as N. cbn in N. rewrite B, E, Z.eqb_refl in N. cbn in N.
      rewrite (proj2 (opts_eqb_eq _ _) eq_refl) in N. discriminate.
  - destruct R as (u & A & B & E & ->). cbn. unfold canon_val.
    rewrite (in_zget _ _ u (i_mkeys _ _ _ I)); auto. apply (i_metas _ _ _ I). auto.
Qed.
(** C92 *)
Lemma solved_trivial es gs g : state es h pb -> goals_for gs h pb -> closed h pb -> In g gs -> goal_solved es [] g -> has_trivial h pb = true.
Proof.
  intros S [GA _] C J G. destruct (GA g J) as (l & K & [MA MB]). apply existsb_exists. exists l. split; auto. apply forallb_forall. intros [a b] P.
  destruct (MB a b P) as (s & t & Q & R1 & R2). apply Nat.eqb_eq. cbn [fst snd].
  assert (E : tev canon canon_val s = tev canon canon_val t).
  { apply (G s t Q canon canon_val); [intros k w []|]. intros x y X. destruct (st_rep _ _ _ _ S x y X) as (z & Z1 & Z2).
    rewrite (rep_canon x C z Z1), (rep_canon y C z Z2). reflexivity. }
  rewrite (rep_canon s C _ R1), (rep_canon t C _ R2) in E. injection E. auto.
Qed.

(** ** Reading the clauses *)
Lemma class_root c : In c (classes pb) -> root h c = c /\ c < length h.
Proof. intros J. apply in_map_iff in J. destruct J as ([d l] & <- & J). destruct (i_part _ _ _ I d l J) as (A & B & _). auto. Qed.
Lemma in_class_ok c : In (root h c) (classes pb) -> exists l, in_class h pb c = Ok l /\ In (root h c, l) (pb_part pb).
Proof. intros J. unfold in_class. destruct (key_nget _ _ J) as (l & E). rewrite E. exists l. split; auto. apply nget_in; auto. Qed.
Lemma class_in c : In c (classes pb) -> In (root h c) (classes pb).
Proof. intros J. rewrite (proj1 (class_root c J)). auto. Qed.
Lemma class_recs c l t : In (c, l) (pb_part pb) -> In t l -> rec_in pb t /\ root h (tr_class t) = c.
Proof. intros J K. split; [exists c, l; auto|]. apply (i_part _ _ _ I c l J). auto. Qed.
Lemma in_upairs l a b : In (a, b) (upairs l) -> In a l /\ In b l.
Proof.
  induction l as [|x l IH]; cbn; [tauto|]. intros J. apply in_app_or in J. destruct J as [J|J].
  - apply in_map_iff in J. destruct J as (y & E & K). injection E as <- <-. auto.
  - destruct (IH J). auto.
Qed.
Lemma upairs_neq l a b : NoDup l -> In (a, b) (upairs l) -> a <> b.
Proof.
  induction 1 as [|x l N D IH]; cbn; [tauto|]. intros J. apply in_app_or in J. destruct J as [J|J]; auto.
  apply in_map_iff in J. destruct J as (y & E & K). injection E as <- <-. congruence.
Qed.
Lemma upairs_in l a b : In a l -> In b l -> a <> b -> In (a, b) (upairs l) \/ In (b, a) (upairs l).
Proof.
  induction l as [|x l IH]; intros A B N; [destruct A|]. cbn. rewrite !in_app_iff. destruct A as [->|A], B as [->|B]; try congruence.
  - left. left. apply in_map; auto.
  - right. left. apply in_map; auto.
  - destruct (IH A B N); auto.
Qed.
Lemma concat_ok {A B} (f : A -> out (list B)) l : (forall a, In a l -> exists x, f a = Ok x) -> exists r, concat_out f l = Ok r.
Proof.
  induction l as [|a l IH]; intros H; [exists []; auto|]. cbn [concat_out]. destruct (H a ltac:(left; auto)) as (x & ->). cbn [bind].
  destruct IH as (r & ->). { intros; apply H; right; auto. } eexists. reflexivity.
Qed.
Lemma concat_incl {A B} (f : A -> out (list B)) l : forall r, concat_out f l = Ok r -> forall a, In a l -> exists x, f a = Ok x /\ incl x r.
Proof.
  induction l as [|b l IH]; intros r E a J; [destruct J|]. cbn [concat_out] in E. destruct (f b) as [x| | |] eqn:F; try discriminate. cbn [bind] in E.
  destruct (concat_out f l) as [y| | |]; try discriminate. cbn [bind] in E. injection E as <-. destruct J as [<-|J].
  - exists x. split; auto. apply incl_appl, incl_refl.
  - destruct (IH y eq_refl a J) as (z & G & K). exists z. split; auto. apply incl_appr. auto.
Qed.
Lemma concat_from {A B} (f : A -> out (list B)) l : forall r, concat_out f l = Ok r -> forall y, In y r -> exists a x, In a l /\ f a = Ok x /\ In y x.
Proof.
  induction l as [|b l IH]; intros r E y J; cbn [concat_out] in E; [injection E as <-; destruct J|]. destruct (f b) as [x| | |] eqn:F; try discriminate. cbn [bind] in E.
  destruct (concat_out f l) as [z| | |]; try discriminate. cbn [bind] in E. injection E as <-. apply in_app_or in J. destruct J as [J|J].
  - exists b, x. split; [left|]; auto.
  - destruct (IH z eq_refl y J) as (a & w & P & Q). exists a, w. split; [right|]; auto.
Qed.
Lemma fun_symbol t : rec_in pb t -> tr_is_meta t = false -> exists l, with_symbol pb (tr_index t) = Ok l /\
  forall u, In u l <-> rec_in pb u /\ tr_is_meta u = false /\ tr_index u = tr_index t.
Proof.
  intros R M. destruct (proj2 (i_funs _ _ _ I (tr_index t) t) ltac:(auto)) as (l & J & K). exists l. unfold with_symbol.
  rewrite (in_zget _ _ _ (i_fkeys _ _ _ I) J). split; auto. intros u. rewrite <- (i_funs _ _ _ I). split; [eauto|].
  intros (l' & J' & K'). pose proof (in_zget _ _ _ (i_fkeys _ _ _ I) J) as E. rewrite (in_zget _ _ _ (i_fkeys _ _ _ I) J') in E. injection E as ->. auto.
Qed.
Lemma same_arity t u : rec_in pb t -> rec_in pb u -> tr_is_meta t = false -> tr_is_meta u = false -> tr_index u = tr_index t ->
  length (tr_args t) = length (tr_args u).
Proof.
  intros A B C D E. pose proof (i_shape _ _ _ I t A) as St. pose proof (i_shape _ _ _ I u B) as Su. unfold shape in *.
  rewrite (is_meta_none _ C) in St. rewrite (is_meta_none _ D) in Su. destruct St as (_ & _ & ->). destruct Su as (_ & _ & ->). congruence.
Qed.
Lemma args_clauses_ok i f l1 : forall l2, length l1 = length l2 -> exists r, args_clauses h i f l1 l2 = Ok r /\
  forall k a b, nth_error l1 k = Some a -> nth_error l2 k = Some b -> In [f; pos (e_var h i a b)] r.
Proof.
  induction l1 as [|x l1 IH]; intros [|y l2] E; try discriminate.
  - exists []. split; auto. intros [|k] a b X; discriminate.
  - cbn [args_clauses]. destruct (IH l2 ltac:(cbn in E; lia)) as (r & -> & H). cbn [bind]. eexists. split; [reflexivity|].
    intros [|k] a b A B; cbn in A, B.
    + injection A as ->. injection B as ->. left. auto.
    + right. eauto.
Qed.
(** the pairs of records compared for two classes *)
Lemma psi_pairs_ok only a b : In a (classes pb) -> exists ps, psi_pairs h pb only a b = Ok ps /\
  forall t u, In (t, u) ps -> rec_in pb t /\ rec_in pb u /\ tr_is_meta t = false /\ tr_is_meta u = false /\ tr_index u = tr_index t /\
    root h (tr_class t) = a /\ tr_args t <> [] /\ root h (tr_class t) <> root h (tr_class u) /\ (only = true -> root h (tr_class u) = root h b).
Proof.
  intros J. unfold psi_pairs. destruct (in_class_ok a (class_in a J)) as (l & -> & K). rewrite (proj1 (class_root a J)) in K. cbn [bind].
  match goal with |- exists ps, concat_out ?f _ = _ /\ _ => set (F := f) end.
  assert (H : forall t, In t l -> exists x, F t = Ok x).
  { intros t T. unfold F. destruct (tr_is_meta t) eqn:M; [eauto|]. destruct (tr_args t); [eauto|].
    destruct (fun_symbol t) as (us & -> & _); auto. { exists a, l. auto. } cbn [bind]. eauto. }
  destruct (concat_ok F l H) as (ps & E). exists ps. split; auto. intros t u P. destruct (concat_from F l ps E _ P) as (t' & x & T & G & Q).
  destruct (class_recs a l t' K T) as (RT & ET). unfold F in G. destruct (tr_is_meta t') eqn:M; [injection G as <-; destruct Q|].
  destruct (tr_args t') eqn:AR; [injection G as <-; destruct Q|]. destruct (fun_symbol t' RT M) as (us & EU & US). rewrite EU in G. cbn [bind] in G.
  injection G as <-. apply in_map_iff in Q. destruct Q as (u' & EQ & Q). injection EQ as -> ->. apply filter_In in Q. destruct Q as (Q & FL).
  apply US in Q. destruct Q as (Q1 & Q2 & Q3). apply andb_prop in FL. destruct FL as (F1 & F2). apply negb_true_iff, Nat.eqb_neq in F1.
  repeat split; auto; try congruence. intros ->. cbn in F2. apply Nat.eqb_eq. auto.
Qed.
Lemma psi_clauses_ok only i a b : In a (classes pb) -> exists cs, psi_clauses h pb only i a b = Ok cs /\
  exists ps, psi_pairs h pb only a b = Ok ps /\
    In (neg (psi_var h i a b) :: map (fun p => pos (f_var i (fst p) (snd p))) ps) cs /\
    forall t u, In (t, u) ps -> forall k x y, nth_error (tr_args t) k = Some x -> nth_error (tr_args u) k = Some y ->
      In [neg (f_var i t u); pos (e_var h i x y)] cs.
Proof.
  intros J. unfold psi_clauses. destruct (psi_pairs_ok only a b J) as (ps & E & H). rewrite E. cbn [bind].
  match goal with |- context [concat_out ?f ps] => set (F := f) end.
  assert (K : forall p, In p ps -> exists x, F p = Ok x /\ forall k c d, nth_error (tr_args (fst p)) k = Some c -> nth_error (tr_args (snd p)) k = Some d ->
              In [neg (f_var i (fst p) (snd p)); pos (e_var h i c d)] x).
  { intros [t u] P. destruct (H t u P) as (A1 & A2 & A3 & A4 & A5 & _). unfold F. cbn [fst snd]. apply args_clauses_ok. apply same_arity; auto. }
  destruct (concat_ok F ps) as (r & ER). { intros p P. destruct (K p P) as (x & ? & _). eauto. } rewrite ER. cbn [bind]. eexists. split; [reflexivity|].
  exists ps. split; auto. split.
  - apply in_or_app. right. left. reflexivity.
  - intros t u P k x y X Y. destruct (concat_incl F ps r ER (t, u) P) as (z & EZ & IN). destruct (K (t, u) P) as (z' & EZ' & HZ).
    rewrite EZ in EZ'. injection EZ' as <-. apply in_or_app. left. apply IN. apply (HZ k); auto.
Qed.
Definition e_step (only : bool) (i : nat) (p : nat * nat) : out (list (list lit)) :=
  let '(a, b) := p in
  if congruent h a b then Ok [] else
  do ps <- psi_clauses h pb only i a b;
  Ok (clause [neg (e_var h (S i) a b); pos (e_var h i a b); pos (phi_var h i a b); pos (psi_var h i a b)] ++ phi_clauses h pb i a b ++ ps).
Lemma e_clauses_ok only : exists cs, e_clauses h pb only = Ok cs /\
  forall i a b, i < number_of_pairs pb -> In (a, b) (upairs (classes pb)) -> exists x, e_step only i (a, b) = Ok x /\ incl x cs.
Proof.
  unfold e_clauses.
  assert (ST : forall i p, In p (upairs (classes pb)) -> exists x, e_step only i p = Ok x).
  { intros i [a b] P. destruct (in_upairs _ _ _ P) as (A & B). unfold e_step. destruct (congruent h a b); [eauto|].
    destruct (psi_clauses_ok only i a b A) as (cs & -> & _). cbn [bind]. eauto. }
  change (exists cs, concat_out (fun i => concat_out (e_step only i) (upairs (classes pb))) (seq 0 (number_of_pairs pb)) = Ok cs /\
    forall i a b, i < number_of_pairs pb -> In (a, b) (upairs (classes pb)) -> exists x, e_step only i (a, b) = Ok x /\ incl x cs).
  destruct (concat_ok (fun i => concat_out (e_step only i) (upairs (classes pb))) (seq 0 (number_of_pairs pb))) as (cs & E).
  { intros i _. apply concat_ok. auto. }
  exists cs. split; auto. intros i a b L P. destruct (concat_incl _ _ _ E i) as (x & F & G). { apply in_seq. lia. }
  destruct (concat_incl _ _ _ F (a, b) P) as (y & K & M). exists y. split; auto. intros z Z. auto.
Qed.
Lemma all_clauses_ok only : exists cs, all_clauses h pb only = Ok cs.
Proof.
  unfold all_clauses.
  assert (A : exists x, subs_clauses h pb = Ok x).
  { apply concat_ok. intros [a b] P. destruct (in_upairs _ _ _ P) as (A & B). unfold subs_clause. cbn [fst snd].
    destruct (in_class_ok a (class_in a A)) as (l & -> & _). cbn [bind]. destruct (in_class_ok b (class_in b B)) as (l' & -> & _). cbn [bind]. eauto. }
  destruct A as (x & ->). cbn [bind]. destruct (e_clauses_ok only) as (y & -> & _). cbn [bind].
  assert (A : exists x, represented_clauses h pb = Ok x).
  { apply concat_ok. intros c C. destruct (in_class_ok c (class_in c C)) as (l & -> & _). cbn [bind]. eauto. }
  destruct A as (z & ->). cbn [bind].
  assert (A : exists x, subterm_clauses h pb = Ok x).
  { apply concat_ok. intros c C. destruct (in_class_ok c (class_in c C)) as (l & -> & _). cbn [bind]. eauto. }
  destruct A as (w & ->). cbn [bind]. eauto.
Qed.

(** ** Assignments *)
Variable truth : var -> bool.
Variable choice : list trec -> option trec.
Hypothesis CH : chooses choice.
Lemma sat_neg v c cs : sat_all truth cs -> In (neg v :: c) cs -> truth v = true -> sat_clause truth c.
Proof. intros S J T. destruct (S _ J) as (l & [<-|K] & E); [cbn in E; congruence|]. exists l. auto. Qed.
Lemma sat_pos v : sat_clause truth [pos v] -> truth v = true.
Proof. intros (l & [<-|[]] & E). exact E. Qed.
Lemma sat_nil : ~ sat_clause truth [].
Proof. intros (l & [] & _). Qed.
Lemma sat_map {T} (f : T -> var) l : sat_clause truth (map (fun t => pos (f t)) l) -> exists t, In t l /\ truth (f t) = true.
Proof. intros (x & J & E). apply in_map_iff in J. destruct J as (t & <- & K). exists t. auto. Qed.

(** the parts of the clauses *)
Record sat_parts (only : bool) : Prop := mkParts
  { sp_map : forall x a b, In x (meta_recs pb) -> In (a, b) (upairs (classes pb)) -> ~ (truth (s_var h x a) = true /\ truth (s_var h x b) = true);
    sp_subs : forall a b, In (a, b) (upairs (classes pb)) -> truth (e_var h 0 a b) = true ->
      (exists t, rec_in pb t /\ tr_is_meta t = true /\ root h (tr_class t) = a /\ truth (s_var h t b) = true) \/
      (exists t, rec_in pb t /\ tr_is_meta t = true /\ root h (tr_class t) = b /\ truth (s_var h t a) = true);
    sp_e : forall i a b, i < number_of_pairs pb -> In (a, b) (upairs (classes pb)) -> truth (e_var h (S i) a b) = true ->
      truth (e_var h i a b) = true \/
      (exists c, In c (classes pb) /\ truth (e_var h i a c) = true /\ truth (e_var h i c b) = true) \/
      (exists ps t u, psi_pairs h pb only a b = Ok ps /\ In (t, u) ps /\
         forall k x y, nth_error (tr_args t) k = Some x -> nth_error (tr_args u) k = Some y -> truth (e_var h i x y) = true);
    sp_goal : pb_goals pb <> [] -> exists g, In g (pb_goals pb) /\ forall a b, In (a, b) g -> truth (e_var h (number_of_pairs pb) a b) = true;
    sp_rep : forall c l, In (c, l) (pb_part pb) -> exists t, In t l /\ truth (r_var h c t) = true;
    sp_sub : forall c l t a, In (c, l) (pb_part pb) -> In t l -> tr_is_meta t = false -> truth (r_var h c t) = true -> In a (tr_args t) ->
      truth (o_var h a c) = true;
    sp_trans : forall i j k, In i (classes pb) -> In j (classes pb) -> In k (classes pb) -> i <> j -> j <> k ->
      truth (VO j i) = true -> truth (VO k j) = true -> truth (VO k i) = true;
    sp_subst : forall x i k, In x (meta_recs pb) -> In i (classes pb) -> In k (classes pb) -> i <> root h (tr_class x) ->
      truth (s_var h x i) = true -> truth (r_var h (tr_class x) x) = true -> truth (VO k i) = true -> truth (VO k (root h (tr_class x))) = true;
    sp_acyclic : forall c, In c (classes pb) -> truth (VO c c) = false }.
Lemma parts only cs : all_clauses h pb only = Ok cs -> sat_all truth cs -> sat_parts only.
Proof.
  unfold all_clauses. destruct (subs_clauses h pb) as [ca| | |] eqn:EA; try discriminate. cbn [bind].
  destruct (e_clauses_ok only) as (cb & EB & HB). rewrite EB. cbn [bind].
  destruct (represented_clauses h pb) as [cc| | |] eqn:EC; try discriminate. cbn [bind].
  destruct (subterm_clauses h pb) as [cd| | |] eqn:ED; try discriminate. cbn [bind]. intros E S. injection E as <-.
  assert (S1 : sat_all truth (mapping_clauses h pb)) by (intros c J; apply S; repeat (apply in_or_app; (left; exact J) || right)).
  assert (S2 : sat_all truth ca) by (intros c J; apply S; apply in_or_app; right; apply in_or_app; left; exact J).
  assert (S3 : sat_all truth cb) by (intros c J; apply S; do 2 (apply in_or_app; right); apply in_or_app; left; exact J).
  assert (S4 : sat_all truth (goal_clauses h pb)) by (intros c J; apply S; do 3 (apply in_or_app; right); apply in_or_app; left; exact J).
  assert (S5 : sat_all truth cc) by (intros c J; apply S; do 4 (apply in_or_app; right); apply in_or_app; left; exact J).
  assert (S6 : sat_all truth cd) by (intros c J; apply S; do 5 (apply in_or_app; right); apply in_or_app; left; exact J).
  assert (S7 : sat_all truth (transitivity_clauses h pb)) by (intros c J; apply S; do 6 (apply in_or_app; right); apply in_or_app; left; exact J).
  assert (S8 : sat_all truth (substitution_clauses h pb)) by (intros c J; apply S; do 7 (apply in_or_app; right); apply in_or_app; left; exact J).
  assert (S9 : sat_all truth (acyclicity_clauses h pb)) by (intros c J; apply S; do 8 (apply in_or_app; right); exact J).
  clear S. constructor.
  - intros x a b X P [T1 T2]. assert (J : In [neg (s_var h x a); neg (s_var h x b)] (mapping_clauses h pb)).
    { apply in_flat_map. exists x. split; auto. apply in_flat_map. exists (a, b). split; auto. left. auto. }
    pose proof (sat_neg _ _ _ S1 J T1) as (l & [<-|[]] & E). cbn in E. congruence.
  - intros a b P T. destruct (concat_incl _ _ _ EA (a, b) P) as (x & EX & IX). cbn [fst snd] in EX. unfold subs_clause in EX.
    destruct (in_upairs _ _ _ P) as (Ca & Cb).
    destruct (in_class_ok a (class_in a Ca)) as (la & E1 & K1). destruct (in_class_ok b (class_in b Cb)) as (lb & E2 & K2).
    rewrite E1, E2 in EX. cbn [bind] in EX. injection EX as <-. rewrite (proj1 (class_root a Ca)) in K1. rewrite (proj1 (class_root b Cb)) in K2.
    pose proof (sat_neg _ _ _ S2 (IX _ (or_introl eq_refl)) T) as (l & J & E). apply in_app_or in J. destruct J as [J|J].
    + apply in_map_iff in J. destruct J as (t & <- & J). apply filter_In in J. destruct J as (J & M). left. exists t. destruct (class_recs a la t K1 J). auto.
    + apply in_map_iff in J. destruct J as (t & <- & J). apply filter_In in J. destruct J as (J & M). right. exists t. destruct (class_recs b lb t K2 J). auto.
  - intros i a b L P T. destruct (HB i a b L P) as (x & EX & IX). destruct (in_upairs _ _ _ P) as (Ca & Cb).
    pose proof (upairs_neq _ _ _ (i_nodup _ _ _ I) P) as N. unfold e_step in EX. unfold congruent in EX.
    rewrite (proj1 (class_root a Ca)), (proj1 (class_root b Cb)) in EX. apply Nat.eqb_neq in N. rewrite N in EX.
    destruct (psi_clauses_ok only i a b Ca) as (pc & EP & ps & EPS & HP & HA). rewrite EP in EX. cbn [bind] in EX. injection EX as <-.
    assert (IP : incl pc cb) by (intros z Z; apply IX; right; apply in_or_app; auto).
    assert (IPH : incl (phi_clauses h pb i a b) cb) by (intros z Z; apply IX; right; apply in_or_app; auto).
    pose proof (sat_neg _ _ _ S3 (IX _ (or_introl eq_refl)) T) as (l & [<-|[<-|[<-|[]]]] & E); cbn [snd pos fst] in E; auto.
    + right. left.
      assert (J : In (neg (phi_var h i a b) :: map (fun c => pos (t_var h i a b c)) (filter (fun c => negb (congruent h c a) && negb (congruent h c b)) (classes pb)))
                     (phi_clauses h pb i a b)) by (apply in_or_app; right; left; auto).
      pose proof (sat_map _ _ (sat_neg _ _ _ S3 (IPH _ J) E)) as (c & Hc & Tc). pose proof Hc as Hc0. apply filter_In in Hc. destruct Hc as (Hc & _). exists c. split; auto.
      assert (J1 : In [neg (t_var h i a b c); pos (e_var h i a c)] (phi_clauses h pb i a b)).
      { apply in_or_app. left. apply in_flat_map. exists c. split; [exact Hc0|]. left. auto. }
      assert (J2 : In [neg (t_var h i a b c); pos (e_var h i c b)] (phi_clauses h pb i a b)).
      { apply in_or_app. left. apply in_flat_map. exists c. split; [exact Hc0|]. right. left. auto. }
      split; apply sat_pos; [exact (sat_neg _ _ _ S3 (IPH _ J1) Tc)|exact (sat_neg _ _ _ S3 (IPH _ J2) Tc)].
    + right. right. pose proof (sat_map _ _ (sat_neg _ _ _ S3 (IP _ HP) E)) as ([t u] & Hp & Tf). cbn [fst snd] in Tf. exists ps, t, u. split; auto. split; auto.
      intros k x y X Y. apply sat_pos. exact (sat_neg _ _ _ S3 (IP _ (HA t u Hp k x y X Y)) Tf).
  - intros NG. unfold goal_clauses in S4. set (gs := combine (seq 0 (length (pb_goals pb))) (pb_goals pb)) in *.
    assert (J : In (map (fun g : nat * list (nat * nat) => pos (VC (fst g))) gs)
                  (flat_map (fun g => flat_map (fun p => clause [neg (VC (fst g)); pos (e_var h (number_of_pairs pb) (fst p) (snd p))]) (snd g)) gs ++
                   clause (map (fun g => pos (VC (fst g))) gs))).
    { apply in_or_app. right. destruct gs as [|x gs'] eqn:EG; [|left; auto]. exfalso. destruct (pb_goals pb); [congruence|discriminate]. }
    destruct (sat_map (fun g : nat * list (nat * nat) => VC (fst g)) gs (S4 _ J)) as ([k g] & G & T). cbn [fst] in T. exists g. split; [eapply in_combine_r; exact G|].
    intros a b P. apply sat_pos. apply (sat_neg (VC k) [pos (e_var h (number_of_pairs pb) a b)] _ S4); auto.
    apply in_or_app. left. apply in_flat_map. exists (k, g). split; auto. apply in_flat_map. exists (a, b). split; auto. left. auto.
  - intros c l J. assert (C : In c (classes pb)) by (apply in_map_iff; exists (c, l); auto).
    destruct (concat_incl _ _ _ EC c C) as (x & EX & IX). destruct (in_class_ok c (class_in c C)) as (l' & E1 & K1). rewrite (proj1 (class_root c C)) in K1.
    pose proof (in_nget _ _ _ (i_nodup _ _ _ I) J) as G. rewrite (in_nget _ _ _ (i_nodup _ _ _ I) K1) in G. injection G as ->.
    rewrite E1 in EX. cbn [bind] in EX. injection EX as <-. apply sat_map. apply S5, IX.
    destruct (i_part _ _ _ I c l J) as (_ & _ & NE & _). destruct l; [congruence|]. left. auto.
  - intros c l t a J K M T A. assert (C : In c (classes pb)) by (apply in_map_iff; exists (c, l); auto).
    destruct (concat_incl _ _ _ ED c C) as (x & EX & IX). destruct (in_class_ok c (class_in c C)) as (l' & E1 & K1). rewrite (proj1 (class_root c C)) in K1.
    pose proof (in_nget _ _ _ (i_nodup _ _ _ I) J) as G. rewrite (in_nget _ _ _ (i_nodup _ _ _ I) K1) in G. injection G as ->.
    rewrite E1 in EX. cbn [bind] in EX. injection EX as <-. apply sat_pos. apply (sat_neg (r_var h c t) [pos (o_var h a c)] _ S6); auto.
    apply IX. apply in_flat_map. exists t. split; auto. rewrite M. apply in_flat_map. exists a. split; auto. left. auto.
  - intros i j k Hi Hj Hk N1 N2 T1 T2. destruct (class_root i Hi) as (Ri & _), (class_root j Hj) as (Rj & _), (class_root k Hk) as (Rk & _).
    assert (J : In [neg (o_var h j i); neg (o_var h k j); pos (o_var h k i)] (transitivity_clauses h pb)).
    { apply in_flat_map. exists i. split; auto. apply in_flat_map. exists j. split; auto. unfold congruent. rewrite Ri, Rj.
      apply Nat.eqb_neq in N1. rewrite N1. apply in_flat_map. exists k. split; auto. rewrite Rk. apply Nat.eqb_neq in N2. rewrite N2. left. auto. }
    unfold o_var in J. rewrite Ri, Rj, Rk in J. pose proof (sat_neg _ _ _ S7 J T1) as (l & [<-|[<-|[]]] & E); cbn in E; congruence.
  - intros x i k X Hi Hk N T1 T2 T3. destruct (class_root i Hi) as (Ri & _), (class_root k Hk) as (Rk & _).
    assert (J : In [neg (s_var h x i); neg (r_var h (tr_class x) x); neg (o_var h k i); pos (o_var h k (tr_class x))] (substitution_clauses h pb)).
    { apply in_flat_map. exists x. split; auto. apply in_flat_map. exists i. split; auto. unfold congruent. rewrite Ri. apply Nat.eqb_neq in N. rewrite N.
      apply in_flat_map. exists k. split; auto. left. auto. }
    unfold o_var in J. rewrite Ri, Rk in J. pose proof (sat_neg _ _ _ S8 J T1) as (l & [<-|[<-|[<-|[]]]] & E); cbn in E; unfold r_var in *; congruence.
  - intros c C. destruct (class_root c C) as (R & _). assert (J : In [neg (o_var h c c)] (acyclicity_clauses h pb)) by (apply in_flat_map; exists c; split; auto; left; auto).
    unfold o_var in J. rewrite R in J. destruct (S9 _ J) as (l & [<-|[]] & E). exact E.
Qed.
End Sat.
