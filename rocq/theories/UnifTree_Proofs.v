(** Proofs about the code trees. *)
From Coq Require Import ZArith List Bool String Permutation Lia PeanoNat.
From Verif Require Import Ast_Model Ast_Proofs Occ_Spec Sem_Spec Unif_Model Unif_Spec UnifRun_Proofs UnifTree_Model UnifTree_Spec.
Import ListNotations.
Open Scope list_scope.
Open Scope Z_scope.

Section NodeInd.
Variable P : node -> Prop.
Hypothesis H : forall v cs fs, Forall P cs -> P (Node v cs fs).
Fixpoint node_ind' (n : node) : P n :=
  match n with
  | Node v cs fs => H v cs fs ((fix go (l : list node) : Forall P l := match l with [] => Forall_nil P | c :: r => Forall_cons c (node_ind' c) (go r) end) cs)
  end.
End NodeInd.

(** ** Depth: Begin opens, End closes *)
Definition step (d : nat) (i : instr) : nat := match i with Begin => S d | End _ => pred d | _ => d end.
(** the depth after the instructions, [None] when it is zero before the end *)
Fixpoint scan (d : nat) (is : list instr) : option nat :=
  match is with
  | [] => Some d
  | i :: r => match step d i, r with O, _ :: _ => None | d', _ => scan d' r end
  end.
Lemma scan_app a : forall b d e, a <> [] -> b <> [] ->
  scan d (a ++ b) = Some e <-> exists d1, scan d a = Some (S d1) /\ scan (S d1) b = Some e.
Proof.
  induction a as [|i a IH]; intros b d e Ha Hb; [congruence|]. destruct a as [|j a].
  - cbn. destruct b as [|k b]; [congruence|]. destruct (step d i) as [|d1].
    + split; [discriminate|]. intros (d1 & E & _). discriminate.
    + split; [intros E; exists d1; split; [reflexivity|exact E]|]. intros (d2 & E & E2). injection E as <-. exact E2.
  - cbn [app scan]. destruct (step d i) as [|d1].
    + split; [discriminate|]. intros (d1 & E & _). discriminate.
    + apply (IH b (S d1) e); [discriminate|exact Hb].
Qed.
Lemma equiv_step i j d : iequiv i j = true -> step d i = step d j.
Proof. destruct i as [|[]| | | | | | |], j as [|[]| | | | | | |]; cbn; intros E; try discriminate E; reflexivity. Qed.
Lemma equiv_scan a b : Forall2 (fun i j => iequiv i j = true) a b -> forall d, scan d a = scan d b.
Proof.
  induction 1 as [|i j a b E F IH]; intros d; [reflexivity|]. cbn. rewrite (equiv_step i j d E).
  destruct (step d j); [destruct F; auto|]; destruct F; auto.
Qed.
Lemma equiv_same i j : iequiv i j = true -> same_instr i j.
Proof.
  destruct i as [|[]| | | | | | |], j as [|[]| | | | | | |]; cbn; intros E; try discriminate E; try reflexivity;
    rewrite ?andb_true_iff, ?String.eqb_eq, ?Z.eqb_eq, ?Nat.eqb_eq in E; intuition congruence.
Qed.

Lemma walk_spec is : forall value a x y, walk is value = (a, x, y) ->
  value = a ++ y /\ exists b, is = b ++ x /\ Forall2 (fun i j => iequiv i j = true) b a.
Proof.
  induction is as [|i r IH]; intros value a x y E.
  - cbn in E. injection E as <- <- <-. split; [reflexivity|]. exists []. split; [reflexivity|constructor].
  - destruct value as [|v w].
    + cbn in E. injection E as <- <- <-. split; [reflexivity|]. exists []. split; [reflexivity|constructor].
    + cbn in E. destruct (iequiv i v) eqn:Q.
      * destruct (walk r w) as [[a' x'] y'] eqn:W. injection E as <- <- <-. destruct (IH _ _ _ _ W) as (-> & b & -> & F).
        split; [reflexivity|]. exists (i :: b). split; [reflexivity|constructor; auto].
      * injection E as <- <- <-. split; [reflexivity|]. exists []. split; [reflexivity|constructor].
Qed.
Lemma walk_nonempty i r v w : iequiv i v = true -> fst (fst (walk (i :: r) (v :: w))) <> [].
Proof. cbn. intros ->. destruct (walk r w) as [[a x] y]. discriminate. Qed.

(** ** Well formed trees *)
Inductive good : nat -> node -> Prop :=
| good_leaf d v fs : v <> [] -> scan d v = Some O -> fs <> [] -> good d (Node v [] fs)
| good_inner d v cs e : v <> [] -> scan d v = Some (S e) -> cs <> [] -> Forall (good (S e)) cs -> good d (Node v cs []).

Definition alike (a b : list instr) : Prop := Forall2 (fun i j => iequiv i j = true \/ i = j) a b.
Lemma alike_refl a : alike a a.
Proof. induction a; constructor; auto. Qed.
Lemma alike_of a b : Forall2 (fun i j => iequiv i j = true) a b -> alike a b.
Proof. induction 1; constructor; auto. Qed.
Lemma alike_app a b c d : alike a b -> alike c d -> alike (a ++ c) (b ++ d).
Proof. apply Forall2_app. Qed.

(** the tree after the insertion holds the same formulas and the new one, unless an equal one is there *)
Definition adds (n n' : node) (is : list instr) (f : item) : Prop :=
  exists p0, alike is p0 /\
    (forall p g, stored n' p g -> stored n p g \/ (p = p0 /\ g = f)) /\
    (forall p g, stored n p g -> stored n' p g) /\
    exists g, stored n' p0 g /\ (g = f \/ item_eqb f g = true).

Lemma stored_inv v cs fs p f : stored (Node v cs fs) p f -> (p = v /\ In f fs) \/ exists c q, p = v ++ q /\ In c cs /\ stored c q f.
Proof. inversion 1; subst; [left; auto|right; eauto]. Qed.

Lemma follow_ok n : forall d is f, good d n -> is <> [] -> scan d is = Some O -> (exists i r, is = i :: r /\ starts_with i n = true) ->
  good d (follow n is f) /\ adds n (follow n is f) is f /\ (forall i, starts_with i (follow n is f) = starts_with i n).
Proof.
  induction n as [v cs fs IH] using node_ind'. intros d is f G Hne Hsc (i0 & r0 & Eis & St).
  destruct v as [|v0 w0]; [discriminate|]. cbn in St. subst is.
  cbn [follow]. pose proof (walk_nonempty i0 r0 v0 w0 St) as Wn.
  destruct (walk (i0 :: r0) (v0 :: w0)) as [[a x] y] eqn:W. cbn in Wn.
  destruct (walk_spec _ _ _ _ _ W) as (Ev & b & Eb & F).
  assert (bn : b <> []) by (intros ->; inversion F; subst; congruence).
  assert (Hd : forall q cs' fs', starts_with q (Node a cs' fs') = starts_with q (Node (v0 :: w0) cs fs)).
  { intros q cs' fs'. destruct a as [|a0 a]; [congruence|]. cbn in Ev. injection Ev as <- _. reflexivity. }
  destruct x as [|i r].
  - rewrite app_nil_r in Eb.
    assert (y = []).
    { destruct y as [|y0 y]; [reflexivity|]. exfalso. rewrite Eb in Hsc. rewrite (equiv_scan _ _ F d) in Hsc.
      assert (Hv : exists e, scan d (v0 :: w0) = Some e) by (inversion G; eauto). destruct Hv as [e Hv]. rewrite Ev in Hv.
      apply scan_app in Hv; [|exact Wn|discriminate]. destruct Hv as (d1 & E1 & _). congruence. }
    subst y. rewrite app_nil_r in Ev. split.
    + assert (Hv : scan d (v0 :: w0) = Some O) by (rewrite Ev, <- (equiv_scan _ _ F d), <- Eb; exact Hsc).
      inversion G; subst; [|congruence]. apply good_leaf; auto. destruct (existsb _ fs); [auto|]. destruct fs; discriminate.
    + split; [|intros i; reflexivity]. exists (v0 :: w0). split; [rewrite Eb, Ev; apply alike_of, F|]. split; [|split].
      * intros p g S. apply stored_inv in S. destruct S as [[-> S]|(c & q & -> & Hc & S)].
        -- destruct (existsb (item_eqb f) fs); [left; constructor; exact S|]. apply in_app_iff in S. destruct S as [S|[S|[]]]; [left; constructor; exact S|right; auto].
        -- left. econstructor; eauto.
      * intros p g S. apply stored_inv in S. destruct S as [[-> S]|(c & q & -> & Hc & S)]; [|econstructor; eauto].
        constructor. destruct (existsb _ fs); [exact S|]. apply in_app_iff; auto.
      * destruct (existsb (item_eqb f) fs) eqn:E.
        -- apply existsb_exists in E. destruct E as (g & Hg & E). exists g. split; [constructor; exact Hg|auto].
        -- exists f. split; [constructor; apply in_app_iff; right; left; reflexivity|auto].
  - assert (Hb : exists d1, scan d b = Some (S d1) /\ scan (S d1) (i :: r) = Some O).
    { rewrite Eb in Hsc. apply scan_app in Hsc; [exact Hsc|exact bn|discriminate]. }
    destruct Hb as (d1 & Sb & Sr). pose proof Sb as Sa. rewrite (equiv_scan _ _ F d) in Sa. destruct y as [|y0 y].
    + rewrite app_nil_r in Ev. rewrite Ev in *.
      assert (Gi : fs = [] /\ cs <> [] /\ Forall (good (S d1)) cs).
      { inversion G; subst; [congruence|]. rewrite Sa in *. match goal with H : Some (S d1) = Some (S ?e) |- _ => injection H as <- end. auto. }
      destruct Gi as (-> & Hcs & Gc).
      set (go := fix go (l : list node) : list node * bool :=
        match l with
        | [] => ([], false)
        | c :: l =>
          let '(l', found) := go l in
          if found then (c :: l', true)
          else if starts_with i c then (follow c (i :: r) f :: l', true) else (c :: l', false)
        end).
      assert (Go : forall l, Forall (good (S d1)) l -> Forall (fun n : node =>
         forall (d : nat) (is : list instr) (f : item), good d n -> is <> [] -> scan d is = Some 0%nat ->
         (exists i r, is = i :: r /\ starts_with i n = true) ->
         good d (follow n is f) /\ adds n (follow n is f) is f /\ (forall i, starts_with i (follow n is f) = starts_with i n)) l ->
         match go l with
         | (l', true) => exists l1 c l2, l = l1 ++ c :: l2 /\ l' = l1 ++ follow c (i :: r) f :: l2 /\ good (S d1) (follow c (i :: r) f) /\
                                          adds c (follow c (i :: r) f) (i :: r) f
         | (l', false) => l' = l
         end).
      { clear - Sr. induction l as [|c l IHl]; intros Gl Il; [reflexivity|]. inversion Gl; inversion Il; subst. specialize (IHl H2 H6).
        cbn. destruct (go l) as [l' [|]].
        - destruct IHl as (l1 & c' & l2 & -> & -> & G1 & G2). exists (c :: l1), c', l2. auto.
        - subst l'. destruct (starts_with i c) eqn:E; [|reflexivity]. exists [], c, l.
          destruct (H5 (S d1) (i :: r) f H1 ltac:(discriminate) Sr (ex_intro _ i (ex_intro _ r (conj eq_refl E)))) as (G1 & G2 & _). auto. }
      specialize (Go cs Gc IH). destruct (go cs) as [cs' [|]].
      * destruct Go as (l1 & c & l2 & Ecs & Ecs' & G1 & (p0 & P1 & P2 & P3 & g & P4 & P5)). split; [|split; [|intros; reflexivity]].
        -- rewrite <- Ev. apply (good_inner d (v0 :: w0) cs' d1); [discriminate|rewrite Ev; exact Sa|subst cs'; destruct l1; discriminate|].
           subst. apply Forall_app in Gc. destruct Gc as [Gc1 Gc2]. inversion Gc2; subst. apply Forall_app. split; [exact Gc1|]. constructor; auto.
        -- rewrite <- Ev. exists ((v0 :: w0) ++ p0). split; [rewrite Eb, Ev; apply alike_app; [apply alike_of, F|exact P1]|]. split; [|split].
           ++ intros p g' S. apply stored_inv in S. destruct S as [[-> []]|(c' & q & -> & Hc & S)]. subst cs'.
              apply in_app_iff in Hc. destruct Hc as [Hc|[Hc|Hc]].
              ** left. econstructor; [|exact S]. subst cs. apply in_app_iff; auto.
              ** subst c'. destruct (P2 q g' S) as [S'|[-> ->]]; [|right; auto]. left. econstructor; [|exact S']. subst cs. apply in_app_iff; right; left; reflexivity.
              ** left. econstructor; [|exact S]. subst cs. apply in_app_iff; right; right; exact Hc.
           ++ intros p g' S. apply stored_inv in S. destruct S as [[-> []]|(c' & q & -> & Hc & S)]. subst cs.
              apply in_app_iff in Hc. destruct Hc as [Hc|[Hc|Hc]].
              ** econstructor; [|exact S]. subst cs'. apply in_app_iff; auto.
              ** subst c'. econstructor; [|apply P3; exact S]. subst cs'. apply in_app_iff; right; left; reflexivity.
              ** econstructor; [|exact S]. subst cs'. apply in_app_iff; right; right; exact Hc.
           ++ exists g. split; [|exact P5]. econstructor; [|exact P4]. subst cs'. apply in_app_iff; right; left; reflexivity.
      * split; [|split; [|intros; reflexivity]].
        -- rewrite <- Ev. apply (good_inner d (v0 :: w0) _ d1); [discriminate|rewrite Ev; exact Sa|destruct cs; discriminate|].
           apply Forall_app. split; [exact Gc|]. constructor; [|constructor]. apply good_leaf; [discriminate|exact Sr|discriminate].
        -- rewrite <- Ev. exists ((v0 :: w0) ++ i :: r). split; [rewrite Eb, Ev; apply alike_app; [apply alike_of, F|apply alike_refl]|]. split; [|split].
           ++ intros p g' S. apply stored_inv in S. destruct S as [[-> []]|(c' & q & -> & Hc & S)].
              apply in_app_iff in Hc. destruct Hc as [Hc|[Hc|[]]]; [left; econstructor; eauto|]. subst c'.
              apply stored_inv in S. destruct S as [[-> [S|[]]]|(c & q' & _ & [] & _)]. auto.
           ++ intros p g' S. apply stored_inv in S. destruct S as [[-> []]|(c' & q & -> & Hc & S)]. econstructor; [|exact S]. apply in_app_iff; auto.
           ++ exists f. split; [|auto]. econstructor; [apply in_app_iff; right; left; reflexivity|]. constructor. left; reflexivity.
    + split; [|split; [|intros; apply Hd]].
      * apply (good_inner d a _ d1); [exact Wn|exact Sa|discriminate|]. constructor; [|constructor; [|constructor]].
        -- inversion G; subst.
           ++ match goal with H : scan d (v0 :: w0) = _ |- _ => rewrite Ev in H; apply scan_app in H; [|exact Wn|discriminate]; destruct H as (d2 & E1 & E2) end.
              rewrite Sa in E1. injection E1 as <-. apply good_leaf; [discriminate|exact E2|assumption].
           ++ match goal with H : scan d (v0 :: w0) = _ |- _ => rewrite Ev in H; apply scan_app in H; [|exact Wn|discriminate]; destruct H as (d2 & E1 & E2) end.
              rewrite Sa in E1. injection E1 as <-. eapply good_inner; [discriminate|exact E2|assumption|assumption].
        -- apply good_leaf; [discriminate|exact Sr|discriminate].
      * exists (a ++ i :: r). split; [rewrite Eb; apply alike_app; [apply alike_of, F|apply alike_refl]|]. split; [|split].
        -- intros p g' S. apply stored_inv in S. destruct S as [[-> []]|(c' & q & -> & Hc & S)]. destruct Hc as [Hc|[Hc|[]]]; subst c'.
           ++ left. apply stored_inv in S. destruct S as [[-> S]|(c & q' & -> & Hc & S)].
              ** rewrite <- Ev. constructor. exact S.
              ** rewrite app_assoc, <- Ev. econstructor; eauto.
           ++ apply stored_inv in S. destruct S as [[-> [S|[]]]|(c & q' & _ & [] & _)]. auto.
        -- intros p g' S. apply stored_inv in S. destruct S as [[-> S]|(c' & q & -> & Hc & S)]; rewrite Ev.
           ++ econstructor; [left; reflexivity|]. constructor. exact S.
           ++ rewrite <- app_assoc. econstructor; [left; reflexivity|]. econstructor; eauto.
        -- exists f. split; [|auto]. econstructor; [right; left; reflexivity|]. constructor. left; reflexivity.
Qed.

(** ** The instructions of a formula *)
Lemma scan_cons d i r : r <> [] -> scan (S d) (i :: r) = match step (S d) i with O => None | d' => scan d' r end.
Proof. cbn. destruct (step (S d) i); [destruct r; congruence|reflexivity]. Qed.
Lemma scan_plain d l rest : Forall (fun i => step (S d) i = S d) l -> rest <> [] -> scan (S d) (l ++ rest) = scan (S d) rest.
Proof.
  induction 1 as [|i l Hi Hl IH]; intros Hr; [reflexivity|]. cbn [app]. rewrite scan_cons, Hi; [auto|].
  destruct l; [exact Hr|discriminate].
Qed.
Lemma app_ne {A} (a b : list A) : b <> [] -> a ++ b <> [].
Proof. destruct a; [auto|discriminate]. Qed.
Local Hint Resolve app_ne : core.
Lemma plain_comparisons mt m d : Forall (fun i => step d i = d) (comparisons mt m).
Proof. unfold comparisons. apply Forall_forall. intros x Hx. apply in_map_iff in Hx. destruct Hx as (j & <- & _). reflexivity. Qed.
Definition balanced (is : list instr) : Prop := forall d rest, rest <> [] -> scan (S d) (is ++ rest) = scan (S d) rest.
Lemma balanced_list l : Forall (fun t => forall right mt pc, balanced (fst (parse_term right t mt pc))) l ->
  forall mt pc, balanced (fst (parse_list l mt pc)).
Proof.
  induction 1 as [|a r Ha Hr IH]; intros mt pc d rest Hne; [reflexivity|]. cbn.
  specialize (Ha (nonempty r) mt pc). destruct (parse_term (nonempty r) a mt pc) as [i1 mt1]. cbn in Ha.
  specialize (IH mt1 pc). destruct (parse_list r mt1 pc) as [i2 mt2]. cbn in *. rewrite <- app_assoc, Ha, IH; auto.
Qed.
Lemma balanced_term t : forall right mt pc, balanced (fst (parse_term right t mt pc)).
Proof.
  induction t as [i|p tys l IH|i n|m] using term_ind'; intros right mt pc d rest Hne; try reflexivity.
  - destruct l as [|a r].
    + destruct rest as [|i0 rest]; [congruence|]. destruct right; reflexivity.
    + rewrite UnifRun_Proofs.parse_fun by discriminate. pose proof (balanced_list _ IH mt (if right then S pc else pc)) as B.
      destruct (parse_list (a :: r) mt (if right then S pc else pc)) as [is mt']. cbn [fst] in *.
      cbn [app]. rewrite !scan_cons by (try discriminate; auto). cbn [step].
      assert (E : scan (S (S d)) ((Down :: is ++ (if right then [Pop pc] else []) ++ [End (Some (Fun p tys (a :: r)))]) ++ rest) = scan (S d) rest).
      { cbn [app]. rewrite scan_cons by (repeat rewrite <- app_assoc; repeat apply app_ne; exact Hne). cbn [step].
        rewrite <- app_assoc, B by (rewrite <- app_assoc; repeat apply app_ne; exact Hne).
        destruct right; cbn [app]; [rewrite scan_cons by discriminate; cbn [step]|]; rewrite scan_cons by exact Hne; reflexivity. }
      rewrite <- E. destruct right; cbn [app]; rewrite !(scan_cons (S d) (Check p)) by discriminate; cbn [step]; [|reflexivity].
      rewrite (scan_cons (S d) (Push pc)) by discriminate. reflexivity.
  - cbn [parse_term fst]. cbn [app]. rewrite scan_cons by (rewrite <- app_assoc; repeat apply app_ne; exact Hne). cbn [step].
    rewrite <- app_assoc. rewrite scan_plain; [|apply plain_comparisons|apply app_ne; exact Hne].
    apply scan_plain; [|exact Hne]. destruct right; repeat constructor.
Qed.
Section Ids.
Variable name_id : string -> ident.
Lemma scan_item f is : parse_item name_id f = Some is -> scan 0 is = Some O /\ exists r, is = Begin :: r.
Proof.
  destruct f as [ix p tys args|ix t]; cbn [parse_item]; intros E.
  - destruct (functional_args name_id tys args) as [l|]; [|discriminate]. cbn in E. injection E as <-. split; [|eexists; reflexivity].
    destruct (nonempty tys || nonempty args); [|reflexivity].
    cbn [app]. change (scan 0 ?x) with (scan 0 ([Begin] ++ tl x)). apply scan_app; [discriminate|discriminate|]. exists O. split; [reflexivity|].
    cbn [tl]. do 3 (rewrite scan_cons by (discriminate || (apply app_ne; discriminate)); cbn [step]).
    rewrite <- app_assoc. rewrite (balanced_list l) by (try discriminate; apply Forall_forall; intros; apply balanced_term). reflexivity.
  - injection E as <-. split; [|eexists; reflexivity]. unfold parse_term_form, parse_one.
    change (scan 0 (Begin :: ?x)) with (scan 0 ([Begin] ++ x)). apply scan_app; [discriminate|apply app_ne; discriminate|].
    exists O. split; [reflexivity|]. rewrite balanced_term by discriminate. reflexivity.
Qed.
End Ids.

Lemma item_eqb_reflect f g : item_eqb f g = true <-> same_item f g.
Proof.
  destruct f as [ix p tys args|ix t], g as [ix' p' tys' args'|ix' t']; cbn; try (split; [discriminate|inversion 1]).
  - rewrite !andb_true_iff, tys_eqb_reflect. unfold id_eqb. rewrite Z.eqb_eq.
    rewrite (list_eqb_reflect term_eqb same_term) by (apply Forall_forall; intros; apply term_eqb_reflect). 
    split; [intros [[? ?] ?]; constructor; auto|inversion 1; auto].
  - rewrite term_eqb_reflect. split; [constructor; auto|inversion 1; auto].
Qed.
Lemma same_item_refl f : same_item f f.
Proof.
  destruct f; constructor; auto using same_term_refl; apply Forall2_refl, Forall_forall; intros; auto using same_ty_refl, same_term_refl.
Qed.
Lemma alike_same a b : alike a b -> Forall2 same_instr a b.
Proof.
  induction 1 as [|i j a b H F IH]; constructor; auto. destruct H as [H| ->]; [apply equiv_same, H|].
  destruct j; cbn; auto.
Qed.
Lemma adds_same n n' is f : adds n n' is f -> exists p0, Forall2 same_instr is p0 /\
    (forall p g, stored n' p g -> stored n p g \/ (p = p0 /\ g = f)) /\
    (forall p g, stored n p g -> stored n' p g) /\ exists g, stored n' p0 g /\ same_item f g.
Proof.
  intros (p0 & A & B & C & g & D & E). exists p0. split; [apply alike_same, A|]. split; [exact B|]. split; [exact C|].
  exists g. split; [exact D|]. destruct E as [-> |E]; [apply same_item_refl|apply item_eqb_reflect, E].
Qed.

(** ** Building a tree *)
Definition rooted (n : node) : Prop := n = empty_node \/ (good 0 n /\ starts_with Begin n = true).
Lemma insert_ok name_id n f is : rooted n -> parse_item name_id f = Some is ->
  rooted (insert n is f) /\ insert n is f <> empty_node /\ adds n (insert n is f) is f.
Proof.
  intros R E. destruct (scan_item name_id f is E) as (Sc & r & ->). destruct R as [-> |[G S]].
  - cbn [insert empty_node]. split; [right; split; [apply good_leaf; [discriminate|exact Sc|discriminate]|reflexivity]|].
    split; [discriminate|]. exists (Begin :: r). split; [apply alike_refl|]. split; [|split].
    + intros p g St. apply stored_inv in St. destruct St as [[-> [St|[]]]|(c & q & _ & [] & _)]. auto.
    + intros p g St. apply stored_inv in St. destruct St as [[-> []]|(c & q & _ & [] & _)].
    + exists f. split; [constructor; left; reflexivity|auto].
  - destruct n as [[|v0 v] cs fs]; [discriminate|].
    destruct (follow_ok (Node (v0 :: v) cs fs) 0 (Begin :: r) f G ltac:(discriminate) Sc (ex_intro _ Begin (ex_intro _ r (conj eq_refl S)))) as (G' & A & S').
    cbn [insert]. split; [right; split; [exact G'|rewrite S'; exact S]|]. split; [|exact A].
    intros Em. rewrite Em in S'. specialize (S' Begin). rewrite S in S'. discriminate.
Qed.
Lemma insert_all_ok name_id fs : forall n n', rooted n -> insert_all name_id fs n = Some n' ->
  rooted n' /\ (fs <> [] -> n' <> empty_node) /\ (n <> empty_node -> n' <> empty_node) /\
  (forall p g, stored n' p g -> stored n p g \/ (In g fs /\ exists is, parse_item name_id g = Some is /\ Forall2 same_instr is p)) /\
  (forall p g, stored n p g -> stored n' p g) /\
  (forall f, In f fs -> exists p is g, stored n' p g /\ same_item f g /\ parse_item name_id f = Some is /\ Forall2 same_instr is p).
Proof.
  induction fs as [|f fs IH]; intros n n' R E.
  - injection E as <-. split; [exact R|]. split; [congruence|]. split; [auto|]. split; [auto|]. split; [auto|]. intros f [].
  - cbn in E. destruct (parse_item name_id f) as [is|] eqn:P; [|discriminate].
    destruct (insert_ok name_id n f is R P) as (R1 & Ne & A). apply adds_same in A. destruct A as (p0 & A0 & A1 & A2 & g0 & A3 & A4).
    destruct (IH _ _ R1 E) as (R2 & _ & N1 & B1 & B2 & B3). split; [exact R2|]. split; [auto|]. split; [auto|]. split; [|split].
    + intros p g S. destruct (B1 p g S) as [S'|[H1 H2]].
      * destruct (A1 p g S') as [S''|[-> ->]]; [auto|]. right. split; [left; reflexivity|eauto].
      * right. split; [right; exact H1|exact H2].
    + auto.
    + intros f' [<-|Hf]; [|auto]. exists p0, is, g0. auto.
Qed.
Theorem tree_contents name_id fs n : make_tree name_id fs = Some n ->
  (forall p g, stored n p g -> In g fs /\ exists is, parse_item name_id g = Some is /\ Forall2 same_instr is p) /\
  (forall f, In f fs -> exists p is g, stored n p g /\ same_item f g /\ parse_item name_id f = Some is /\ Forall2 same_instr is p).
Proof.
  intros E. destruct (insert_all_ok name_id fs empty_node n (or_introl eq_refl) E) as (_ & _ & _ & H1 & _ & H2). split; [|exact H2].
  intros p g S. destruct (H1 p g S) as [S'|S']; [|exact S']. apply stored_inv in S'. destruct S' as [[_ []]|(c & q & _ & [] & _)].
Qed.

(** ** Searching *)
Lemma same_instr_exec add i j m : same_instr i j -> exec add i m = exec add j m.
Proof.
  intros E. assert (G : i = j \/ exists p q, i = Check p /\ j = Check q /\ id_index p = id_index q).
  { destruct i, j; cbn [same_instr] in E; try discriminate E; try (left; exact E). right. destruct E. eauto. }
  destruct G as [-> |(p & q & -> & -> & G)]; [reflexivity|].
  cbn [exec]. destruct (unlocked m); [|reflexivity]. destruct (current m) as [c| | |]; cbn [bind]; [|reflexivity..].
  unfold match_indexes. rewrite G. reflexivity.
Qed.
Lemma same_instr_exec_all add a b : Forall2 same_instr a b -> forall m, exec_all add a m = exec_all add b m.
Proof.
  induction 1 as [|i j a b H F IH]; intros m; [reflexivity|]. cbn. rewrite (same_instr_exec add i j m H).
  destruct (exec add j m); cbn; auto.
Qed.
Section Search.
Variable name_id : string -> ident.
Variable add : term -> term -> substs -> out substs.
Variable comp : list (nat * term) -> list meta -> substs -> out substs.
Local Notation leaf_results := (leaf_results name_id comp).
Local Notation search := (search name_id add comp).
Local Notation found := (found name_id add comp).
Local Notation found_list := (found_list name_id add comp).

Fixpoint search_list (l : list node) (m : mach) : out (list (item * substs)) :=
  match l with
  | [] => Ok []
  | c :: r => do x <- search c m; do y <- search_list r m; Ok (x ++ y)
  end.
Lemma search_node v cs fs m : search (Node v cs fs) m =
  match exec_all add v m with
  | Fail => Ok []
  | Crash => Crash
  | Out => Out
  | Ok m' => do l1 <- leaf_results m' fs; do l2 <- search_list cs m'; Ok (l1 ++ l2)
  end.
Proof.
  cbn. destruct (exec_all add v m) as [m'| | |]; [|reflexivity..]. destruct (leaf_results m' fs); cbn; [|reflexivity..].
  assert (E : forall l, (fix go (l : list node) : out (list (item * substs)) :=
                  match l with
                  | [] => Ok []
                  | c :: r => do x <- search c m'; do y <- go r; Ok (x ++ y)
                  end) l = search_list l m').
  { induction l as [|c r IH]; [reflexivity|]. cbn. destruct (search c m'); cbn; [|reflexivity..]. rewrite IH. reflexivity. }
  rewrite E. reflexivity.
Qed.

(** the answer for a formula at the end of a path *)
Definition answers (p : list instr) (m : mach) (f : item) (s : substs) : Prop :=
  exists mt m', item_metas name_id f = Some mt /\ exec_all add p m = Ok m' /\ comp (mc_subst m') mt (mc_meta m') = Ok s /\ is_failure s = false.
Lemma leaf_in m fs : forall l, leaf_results m fs = Ok l -> forall f s, In (f, s) l <->
  In f fs /\ exists mt, item_metas name_id f = Some mt /\ comp (mc_subst m) mt (mc_meta m) = Ok s /\ is_failure s = false.
Proof.
  induction fs as [|f0 r IH]; intros l E f s; cbn in E.
  - injection E as <-. cbn. tauto.
  - destruct (item_metas name_id f0) as [mt|] eqn:M; [|discriminate].
    destruct (comp (mc_subst m) mt (mc_meta m)) as [s0| | |] eqn:C; try discriminate. cbn in E.
    destruct (leaf_results m r) as [l'| | |]; try discriminate. cbn in E. injection E as <-. specialize (IH l' eq_refl f s).
    destruct (is_failure s0) eqn:Fa.
    + rewrite IH. split; [intros [H1 H2]; split; [right; exact H1|exact H2]|]. intros [[<-|H1] (mt' & H2 & H3 & H4)].
      * rewrite M in H2. injection H2 as <-. rewrite C in H3. injection H3 as <-. congruence.
      * split; eauto.
    + cbn [In]. rewrite IH. split.
      * intros [E|[H1 H2]]; [injection E as <- <-; split; [left; reflexivity|eauto]|]. split; [right; exact H1|exact H2].
      * intros [[<-|H1] H2]; [|right; auto]. destruct H2 as (mt' & H2 & H3 & H4). rewrite M in H2. injection H2 as <-.
        rewrite C in H3. injection H3 as <-. left. reflexivity.
Qed.
Lemma exec_app a b m : exec_all add (a ++ b) m = bind (exec_all add a m) (exec_all add b).
Proof. revert m. induction a as [|i r IH]; intros m; [reflexivity|]. cbn. destruct (exec add i m); cbn; [apply IH|reflexivity..]. Qed.
Lemma search_in n : forall m l, search n m = Ok l -> forall f s, In (f, s) l <-> exists p, stored n p f /\ answers p m f s.
Proof.
  induction n as [v cs fs IH] using node_ind'. intros m l E f s. rewrite search_node in E.
  destruct (exec_all add v m) as [m'| | |] eqn:X; try discriminate.
  - destruct (leaf_results m' fs) as [l1| | |] eqn:L1; try discriminate. cbn in E.
    destruct (search_list cs m') as [l2| | |] eqn:L2; try discriminate. cbn in E. injection E as <-.
    assert (H2 : In (f, s) l2 <-> exists c p, In c cs /\ stored c p f /\ answers p m' f s).
    { clear - IH L2. revert l2 L2. induction IH as [|c r Hc Hr IHr]; intros l2 L2.
      - injection L2 as <-. split; [intros []|]. intros (c & p & [] & _).
      - cbn in L2. destruct (search c m') as [x| | |] eqn:E1; try discriminate. cbn in L2.
        destruct (search_list r m') as [y| | |] eqn:E2; try discriminate. cbn in L2. injection L2 as <-.
        rewrite in_app_iff, (Hc m' x E1 f s), (IHr y eq_refl). split.
        + intros [(p & H1 & H2)|(c' & p & H1 & H2 & H3)]; [exists c, p; split; [left; reflexivity|auto]|exists c', p; split; [right; exact H1|auto]].
        + intros (c' & p & [<-|H1] & H2 & H3); [left; eauto|right; eauto]. }
    rewrite in_app_iff, (leaf_in m' fs l1 L1 f s), H2. split.
    + intros [[H1 (mt & H3 & H4 & H5)]|(c & p & Hc & Hs & mt & m2 & H3 & H4 & H5 & H6)].
      * exists v. split; [constructor; exact H1|]. exists mt, m'. auto.
      * exists (v ++ p). split; [econstructor; eauto|]. exists mt, m2. rewrite exec_app, X. auto.
    + intros (p & S & mt & m2 & H3 & H4 & H5 & H6). apply stored_inv in S. destruct S as [[-> S]|(c & q & -> & Hc & S)].
      * left. rewrite X in H4. injection H4 as <-. split; [exact S|eauto].
      * right. rewrite exec_app, X in H4. cbn in H4. exists c, q. split; [exact Hc|]. split; [exact S|]. exists mt, m2. auto.
  - injection E as <-. split; [intros []|]. intros (p & S & mt & m2 & H3 & H4 & H5 & H6).
    apply stored_inv in S. destruct S as [[-> S]|(c & q & -> & Hc & S)]; [congruence|]. rewrite exec_app, X in H4. discriminate.
Qed.

(** nothing goes wrong when nothing goes wrong on any path *)
Lemma good_stored n : forall d, good d n -> exists p f, stored n p f.
Proof.
  induction n as [v cs fs IH] using node_ind'. intros d G. inversion G as [? ? ? ? ? Hf|? ? ? e ? ? Hcs Gc]; subst.
  - destruct fs as [|f r]; [congruence|]. exists v, f. constructor. left; reflexivity.
  - destruct cs as [|c r]; [congruence|]. inversion IH; subst. inversion Gc; subst.
    match goal with H : forall d, good d c -> _ |- _ => destruct (H _ ltac:(eassumption)) as (p & f & S) end.
    exists (v ++ p), f. econstructor; [left; reflexivity|exact S].
Qed.
Lemma leaf_no_crash m fs : (forall f, In f fs -> exists mt, item_metas name_id f = Some mt /\ comp (mc_subst m) mt (mc_meta m) <> Crash /\ comp (mc_subst m) mt (mc_meta m) <> Fail) ->
  leaf_results m fs <> Crash /\ leaf_results m fs <> Fail.
Proof.
  induction fs as [|f r IH]; intros H; [split; discriminate|]. cbn. destruct (H f (or_introl eq_refl)) as (mt & -> & H2 & H3).
  destruct (comp (mc_subst m) mt (mc_meta m)); try congruence; cbn; [|split; discriminate].
  destruct (IH (fun g Hg => H g (or_intror Hg))) as [I1 I2]. destruct (leaf_results m r); cbn; try congruence; split; discriminate.
Qed.
Lemma search_no_crash n : forall d m, good d n ->
  (forall p f, stored n p f -> exec_all add p m <> Crash /\ forall m', exec_all add p m = Ok m' ->
     exists mt, item_metas name_id f = Some mt /\ comp (mc_subst m') mt (mc_meta m') <> Crash /\ comp (mc_subst m') mt (mc_meta m') <> Fail) ->
  search n m <> Crash /\ search n m <> Fail.
Proof.
  induction n as [v cs fs IH] using node_ind'. intros d m G H. rewrite search_node.
  destruct (good_stored _ d G) as (p0 & f0 & S0).
  destruct (exec_all add v m) as [m'| | |] eqn:X; try (split; discriminate).
  - assert (L : leaf_results m' fs <> Crash /\ leaf_results m' fs <> Fail).
    { apply leaf_no_crash. intros f Hf. apply (H v f); [constructor; exact Hf|exact X]. }
    destruct L as [L1 L2]. destruct (leaf_results m' fs) as [l1| | |]; try congruence; cbn; [|split; discriminate].
    assert (L : search_list cs m' <> Crash /\ search_list cs m' <> Fail).
    { assert (Gc : exists e, Forall (good e) cs) by (inversion G; subst; [exists O; constructor|eauto]). destruct Gc as [e Gc].
      assert (Hc : forall c, In c cs -> search c m' <> Crash /\ search c m' <> Fail).
      { intros c Hc. rewrite Forall_forall in IH, Gc. apply (IH c Hc e m' (Gc c Hc)). intros p f S.
        specialize (H (v ++ p) f ltac:(econstructor; eauto)). rewrite exec_app, X in H. exact H. }
      clear - Hc. induction cs as [|c r IHr]; [split; discriminate|]. cbn. destruct (Hc c (or_introl eq_refl)) as [C1 C2].
      destruct (search c m'); try congruence; cbn; [|split; discriminate]. destruct (IHr (fun x Hx => Hc x (or_intror Hx))) as [R1 R2].
      destruct (search_list r m'); try congruence; cbn; split; discriminate. }
    destruct L as [L3 L4]. destruct (search_list cs m'); try congruence; cbn; split; discriminate.
  - exfalso. apply stored_inv in S0. destruct S0 as [[-> S]|(c & q & -> & Hc & S)].
    + apply (H v f0); [constructor; exact S|exact X].
    + apply (H (v ++ q) f0); [econstructor; eauto|]. rewrite exec_app, X. reflexivity.
Qed.

(** ** Orders of arrival *)
Lemma search_list_perm cs cs' m l : Permutation cs cs' -> search_list cs m = Ok l -> exists l', search_list cs' m = Ok l' /\ Permutation l l'.
Proof.
  intros P. revert l. induction P as [|c r r' P IH|a b r|r1 r2 r3 P1 IH1 P2 IH2]; intros l E.
  - exists l. split; [exact E|reflexivity].
  - cbn in *. destruct (search c m); try discriminate. cbn in *. destruct (search_list r m); try discriminate. cbn in E. injection E as <-.
    destruct (IH _ eq_refl) as (l' & -> & P'). eexists. split; [reflexivity|]. apply Permutation_app_head, P'.
  - cbn in *. destruct (search b m); try discriminate. cbn in *. destruct (search a m); try discriminate. cbn in *.
    destruct (search_list r m); try discriminate. cbn in *. injection E as <-. eexists. split; [reflexivity|].
    rewrite !app_assoc. apply Permutation_app_tail, Permutation_app_comm.
  - destruct (IH1 l E) as (l1 & E1 & Q1). destruct (IH2 l1 E1) as (l2 & E2 & Q2). exists l2. split; [exact E2|]. etransitivity; eauto.
Qed.
Theorem found_search n : forall m l, found n m l -> exists l', search n m = Ok l' /\ Permutation l l'.
Proof.
  induction n as [v cs fs IH] using node_ind'. intros m l F. rewrite search_node. inversion F as [? ? ? ? X|? ? ? ? m' l1 cs' l2 X L1 P F2]; subst.
  - rewrite X. eauto.
  - rewrite X, L1. cbn. assert (IH' : Forall (fun n => forall m l, found n m l -> exists l', search n m = Ok l' /\ Permutation l l') cs').
    { rewrite Forall_forall in *. intros c Hc. apply IH. eapply Permutation_in; [symmetry; exact P|exact Hc]. }
    assert (E : exists l2', search_list cs' m' = Ok l2' /\ Permutation l2 l2').
    { clear - IH' F2. revert l2 F2. induction IH' as [|c r Hc Hr IHr]; intros l2 F2.
      - inversion F2; subst. exists []. split; [reflexivity|constructor].
      - inversion F2 as [|? ? ? x y Fx Fy]; subst. destruct (Hc m' x Fx) as (x' & Ex & Px). destruct (IHr y Fy) as (y' & Ey & Py).
        cbn. rewrite Ex. cbn. rewrite Ey. cbn. eexists. split; [reflexivity|]. apply Permutation_app; assumption. }
    destruct E as (l2' & E2 & P2). destruct (search_list_perm cs' cs m' l2' (Permutation_sym P) E2) as (l3 & E3 & P3).
    rewrite E3. cbn. eexists. split; [reflexivity|]. apply Permutation_app_head. etransitivity; eauto.
Qed.
Theorem search_found n : forall m l, search n m = Ok l -> found n m l.
Proof.
  induction n as [v cs fs IH] using node_ind'. intros m l E. rewrite search_node in E.
  destruct (exec_all add v m) as [m'| | |] eqn:X; try discriminate.
  - destruct (leaf_results m' fs) as [l1| | |] eqn:L1; try discriminate. cbn in E.
    destruct (search_list cs m') as [l2| | |] eqn:L2; try discriminate. cbn in E. injection E as <-.
    econstructor; [exact X|exact L1|reflexivity|]. clear - IH L2. revert l2 L2. induction IH as [|c r Hc Hr IHr]; intros l2 L2.
    + injection L2 as <-. constructor.
    + cbn in L2. destruct (search c m') as [x| | |] eqn:E1; try discriminate. cbn in L2.
      destruct (search_list r m') as [y| | |] eqn:E2; try discriminate. cbn in L2. injection L2 as <-. constructor; auto 8.
  - injection E as <-. constructor. exact X.
Qed.
Theorem any_order n m l1 l2 : found n m l1 -> found n m l2 -> Permutation l1 l2.
Proof.
  intros F1 F2. destruct (found_search _ _ _ F1) as (x & E1 & P1). destruct (found_search _ _ _ F2) as (y & E2 & P2).
  rewrite E1 in E2. injection E2 as <-. etransitivity; [exact P1|symmetry; exact P2].
Qed.

(** the index answers as the formulas one by one *)
Theorem search_direct fs n q l : make_tree name_id fs = Some n -> unify_tree name_id add comp n q = Ok l ->
  (forall f s, In (f, s) l -> In f fs /\ direct name_id add comp q f s) /\
  (forall f, In f fs -> exists g, In g fs /\ same_item f g /\ forall s, direct name_id add comp q g s -> In (g, s) l).
Proof.
  intros T E. unfold unify_tree in E. destruct (query_term name_id q) as [t|] eqn:Q; [|discriminate].
  destruct (tree_contents name_id fs n T) as [C1 C2]. split.
  - intros f s Hin. apply (search_in n _ l E f s) in Hin. destruct Hin as (p & S & mt & m' & H1 & H2 & H3 & H4).
    destruct (C1 p f S) as (Hf & is & P & F). split; [exact Hf|]. exists t, is, mt, m'. rewrite (same_instr_exec_all add _ _ F). auto 8.
  - intros f Hf. destruct (C2 f Hf) as (p & is & g & S & Sg & P & F). exists g. destruct (C1 p g S) as (Hg & is' & P' & F').
    split; [exact Hg|]. split; [exact Sg|]. intros s (t' & is2 & mt & m & D1 & D2 & D3 & D4 & D5 & D6).
    apply (search_in n _ l E g s). exists p. split; [exact S|]. rewrite Q in D1. injection D1 as <-. rewrite P' in D2. injection D2 as <-.
    exists mt, m. rewrite <- (same_instr_exec_all add _ _ F'). auto 8.
Qed.
End Search.
