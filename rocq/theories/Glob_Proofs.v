(** Proofs about the containers of src/Glob. *)
From Coq Require Import ZArith List Bool Lia PeanoNat.
From Verif Require Import Glob_Model Glob_Spec.
Import ListNotations.
Open Scope list_scope.

(** ** RemoveAll *)
Section Removal.
Context {A : Type}.
Variable e : A -> A -> bool.
Implicit Types (l : glist A) (P S T : list A).

Lemma remove_vals : forall i l l', l_len l <= length (l_arr l) -> l_remove i l = Some l' ->
  i < l_len l /\ l_vals l' = firstn i (l_vals l) ++ skipn (i + 1) (l_vals l) /\ l_len l' = l_len l - 1 /\ length (l_arr l') = length (l_arr l).
Proof.
  intros i [a n] l' H. cbn [l_len l_arr] in *. unfold l_remove. cbn [l_len l_arr].
  destruct (i + 1 <=? n) eqn:E; [|discriminate]. apply Nat.leb_le in E. intros [= <-]. unfold l_vals. cbn [l_len l_arr].
  assert (L1 : length (firstn i a) = i) by (rewrite firstn_length; lia).
  assert (L2 : length (firstn (n - (i + 1)) (skipn (i + 1) a)) = n - (i + 1)) by (rewrite firstn_length, skipn_length; lia).
  repeat split; try lia.
  - rewrite app_assoc, firstn_app. rewrite app_length, L1, L2.
    replace (n - 1 - (i + (n - (i + 1)))) with 0 by lia. rewrite firstn_O, app_nil_r, firstn_all2 by (rewrite app_length, L1, L2; lia).
    rewrite firstn_firstn. replace (min i n) with i by lia. f_equal. rewrite skipn_firstn_comm. reflexivity.
  - rewrite !app_length, L1, L2, skipn_length. lia.
Qed.
Lemma others_remove : forall x i vs v, nth_error vs i = Some v -> e v x = true -> others e x (firstn i vs ++ skipn (i + 1) vs) = others e x vs.
Proof.
  intros x i. unfold others. induction i as [|i IH]; intros [|a vs] v Hn Hv; cbn in Hn; try discriminate.
  - injection Hn as ->. cbn. rewrite Hv. reflexivity.
  - cbn. rewrite (IH vs v Hn Hv). reflexivity.
Qed.
Lemma nth_firstn : forall (vs : list A) n i v, nth_error vs i = Some v -> i < n -> nth_error (firstn n vs) i = Some v.
Proof.
  induction vs as [|a vs IH]; intros [|n] [|i] v Hn Hi; cbn in *; try discriminate; try lia; auto. apply IH; [exact Hn | lia].
Qed.
Lemma remove_from_others : forall x n i l l', l_len l <= length (l_arr l) -> remove_from e x i n l = Some l' ->
  others e x (l_vals l') = others e x (l_vals l).
Proof.
  intros x. induction n as [|n IH]; intros i l l' Hl H; cbn [remove_from] in H; [injection H as <-; reflexivity|].
  destruct (nth_error (l_arr l) i) as [v|] eqn:En; [|discriminate]. destruct (e v x) eqn:Ev; [|eauto].
  destruct (l_remove i l) as [l1|] eqn:Er; [|discriminate].
  destruct (remove_vals i l l1 Hl Er) as (Hi & Hv & Hn & Ha). rewrite (IH (i + 1) l1 l' ltac:(lia) H), Hv.
  apply others_remove with v; [|exact Ev]. unfold l_vals. apply nth_firstn; [exact En | exact Hi].
Qed.
Theorem remove_all_others : forall x s l', remove_all e x (new_list s) = Some l' -> others e x (l_vals l') = others e x s.
Proof.
  intros x s l' H. rewrite (remove_from_others x _ _ (new_list s) _ (le_n (length s)) H). unfold l_vals, new_list. cbn. rewrite firstn_all. reflexivity.
Qed.

Lemma read_mid : forall P a R, nth_error (P ++ a :: R) (length P) = Some a.
Proof. induction P; intros; cbn; auto. Qed.
Lemma remove_mid : forall P a S T, l_remove (length P) (mkL (P ++ (a :: S) ++ T) (length P + length (a :: S))) =
  Some (mkL (P ++ S ++ skipn (length S) (a :: S) ++ T) (length P + length S)).
Proof.
  intros P a S T. unfold l_remove. cbn [l_len l_arr]. cbn [length].
  destruct (length P + 1 <=? length P + Datatypes.S (length S)) eqn:E; [|apply Nat.leb_gt in E; lia].
  f_equal. f_equal; [|lia].
  rewrite firstn_app, Nat.sub_diag, firstn_O, app_nil_r, firstn_all. f_equal.
  assert (Hs : forall k R, skipn (length P + k) (P ++ R) = skipn k R).
  { intros k R. rewrite skipn_app, skipn_all2 by lia. cbn. f_equal. lia. }
  replace (length P + Datatypes.S (length S) - 1) with (length P + length S) by lia. rewrite !Hs.
  replace (length P + Datatypes.S (length S) - (length P + 1)) with (length S) by lia. cbn [app]. f_equal.
  - cbn [skipn]. rewrite firstn_app, Nat.sub_diag, firstn_O, app_nil_r, firstn_all. reflexivity.
  - change (a :: S ++ T) with ((a :: S) ++ T). rewrite skipn_app. f_equal. cbn [length]. replace (length S - Datatypes.S (length S)) with 0 by lia. reflexivity.
Qed.
Lemma no_more : forall x T P R v, (forall y, In y T -> e y x = false) -> remove_from e x (length P) (length T) (mkL (P ++ T ++ R) v) = Some (mkL (P ++ T ++ R) v).
Proof.
  intros x. induction T as [|a T IH]; intros P R v H; [reflexivity|]. cbn [remove_from length l_arr app]. rewrite read_mid.
  rewrite (H a (or_introl eq_refl)).
  change (P ++ a :: T ++ R) with (P ++ [a] ++ (T ++ R)). rewrite app_assoc. replace (length P + 1) with (length (P ++ [a])) by (rewrite app_length; reflexivity).
  apply IH. intros y Hy. apply H. right. exact Hy.
Qed.
Lemma last_indep : forall (S : list A) d d', S <> [] -> last S d = last S d'.
Proof.
  induction S as [|a S IH]; intros d d' H; [congruence|]. destruct S as [|b S]; [reflexivity|]. apply (IH d d'). discriminate.
Qed.
Lemma last_skip : forall a S, skipn (length S) (a :: S) = [last (a :: S) a].
Proof.
  intros a S. revert a. induction S as [|b S IH]; intros a; [reflexivity|]. cbn [length skipn]. rewrite IH. f_equal.
  change (last (b :: S) b = last (b :: S) a). apply last_indep. discriminate.
Qed.
Lemma last_in : forall (S : list A) d, S <> [] -> In (last S d) S.
Proof.
  induction S as [|a S IH]; intros d H; [congruence|]. destruct S as [|b S]; [left; reflexivity|]. right. apply (IH d). discriminate.
Qed.
Lemma remove_apart : forall x m S P T, length S <= m -> apart e x S -> (forall d, S <> [] -> e (last S d) x = false) -> (forall y, In y T -> e y x = false) ->
  exists l', remove_from e x (length P) (length S + length T) (mkL (P ++ S ++ T) (length P + length S)) = Some l' /\ l_vals l' = P ++ others e x S.
Proof.
  intros x. induction m as [|m IH]; intros S P T Hm Ha Hl Ht.
  { destruct S; [|cbn in Hm; lia]. eexists. split; [cbn; rewrite <- (app_nil_r T) at 2; apply no_more; exact Ht|].
    unfold l_vals. cbn. rewrite firstn_app, Nat.add_0_r, Nat.sub_diag, firstn_O, firstn_all. reflexivity. }
  destruct S as [|a S].
  { eexists. split; [cbn; rewrite <- (app_nil_r T) at 2; apply no_more; exact Ht|].
    unfold l_vals. cbn. rewrite firstn_app, Nat.add_0_r, Nat.sub_diag, firstn_O, firstn_all. reflexivity. }
  cbn [length plus]. cbn [remove_from l_arr]. change ((a :: S) ++ T) with (a :: S ++ T) at 1. rewrite read_mid.
  destruct (e a x) eqn:Ea.
  - replace (Datatypes.S (length S)) with (length (a :: S)) by reflexivity. rewrite remove_mid.
    destruct S as [|b S]; [exfalso; specialize (Hl a); cbn in Hl; rewrite Ea in Hl; discriminate Hl; discriminate|].
    rewrite last_skip. destruct Ha as [Hab Ha]. specialize (Hab Ea).
    assert (Hlast : e (last (a :: b :: S) a) x = false) by (apply Hl; discriminate).
    destruct (IH S (P ++ [b]) (last (a :: b :: S) a :: T)) as (l' & H1 & H2).
    + cbn in Hm. lia.
    + destruct S as [|c S]; [exact Logic.I | apply Ha].
    + intros d Hd. rewrite <- (Hl d) by discriminate. destruct S; [congruence|]. reflexivity.
    + intros y [<- | Hy]; [exact Hlast | auto].
    + exists l'. split.
      * rewrite <- H1. f_equal; [rewrite app_length; reflexivity | cbn [length]; lia |].
        f_equal; [rewrite <- app_assoc; reflexivity | rewrite app_length; cbn; lia].
      * rewrite H2. unfold others. cbn [filter]. rewrite Ea, Hab. cbn. rewrite <- app_assoc. reflexivity.
  - destruct (IH S (P ++ [a]) T) as (l' & H1 & H2).
    + cbn in Hm. lia.
    + destruct S as [|c S]; [exact Logic.I | apply Ha].
    + intros d Hd. rewrite <- (Hl d) by discriminate. destruct S; [congruence|]. reflexivity.
    + exact Ht.
    + exists l'. split.
      * rewrite <- H1. f_equal; [rewrite app_length; reflexivity |].
        f_equal; [rewrite <- app_assoc; reflexivity | rewrite app_length; cbn; lia].
      * rewrite H2. unfold others. cbn [filter]. rewrite Ea. cbn. rewrite <- app_assoc. reflexivity.
Qed.
Lemma none_filter : forall x (S : list A), length (filter (fun y => e y x) S) = 0 -> forall y, In y S -> e y x = false.
Proof.
  intros x. induction S as [|a S IH]; intros H y Hy; [destruct Hy|]. cbn in H. destruct (e a x) eqn:Ea; [discriminate|].
  destruct Hy as [<- | Hy]; auto.
Qed.
Lemma none_apart : forall x (S : list A), (forall y, In y S -> e y x = false) -> apart e x S.
Proof.
  intros x. induction S as [|a S IH]; intros H; [exact Logic.I|]. cbn. destruct S as [|b S]; [exact Logic.I|]. split.
  - intros _. apply H. right. left. reflexivity.
  - apply IH. intros y Hy. apply H. right. exact Hy.
Qed.
Lemma none_others : forall x (S : list A), (forall y, In y S -> e y x = false) -> others e x S = S.
Proof.
  intros x. induction S as [|a S IH]; intros H; [reflexivity|]. unfold others in *. cbn. rewrite (H a (or_introl eq_refl)). cbn. f_equal.
  apply IH. intros y Hy. apply H. right. exact Hy.
Qed.
Lemma remove_once : forall x S P, occurrences e x S <= 1 ->
  exists l', remove_from e x (length P) (length S) (mkL (P ++ S) (length P + length S)) = Some l' /\ l_vals l' = P ++ others e x S.
Proof.
  intros x. unfold occurrences. induction S as [|a S IH]; intros P H.
  { eexists. split; [reflexivity|]. unfold l_vals. cbn. rewrite app_nil_r, Nat.add_0_r, firstn_all. reflexivity. }
  cbn in H. cbn [length remove_from l_arr]. rewrite read_mid. destruct (e a x) eqn:Ea.
  - cbn in H. assert (Hno := none_filter x S ltac:(lia)).
    pose proof (remove_mid P a S []) as Hr. rewrite !app_nil_r in Hr. cbn [length] in Hr. rewrite Hr. clear Hr. rewrite last_skip.
    destruct S as [|b S].
    + cbn [remove_from length]. eexists. split; [reflexivity|]. unfold l_vals. cbn. rewrite Ea. cbn.
      rewrite firstn_app, Nat.add_0_r, Nat.sub_diag, firstn_O, firstn_all. reflexivity.
    + destruct (remove_apart x (length S) S (P ++ [b]) [last (a :: b :: S) a]) as (l' & H1 & H2).
      * lia.
      * apply none_apart. intros y Hy. apply Hno. right. exact Hy.
      * intros d Hd. apply Hno. right. apply last_in. exact Hd.
      * intros y [<- | []]. apply Hno. change (last (a :: b :: S) a) with (last (b :: S) a). apply last_in. discriminate.
      * exists l'. split.
        -- rewrite <- H1. f_equal; [rewrite app_length; reflexivity | cbn [length]; lia |].
           f_equal; [rewrite <- app_assoc; reflexivity | rewrite app_length; cbn; lia].
        -- rewrite H2. unfold others. cbn [filter]. rewrite Ea, (Hno b (or_introl eq_refl)). cbn. rewrite <- app_assoc. reflexivity.
  - destruct (IH (P ++ [a]) H) as (l' & H1 & H2). exists l'. split.
    + rewrite <- H1. f_equal; [rewrite app_length; reflexivity |].
      f_equal; [rewrite <- app_assoc; reflexivity | rewrite app_length; cbn; lia].
    + rewrite H2. unfold others. cbn. rewrite Ea. cbn. rewrite <- app_assoc. reflexivity.
Qed.
Theorem remove_all_right : forall x s, occurrences e x s <= 1 \/ (apart e x s /\ forall d, s <> [] -> e (last s d) x = false) ->
  exists l', remove_all e x (new_list s) = Some l' /\ l_vals l' = others e x s.
Proof.
  intros x s [H | [H1 H2]].
  - exact (remove_once x s [] H).
  - destruct (remove_apart x (length s) s [] [] (le_n _) H1 H2 ltac:(intros y [])) as (l' & H3 & H4). exists l'. split; [|exact H4].
    rewrite <- H3. unfold remove_all, new_list. cbn. rewrite Nat.add_0_r, app_nil_r. reflexivity.
Qed.
End Removal.

(** ** Sets *)
Section Sets.
Context {A : Type}.
Variable e : A -> A -> bool.
Hypothesis He : equivalence e.
Lemma index_appears : forall l x i, (index_from e i l x <> None) <-> appears e x l.
Proof.
  induction l as [|a l IH]; intros x i; cbn.
  - split; [congruence | intros (y & [] & _)].
  - destruct (e a x) eqn:E.
    + split; [|congruence]. intros _. exists a. split; [left; reflexivity | exact E].
    + rewrite IH. split.
      * intros (y & Hy & Hx). exists y. split; [right; exact Hy | exact Hx].
      * intros (y & [<- | Hy] & Hx); [congruence|]. exists y. auto.
Qed.
Lemma contains_appears : forall l x, contains e l x = true <-> appears e x l.
Proof.
  intros l x. rewrite <- (index_appears l x 0). unfold contains, index_of. destruct (index_from e 0 l x); split; congruence.
Qed.
Lemma contains_not : forall l x, contains e l x = false <-> ~ appears e x l.
Proof. intros l x. rewrite <- contains_appears. destruct (contains e l x); split; congruence. Qed.
Lemma distinct_app : forall l x, distinct e l -> ~ appears e x l -> distinct e (l ++ [x]).
Proof.
  induction l as [|a l IH]; intros x Hd Hx; cbn; [split; [intros y [] | exact Logic.I]|].
  destruct Hd as [H1 H2]. split.
  - intros y Hy. apply in_app_iff in Hy. destruct Hy as [Hy | [<- | []]]; [auto|].
    destruct (e a x) eqn:E; [|reflexivity]. exfalso. apply Hx. exists a. split; [left; reflexivity | exact E].
  - apply IH; [exact H2|]. intros (y & Hy & Hyx). apply Hx. exists y. split; [right; exact Hy | exact Hyx].
Qed.
Lemma append_new_distinct : forall xs l, distinct e l -> distinct e (append_new e l xs).
Proof.
  induction xs as [|x xs IH]; intros l Hd; [exact Hd|]. cbn. apply IH. destruct (contains e l x) eqn:E; [exact Hd|].
  apply distinct_app; [exact Hd | apply contains_not; exact E].
Qed.
Lemma append_new_appears : forall xs l x, appears e x (append_new e l xs) <-> appears e x l \/ appears e x xs.
Proof.
  induction xs as [|a xs IH]; intros l x; cbn.
  - split; [auto|]. intros [H | (y & [] & _)]. exact H.
  - rewrite IH. assert (Ha : appears e x (a :: xs) <-> e a x = true \/ appears e x xs).
    { split.
      - intros (y & [<- | Hy] & Hx); [left; exact Hx | right; exists y; auto].
      - intros [H | (y & Hy & Hx)]; [exists a; cbn; auto | exists y; cbn; auto]. }
    rewrite Ha. destruct (contains e l a) eqn:E.
    + apply contains_appears in E. destruct E as (y & Hy & Hya). split; [intuition|].
      intros [H | [H | H]]; auto. left. exists y. split; [exact Hy | exact (e_trans e He _ _ _ Hya H)].
    + assert (Hl : appears e x (l ++ [a]) <-> appears e x l \/ e a x = true).
      { split.
        - intros (y & Hy & Hx). apply in_app_iff in Hy. destruct Hy as [Hy | [<- | []]]; [left; exists y; auto | right; exact Hx].
        - intros [(y & Hy & Hx) | H]; [exists y; rewrite in_app_iff; auto | exists a; rewrite in_app_iff; cbn; auto]. }
      rewrite Hl. intuition.
Qed.
(** what is there stays, in its place *)
Lemma append_new_prefix : forall xs l, exists r, append_new e l xs = l ++ r.
Proof.
  induction xs as [|x xs IH]; intros l; [exists []; cbn; rewrite app_nil_r; reflexivity|]. cbn. destruct (contains e l x); [apply IH|].
  destruct (IH (l ++ [x])) as (r & Hr). exists (x :: r). rewrite Hr, <- app_assoc. reflexivity.
Qed.
Lemma contains_all_spec : forall l xs, contains_all e l xs = true <-> forall x, In x xs -> appears e x l.
Proof.
  intros l xs. unfold contains_all. rewrite forallb_forall. split; intros H x Hx; apply contains_appears, H, Hx.
Qed.
End Sets.

(** ** Maps *)
Section Maps.
Context {A B : Type}.
Variable eA : A -> A -> bool.
Variable eB : B -> B -> bool.
Hypothesis HA : equivalence eA.
Definition well (m : @gmap A B) : Prop := distinct eA (fst m) /\ length (fst m) = length (snd m).
Lemma eA_congr : forall x k k', eA k k' = true -> eA x k = eA x k'.
Proof.
  intros x k k' H. destruct (eA x k) eqn:E1, (eA x k') eqn:E2; try reflexivity.
  - rewrite (e_trans eA HA _ _ _ E1 H) in E2. discriminate.
  - rewrite (e_trans eA HA _ _ _ E2 (e_sym eA HA _ _ H)) in E1. discriminate.
Qed.
Lemma get_in_congr : forall keys (vals : list B) k k', eA k k' = true -> get_in eA keys vals k = get_in eA keys vals k'.
Proof.
  induction keys as [|x keys IH]; intros [|v vals] k k' H; cbn; try reflexivity. rewrite (eA_congr x k k' H), (IH vals k k' H). reflexivity.
Qed.
Lemma get_in_some : forall keys (vals : list B) k, length keys = length vals -> (get_in eA keys vals k <> None <-> appears eA k keys).
Proof.
  induction keys as [|x keys IH]; intros [|v vals] k H; try discriminate H.
  - cbn. split; [congruence | intros (y & [] & _)].
  - cbn. injection H as H. destruct (eA x k) eqn:E.
    + split; [|congruence]. intros _. exists x. split; [left; reflexivity | exact E].
    + rewrite (IH vals k H). split.
      * intros (y & Hy & Hk). exists y. split; [right; exact Hy | exact Hk].
      * intros (y & [<- | Hy] & Hk); [congruence | exists y; auto].
Qed.
Lemma set_in_none : forall keys (vals : list B) k v, length keys = length vals -> (set_in eA keys vals k v = None <-> get_in eA keys vals k = None).
Proof.
  induction keys as [|x keys IH]; intros [|w vals] k v H; try discriminate H; cbn; [split; reflexivity|].
  injection H as H. destruct (eA x k) eqn:E; [split; discriminate|]. specialize (IH vals k v H).
  destruct (set_in eA keys vals k v) as [[o q]|]; [split; [discriminate|]; intros Hn; apply IH in Hn; discriminate|].
  split; [intros _; apply IH; reflexivity | reflexivity].
Qed.
Lemma set_in_some : forall keys (vals : list B) k v o q, set_in eA keys vals k v = Some (o, q) ->
  get_in eA keys vals k = Some o /\ length q = length vals /\
  forall k', get_in eA keys q k' = if eA k k' then Some v else get_in eA keys vals k'.
Proof.
  induction keys as [|x keys IH]; intros [|w vals] k v o q H; try discriminate H. cbn in H |- *. destruct (eA x k) eqn:E.
  - injection H as <- <-. split; [reflexivity|]. split; [reflexivity|]. intros k'. cbn. destruct (eA x k') eqn:E2.
    + destruct (eA k k') eqn:E3; [reflexivity|].
      rewrite (e_trans eA HA _ _ _ (e_sym eA HA _ _ E) E2) in E3. discriminate.
    + destruct (eA k k') eqn:E3; [|reflexivity]. rewrite (e_trans eA HA _ _ _ E E3) in E2. discriminate.
  - destruct (set_in eA keys vals k v) as [[o' q']|] eqn:Es; [|discriminate]. injection H as <- <-.
    destruct (IH vals k v _ _ Es) as (H1 & H2 & H3). split; [exact H1|]. split; [cbn; lia|].
    intros k'. cbn. destruct (eA x k') eqn:E2; [|apply H3].
    destruct (eA k k') eqn:E3; [|reflexivity]. rewrite (e_trans eA HA _ _ _ E2 (e_sym eA HA _ _ E3)) in E. discriminate.
Qed.
Lemma get_in_app : forall keys (vals : list B) k v k', length keys = length vals -> get_in eA keys vals k = None ->
  get_in eA (keys ++ [k]) (vals ++ [v]) k' = if eA k k' then Some v else get_in eA keys vals k'.
Proof.
  induction keys as [|x keys IH]; intros [|w vals] k v k' H Hn; try discriminate H.
  - cbn. reflexivity.
  - cbn in Hn |- *. destruct (eA x k) eqn:E; [discriminate|]. injection H as H. destruct (eA x k') eqn:E2; [|apply IH; assumption].
    destruct (eA k k') eqn:E3; [|reflexivity]. rewrite (e_trans eA HA _ _ _ E2 (e_sym eA HA _ _ E3)) in E. discriminate.
Qed.
Lemma set_spec : forall m k v, well m -> well (fst (m_set eA m k v)) /\ snd (m_set eA m k v) = m_get eA m k /\
  forall k', m_get eA (fst (m_set eA m k v)) k' = if eA k k' then Some v else m_get eA m k'.
Proof.
  intros [keys vals] k v [Hd Hl]. unfold m_set, m_get, well in *. cbn [fst snd] in *.
  destruct (set_in eA keys vals k v) as [[o q]|] eqn:E; cbn [fst snd].
  - destruct (set_in_some _ _ _ _ _ _ E) as (H1 & H2 & H3). repeat split; auto. lia.
  - apply set_in_none in E; [|exact Hl]. repeat split; auto.
    + apply distinct_app; [exact Hd|]. intros Ha. apply (get_in_some keys vals k Hl) in Ha. congruence.
    + rewrite !app_length. cbn. lia.
    + intros k'. apply get_in_app; assumption.
Qed.
Lemma index_shift : forall l x i, index_from eA (S i) l x = option_map S (index_from eA i l x).
Proof. induction l as [|a l IH]; intros x i; cbn; [reflexivity|]. destruct (eA a x); [reflexivity | apply IH]. Qed.
Lemma remove_in : forall C i (l : list C) x, In x (remove_at i l) -> In x l.
Proof.
  intros C i l x H. unfold remove_at in H. apply in_app_iff in H. rewrite <- (firstn_skipn i l), in_app_iff.
  destruct H as [H | H]; [auto|]. right. replace (i + 1) with (1 + i) in H by lia.
  rewrite <- (firstn_skipn 1 (skipn i l)), in_app_iff. right. revert H. clear. revert l.
  induction i as [|i IH]; intros l H; [exact H|]. destruct l as [|a l]; [exact H | apply (IH l H)].
Qed.
Lemma remove_distinct : forall i l, distinct eA l -> distinct eA (remove_at i l).
Proof.
  induction i as [|i IH]; intros [|a l] H; try exact H; [apply H|]. destruct H as [H1 H2]. split; [|apply IH; exact H2].
  intros y Hy. apply H1. exact (remove_in _ i l y Hy).
Qed.
Lemma remove_length : forall C i (l : list C), length (remove_at i l) = if i <? length l then length l - 1 else length l.
Proof.
  intros C. induction i as [|i IH]; intros [|a l]; try reflexivity; [unfold remove_at; cbn; lia|].
  change (remove_at (S i) (a :: l)) with (a :: remove_at i l). cbn [length]. rewrite IH. change (S i <? S (length l)) with (i <? length l).
  destruct (i <? length l) eqn:E; [apply Nat.ltb_lt in E; lia | reflexivity].
Qed.
Lemma unset_get : forall keys (vals : list B) k i, distinct eA keys -> length keys = length vals -> index_from eA 0 keys k = Some i ->
  forall k', get_in eA (remove_at i keys) (remove_at i vals) k' = if eA k k' then None else get_in eA keys vals k'.
Proof.
  induction keys as [|x keys IH]; intros [|v vals] k i Hd Hl Hi k'; try discriminate. destruct Hd as [Hd1 Hd2]. injection Hl as Hl.
  cbn in Hi. destruct (eA x k) eqn:E.
  - injection Hi as <-. cbn. destruct (eA k k') eqn:E2.
    + destruct (get_in eA keys vals k') eqn:Eg; [|reflexivity]. exfalso.
      assert (Ha : appears eA k' keys) by (apply (get_in_some keys vals k' Hl); congruence). destruct Ha as (y & Hy & Hk).
      assert (Hx : eA x y = true) by (apply (e_trans eA HA) with k'; [exact (e_trans eA HA _ _ _ E E2) | exact (e_sym eA HA _ _ Hk)]).
      rewrite (Hd1 y Hy) in Hx. discriminate.
    + destruct (eA x k') eqn:E3; [|reflexivity]. rewrite (e_trans eA HA _ _ _ (e_sym eA HA _ _ E) E3) in E2. discriminate.
  - rewrite index_shift in Hi. destruct (index_from eA 0 keys k) as [j|] eqn:Ej; [|discriminate]. injection Hi as <-.
    change (remove_at (S j) (x :: keys)) with (x :: remove_at j keys). change (remove_at (S j) (v :: vals)) with (v :: remove_at j vals).
    cbn. destruct (eA x k') eqn:E2.
    + destruct (eA k k') eqn:E3; [|reflexivity]. rewrite (e_trans eA HA _ _ _ E2 (e_sym eA HA _ _ E3)) in E. discriminate.
    + apply IH; auto.
Qed.
Lemma unset_spec : forall m k, well m -> well (m_unset eA m k) /\
  forall k', m_get eA (m_unset eA m k) k' = if eA k k' then None else m_get eA m k'.
Proof.
  intros [keys vals] k [Hd Hl]. cbn [fst snd] in *. unfold m_unset, m_get, well, index_of. cbn [fst snd].
  destruct (index_from eA 0 keys k) as [i|] eqn:E; cbn [fst snd].
  - split; [split; [apply remove_distinct; exact Hd | rewrite !remove_length, Hl; reflexivity]|].
    apply unset_get; assumption.
  - split; [auto|]. intros k'. destruct (eA k k') eqn:Ek; [|reflexivity].
    destruct (get_in eA keys vals k') eqn:Eg; [|reflexivity]. exfalso.
    assert (Ha : appears eA k' keys) by (apply (get_in_some keys vals k' Hl); congruence). destruct Ha as (y & Hy & Hyk).
    assert (Hc : index_from eA 0 keys k <> None).
    { apply index_appears. exists y. split; [exact Hy | exact (e_trans eA HA _ _ _ Hyk (e_sym eA HA _ _ Ek))]. }
    congruence.
Qed.
Definition apply_call (m : @gmap A B) (c : map_call A B) : gmap :=
  match c with CSet k v => fst (m_set eA m k v) | CUnset k => m_unset eA m k | CClear => m_clear m end.
Definition expect_call (k : A) (acc : option B) (c : map_call A B) : option B :=
  match c with CSet k' v => if eA k' k then Some v else acc | CUnset k' => if eA k' k then None else acc | CClear => None end.
Lemma calls_spec : forall calls m (f : A -> option B), well m -> (forall k, m_get eA m k = f k) ->
  well (fold_left apply_call calls m) /\ forall k, m_get eA (fold_left apply_call calls m) k = fold_left (expect_call k) calls (f k).
Proof.
  induction calls as [|c calls IH]; intros m f Hw Hf; [auto|]. cbn [fold_left].
  destruct c as [k v | k |].
  - destruct (set_spec m k v Hw) as (H1 & _ & H3).
    destruct (IH (fst (m_set eA m k v)) (fun k' => if eA k k' then Some v else f k') H1) as [H4 H5]; [intros k'; rewrite H3, Hf; reflexivity|].
    split; [exact H4 | exact H5].
  - destruct (unset_spec m k Hw) as (H1 & H3).
    destruct (IH (m_unset eA m k) (fun k' => if eA k k' then None else f k') H1) as [H4 H5]; [intros k'; rewrite H3, Hf; reflexivity|].
    split; [exact H4 | exact H5].
  - destruct (IH (m_clear m) (fun _ => None)) as [H4 H5]; [split; [exact Logic.I | reflexivity] | reflexivity |]. split; [exact H4 | exact H5].
Qed.
Theorem map_spec : forall calls : list (map_call A B), let m := run_map eA calls in
  (forall k, m_get eA m k = expected eA calls k) /\
  distinct eA (fst m) /\ length (fst m) = length (snd m) /\ (forall k, appears eA k (fst m) <-> expected eA calls k <> None).
Proof.
  intros calls m. destruct (calls_spec calls empty_map (fun _ => None)) as [[H1 H2] H3]; [split; [exact Logic.I | reflexivity] | reflexivity |].
  change (fold_left apply_call calls empty_map) with m in *. split; [exact H3|]. split; [exact H1|]. split; [exact H2|].
  intros k. rewrite <- (get_in_some (fst m) (snd m) k H2). unfold m_get in H3. rewrite (H3 k). reflexivity.
Qed.
Theorem set_old : forall (calls : list (map_call A B)) k v, snd (m_set eA (run_map eA calls) k v) = expected eA calls k.
Proof.
  intros calls k v. destruct (map_spec calls) as (H1 & H2 & H3 & _). rewrite <- H1. apply set_spec. split; assumption.
Qed.
Lemma copy_spec : forall kvs (o : @gmap A B), well o -> distinct eA (map fst kvs) ->
  let r := fold_left (fun o kv => fst (m_set eA o (fst kv) (snd kv))) kvs o in
  well r /\ forall k, m_get eA r k = match get_in eA (map fst kvs) (map snd kvs) k with Some v => Some v | None => m_get eA o k end.
Proof.
  induction kvs as [|[k v] kvs IH]; intros o Hw Hd; [split; [exact Hw | reflexivity]|]. cbn [fold_left map fst snd get_in].
  destruct Hd as [Hd1 Hd2]. destruct (set_spec o k v Hw) as (H1 & _ & H3). destruct (IH _ H1 Hd2) as [H4 H5]. split; [exact H4|].
  intros k'. rewrite H5, H3. destruct (eA k k') eqn:E; [|reflexivity].
  destruct (get_in eA (map fst kvs) (map snd kvs) k') eqn:Eg; [|reflexivity]. exfalso.
  assert (Ha : appears eA k' (map fst kvs)) by (apply (get_in_some (map fst kvs) (map snd kvs) k'); [rewrite !map_length; reflexivity | congruence]).
  destruct Ha as (y & Hy & Hk). assert (H := e_trans eA HA _ _ _ E (e_sym eA HA _ _ Hk)). cbn in Hd1. rewrite (Hd1 y Hy) in H. discriminate.
Qed.
Lemma map_fst_combine : forall (a : list A) (b : list B), length a = length b -> map fst (combine a b) = a /\ map snd (combine a b) = b.
Proof.
  induction a as [|x a IH]; intros [|y b] H; try discriminate H; [split; reflexivity|]. injection H as H. destruct (IH b H) as [H1 H2].
  cbn. rewrite H1, H2. split; reflexivity.
Qed.
Theorem copy_into_spec : forall (calls calls' : list (map_call A B)) k,
  m_get eA (m_copy_into eA (run_map eA calls) (run_map eA calls')) k =
  match expected eA calls k with Some v => Some v | None => expected eA calls' k end.
Proof.
  intros calls calls' k. destruct (map_spec calls) as (H1 & H2 & H3 & _). destruct (map_spec calls') as (H1' & H2' & H3' & _).
  unfold m_copy_into. destruct (map_fst_combine _ _ H3) as [E1 E2].
  destruct (copy_spec (combine (fst (run_map eA calls)) (snd (run_map eA calls))) (run_map eA calls') (conj H2' H3')) as [_ H]; [rewrite E1; exact H2|].
  rewrite H, E1, E2, H1', <- H1. reflexivity.
Qed.
Lemma get_key_in : forall keys (vals : list B) v k, distinct eA keys ->
  (fix go (keys : list A) (vals : list B) : option A :=
     match keys, vals with x :: r, w :: q => if eB w v then Some x else go r q | _, _ => None end) keys vals = Some k ->
  exists w, get_in eA keys vals k = Some w /\ eB w v = true.
Proof.
  induction keys as [|x keys IH]; intros [|w vals] v k Hd H; try discriminate H. destruct (eB w v) eqn:E.
  - injection H as <-. exists w. cbn. rewrite (e_refl eA HA). auto.
  - destruct Hd as [Hd1 Hd2]. destruct (IH vals v k Hd2 H) as (u & H1 & H2). exists u. split; [|exact H2]. cbn.
    destruct (eA x k) eqn:Ek; [|exact H1]. exfalso.
    assert (Hin : In k keys).
    { clear - H. revert vals H. induction keys as [|y keys IH]; intros [|u vals] H; try discriminate H. destruct (eB u v); [injection H as <-; left; reflexivity|].
      right. exact (IH vals H). }
    rewrite (Hd1 k Hin) in Ek. discriminate.
Qed.
Lemma get_key_out : forall keys (vals : list B) v,
  (fix go (keys : list A) (vals : list B) : option A :=
     match keys, vals with x :: r, w :: q => if eB w v then Some x else go r q | _, _ => None end) keys vals = None ->
  forall k w, get_in eA keys vals k = Some w -> eB w v = false.
Proof.
  induction keys as [|x keys IH]; intros [|w vals] v H k u Hg; try discriminate Hg. cbn in H, Hg. destruct (eB w v) eqn:E; [discriminate|].
  destruct (eA x k); [injection Hg as <-; exact E | exact (IH vals v H k u Hg)].
Qed.
Theorem key_spec : forall (calls : list (map_call A B)) v, match m_key eB (run_map eA calls) v with
  | Some k => exists w, expected eA calls k = Some w /\ eB w v = true
  | None => forall k w, expected eA calls k = Some w -> eB w v = false
  end.
Proof.
  intros calls v. destruct (map_spec calls) as (H1 & H2 & H3 & _). unfold m_get in H1.
  destruct (m_key eB (run_map eA calls) v) as [k|] eqn:E.
  - rewrite <- H1. exact (get_key_in _ _ _ _ H2 E).
  - intros k w Hk. rewrite <- H1 in Hk. exact (get_key_out _ _ _ E k w Hk).
Qed.
End Maps.

(** ** Integers *)
Lemma write_length : forall C (l : list C) i x, length (write l i x) = length l.
Proof. induction l as [|a l IH]; intros [|i] x; cbn; auto. Qed.
Lemma write_nth : forall C (l : list C) i x d j, nth j (write l i x) d = if (i =? j) && (i <? length l) then x else nth j l d.
Proof.
  induction l as [|a l IH]; intros i x d j; cbn.
  - rewrite andb_false_r. destruct j; reflexivity.
  - destruct i as [|i]; destruct j as [|j]; cbn; try reflexivity. rewrite IH. reflexivity.
Qed.
Lemma write_firstn_le : forall C (l : list C) i x n, n <= i -> firstn n (write l i x) = firstn n l.
Proof.
  induction l as [|a l IH]; intros [|i] x [|n] H; cbn; try reflexivity; try lia. rewrite IH; [reflexivity | lia].
Qed.
Lemma write_firstn_next : forall C (l : list C) i x, i < length l -> firstn (i + 1) (write l i x) = firstn i l ++ [x].
Proof.
  induction l as [|a l IH]; intros [|i] x H; cbn in *; try lia; [reflexivity|]. rewrite IH by lia. reflexivity.
Qed.
Section Ints.
Variable grow : nat -> nat.
Lemma append_vals : forall h s x, valid h s -> let '(h', s') := s_append grow h s x in
  valid h' s' /\ s_vals h' s' = s_vals h s ++ [x] /\ (forall a, a < length h -> a < length h') /\
  (s_arr s' = s_arr s \/ (s_arr s' = length h /\ s_len s' = s_len s + 1)).
Proof.
  intros h s x [H1 H2]. unfold s_append, s_vals, valid. destruct (s_len s <? length (nth (s_arr s) h [])) eqn:E; cbn [s_arr s_len].
  - apply Nat.ltb_lt in E. rewrite !write_length, write_nth, Nat.eqb_refl. cbn [andb].
    destruct (s_arr s <? length h) eqn:E2; [|apply Nat.ltb_ge in E2; lia]. rewrite write_length. repeat split; try lia.
    apply write_firstn_next. exact E.
  - apply Nat.ltb_ge in E. assert (El : length (nth (s_arr s) h []) = s_len s) by lia.
    rewrite app_length, app_nth2, Nat.sub_diag by lia. cbn [nth length]. rewrite !app_length, firstn_length, El, repeat_length. cbn [length].
    repeat split; try lia.
    rewrite firstn_app, firstn_length, El, Nat.min_id. replace (s_len s + 1 - s_len s) with 1 by lia. cbn [firstn app]. rewrite firstn_firstn, Nat.min_r by lia. reflexivity.
Qed.
Lemma append_frame : forall h s x t, valid h s -> valid h t -> clear_of s t -> let '(h', s') := s_append grow h s x in
  valid h' t /\ s_vals h' t = s_vals h t /\ clear_of s' t.
Proof.
  intros h s x t [H1 H2] [H3 H4] Hc. unfold s_append, s_vals, valid, clear_of in *. destruct (s_len s <? length (nth (s_arr s) h [])) eqn:E; cbn [s_arr s_len].
  - rewrite write_length, write_nth. destruct (Nat.eqb_spec (s_arr s) (s_arr t)) as [Ea|Ea]; cbn [andb].
    + destruct (s_arr s <? length h); [|repeat split; auto; lia]. rewrite write_length.
      specialize (Hc (eq_sym Ea)). rewrite Ea in *. repeat split; auto; try lia. apply write_firstn_le. exact Hc.
    + repeat split; auto. intros Hx. congruence.
  - rewrite app_length, app_nth1 by lia. cbn. repeat split; auto; try lia. 
Qed.
(** the elements of the second list are those it has at the start, as long as nothing is written there *)
Lemma vals_nth : forall h s i, valid h s -> i < s_len s -> nth i (nth (s_arr s) h []) 0%Z = nth i (s_vals h s) 0%Z.
Proof.
  intros h s i [_ H] Hi. unfold s_vals. revert H. generalize (nth (s_arr s) h []). revert i Hi. generalize (s_len s).
  induction n as [|n IH]; intros i Hi l H; [lia|]. destruct l as [|a l]; [cbn in H; lia|]. destruct i as [|i]; [reflexivity|]. cbn. apply IH; cbn in H; lia.
Qed.
Lemma contains_int_in : forall h x s, contains_int h x s = true <-> In x (s_vals h s).
Proof.
  intros h x s. unfold contains_int. rewrite existsb_exists. split.
  - intros (y & Hy & E). apply Z.eqb_eq in E. subst. exact Hy.
  - intros H. exists x. split; [exact H | apply Z.eqb_refl].
Qed.
Lemma append_new_vals : forall h s x t, valid h s -> valid h t -> clear_of s t -> let '(h', s') := append_new_int grow h s x in
  valid h' s' /\ (forall y, In y (s_vals h' s') <-> In y (s_vals h s) \/ y = x) /\ (NoDup (s_vals h s) -> NoDup (s_vals h' s')) /\
  valid h' t /\ s_vals h' t = s_vals h t /\ clear_of s' t.
Proof.
  intros h s x t Hs Ht Hc. unfold append_new_int. destruct (contains_int h x s) eqn:E.
  - apply contains_int_in in E. repeat split; try apply Hs; try apply Ht; auto. intros [H | ->]; auto.
  - pose proof (append_vals h s x Hs) as Hv. pose proof (append_frame h s x t Hs Ht Hc) as Hf. destruct (s_append grow h s x) as [h' s'].
    destruct Hv as (V1 & V2 & _). destruct Hf as (F1 & F2 & F3). split; [exact V1|]. split; [|split; [|auto]].
    + intros y. rewrite V2, in_app_iff. cbn. intuition.
    + intros Hn. rewrite V2. apply NoDup_rev in Hn. rewrite <- (rev_involutive (s_vals h s)). change [x] with (rev [x]). rewrite <- rev_app_distr. apply NoDup_rev.
      cbn. constructor; [|exact Hn]. rewrite <- in_rev. intros Hi. apply contains_int_in in Hi. congruence.
Qed.
Lemma union_from_spec : forall s2 t n i h res, i + n = s_len s2 -> valid h res -> valid h s2 -> valid h t -> clear_of res s2 -> clear_of res t ->
  let '(h', s') := union_from grow i n h res s2 in
  valid h' s' /\ (forall y, In y (s_vals h' s') <-> In y (s_vals h res) \/ In y (skipn i (s_vals h s2))) /\ (NoDup (s_vals h res) -> NoDup (s_vals h' s')) /\
  valid h' t /\ s_vals h' t = s_vals h t.
Proof.
  intros s2 t. induction n as [|n IH]; intros i h res Hi Hr H2 Ht C2 Ct; cbn [union_from].
  - repeat split; try apply Hr; try apply Ht; auto. intros [H | H]; [exact H|].
    assert (E : skipn i (s_vals h s2) = []) by (apply skipn_all2; unfold s_vals; rewrite firstn_length; lia). rewrite E in H. destruct H.
  - rewrite (vals_nth h s2 i H2 ltac:(lia)). set (x := nth i (s_vals h s2) 0%Z).
    pose proof (append_new_vals h res x s2 Hr H2 C2) as A2. pose proof (append_new_vals h res x t Hr Ht Ct) as At.
    destruct (append_new_int grow h res x) as [h1 res1]. destruct A2 as (B1 & B2 & B3 & B4 & B5 & B6). destruct At as (_ & _ & _ & D4 & D5 & D6).
    specialize (IH (S i) h1 res1 ltac:(lia) B1 B4 D4 B6 D6). destruct (union_from grow (S i) n h1 res1 s2) as [h' s'].
    destruct IH as (I1 & I2 & I3 & I4 & I5). split; [exact I1|]. split; [|split; [auto|split; [exact I4|congruence]]].
    intros y. rewrite I2, B2, B5.
    assert (E : skipn i (s_vals h s2) = x :: skipn (S i) (s_vals h s2)).
    { unfold x. assert (Hl : i < length (s_vals h s2)) by (unfold s_vals; rewrite firstn_length; destruct H2; lia). revert Hl. generalize (s_vals h s2). clear.
      induction i as [|i IH]; intros [|a l] H; cbn in H; try lia; [reflexivity|]. cbn [skipn nth]. rewrite (IH l) by lia. reflexivity. }
    rewrite E. cbn. intuition.
Qed.
Theorem union_spec : forall h s1 s2 t, valid h s1 -> valid h s2 -> valid h t -> clear_of s1 s2 -> clear_of s1 t ->
  let '(h', s') := union_int grow h s1 s2 in
  (forall y, In y (s_vals h' s') <-> In y (s_vals h s1) \/ In y (s_vals h s2)) /\ (NoDup (s_vals h s1) -> NoDup (s_vals h' s')) /\ s_vals h' t = s_vals h t.
Proof.
  intros h s1 s2 t H1 H2 Ht C2 Ct. unfold union_int. pose proof (union_from_spec s2 t (s_len s2) 0 h s1 eq_refl H1 H2 Ht C2 Ct) as H.
  destruct (union_from grow 0 (s_len s2) h s1 s2) as [h' s']. destruct H as (_ & A & B & _ & C). auto.
Qed.
Lemma inter_from_spec : forall s1 s2 t n i h res, i + n = s_len s1 -> valid h res -> valid h s1 -> valid h s2 -> valid h t ->
  clear_of res s1 -> clear_of res s2 -> clear_of res t ->
  let '(h', s') := inter_from grow i n h res s1 s2 in
  (forall y, In y (s_vals h' s') <-> In y (s_vals h res) \/ (In y (skipn i (s_vals h s1)) /\ In y (s_vals h s2))) /\ (NoDup (s_vals h res) -> NoDup (s_vals h' s')) /\
  s_vals h' t = s_vals h t.
Proof.
  intros s1 s2 t. induction n as [|n IH]; intros i h res Hi Hr H1 H2 Ht C1 C2 Ct; cbn [inter_from].
  - repeat split; auto. intros [H | [H _]]; [exact H|].
    assert (E : skipn i (s_vals h s1) = []) by (apply skipn_all2; unfold s_vals; rewrite firstn_length; lia). rewrite E in H. destruct H.
  - rewrite (vals_nth h s1 i H1 ltac:(lia)). set (x := nth i (s_vals h s1) 0%Z).
    assert (E : skipn i (s_vals h s1) = x :: skipn (S i) (s_vals h s1)).
    { unfold x. assert (Hl : i < length (s_vals h s1)) by (unfold s_vals; rewrite firstn_length; destruct H1; lia). revert Hl. generalize (s_vals h s1). clear.
      induction i as [|i IH]; intros [|a l] H; cbn in H; try lia; [reflexivity|]. cbn [skipn nth]. rewrite (IH l) by lia. reflexivity. }
    destruct (contains_int h x s2) eqn:Ec.
    + apply contains_int_in in Ec.
      pose proof (append_new_vals h res x s1 Hr H1 C1) as A1. pose proof (append_new_vals h res x s2 Hr H2 C2) as A2. pose proof (append_new_vals h res x t Hr Ht Ct) as At.
      destruct (append_new_int grow h res x) as [h1 res1]. destruct A1 as (B1 & B2 & B3 & B4 & B5 & B6).
      destruct A2 as (_ & _ & _ & E4 & E5 & E6). destruct At as (_ & _ & _ & D4 & D5 & D6).
      specialize (IH (S i) h1 res1 ltac:(lia) B1 B4 E4 D4 B6 E6 D6). destruct (inter_from grow (S i) n h1 res1 s1 s2) as [h' s'].
      destruct IH as (I2 & I3 & I5). split; [|split; [auto | congruence]].
      intros y. rewrite I2, B2, B5, E5, E. cbn. split.
      * intros [[H | ->] | [H H']]; auto.
      * intros [H | [[<- | H] H']]; auto.
    + specialize (IH (S i) h res ltac:(lia) Hr H1 H2 Ht C1 C2 Ct). destruct (inter_from grow (S i) n h res s1 s2) as [h' s'].
      destruct IH as (I2 & I3 & I5). split; [|split; auto]. intros y. rewrite I2, E. cbn. split.
      * intros [H | [H H']]; auto.
      * intros [H | [[<- | H] H']]; auto. exfalso. apply contains_int_in in H'. congruence.
Qed.
Lemma valid_new : forall h s, valid h s -> valid (h ++ [[]]) s /\ s_vals (h ++ [[]]) s = s_vals h s /\ clear_of (mkS (length h) 0) s.
Proof.
  intros h s [H1 H2]. unfold valid, s_vals, clear_of. rewrite app_length, app_nth1 by exact H1. cbn. repeat split; auto; lia.
Qed.
Theorem inter_spec : forall h s1 s2 t, valid h s1 -> valid h s2 -> valid h t ->
  let '(h', s') := inter_int grow h s1 s2 in
  (forall y, In y (s_vals h' s') <-> In y (s_vals h s1) /\ In y (s_vals h s2)) /\ NoDup (s_vals h' s') /\ s_vals h' t = s_vals h t.
Proof.
  intros h s1 s2 t H1 H2 Ht. unfold inter_int.
  destruct (valid_new h s1 H1) as (A1 & A2 & A3). destruct (valid_new h s2 H2) as (B1 & B2 & B3). destruct (valid_new h t Ht) as (D1 & D2 & D3).
  assert (Hr : valid (h ++ [[]]) (mkS (length h) 0)) by (unfold valid; cbn; rewrite app_length; cbn; lia).
  pose proof (inter_from_spec s1 s2 t (s_len s1) 0 (h ++ [[]]) (mkS (length h) 0) eq_refl Hr A1 B1 D1 A3 B3 D3) as H.
  destruct (inter_from grow 0 (s_len s1) (h ++ [[]]) (mkS (length h) 0) s1 s2) as [h' s']. destruct H as (E1 & E2 & E3).
  rewrite A2, B2 in E1. split; [|split; [apply E2; constructor | congruence]]. intros y. rewrite E1. cbn. intuition.
Qed.
End Ints.

(** ** Pairs and triplets *)
Lemma pair_spec : forall A B (eA : A -> A -> bool) (eB : B -> B -> bool) p q,
  pair_equals eA eB p q = true <-> eA (fst p) (fst q) = true /\ eB (snd p) (snd q) = true.
Proof. intros. apply andb_true_iff. Qed.
Lemma upair_spec : forall A (e : A -> A -> bool) a b c d,
  upair_equals e (a, b) (c, d) = true <-> (e a c = true /\ e b d = true) \/ (e a d = true /\ e b c = true).
Proof. intros. unfold upair_equals. cbn. rewrite orb_true_iff, !andb_true_iff. reflexivity. Qed.
Lemma upair_equivalence : forall A (e : A -> A -> bool), equivalence e -> equivalence (upair_equals e).
Proof.
  intros A e [R S T]. split.
  - intros [a b]. apply upair_spec. auto.
  - intros [a b] [c d] H. apply upair_spec in H. apply upair_spec. destruct H as [[H1 H2] | [H1 H2]]; [left | right]; split; auto.
  - intros [a b] [c d] [f g] H H'. apply upair_spec in H, H'. apply upair_spec.
    destruct H as [[H1 H2] | [H1 H2]], H' as [[H3 H4] | [H3 H4]]; [left | right | right | left]; split; eauto.
Qed.
Lemma triplet_spec : forall A (e : A -> A -> bool) a b c a' b' c',
  triplet_equals e (a, b, c) (a', b', c') = true <-> e a a' = true /\ e b b' = true /\ e b c' = true.
Proof. intros. unfold triplet_equals. rewrite !andb_true_iff. tauto. Qed.
Section Triplets.
Context {A : Type}.
Variable e : A -> A -> bool.
Hypothesis He : equivalence e.
Lemma triplet_half : forall a b c a' b' c', e b c = true ->
  (triplet_equals e (a, b, c) (a', b', c') = true <-> e a a' = true /\ e b b' = true /\ e c c' = true).
Proof.
  intros a b c a' b' c' H. rewrite triplet_spec. destruct He as [R S T]. split; intros (H1 & H2 & H3); repeat split; eauto.
Qed.
Lemma ut_contains_spec : forall a b c x, ut_contains e (a, b, c) x = true <-> e a x = true \/ e b x = true \/ e c x = true.
Proof. intros. unfold ut_contains. rewrite !orb_true_iff. tauto. Qed.
Lemma arranged_equals : forall p q, arranged e p q -> utriplet_equals e p q = true.
Proof.
  intros [[a b] c] [[x y] z] H. destruct He as [R S T]. unfold utriplet_equals, ut_contains_all. rewrite !andb_true_iff, !ut_contains_spec.
  unfold arranged in H. intuition auto 6.
Qed.
Lemma equals_arranged : forall p x y z, e x y = false -> e x z = false -> e y z = false -> utriplet_equals e p (x, y, z) = true -> arranged e p (x, y, z).
Proof.
  intros [[a b] c] x y z Hxy Hxz Hyz H. destruct He as [R S T].
  unfold utriplet_equals, ut_contains_all in H. rewrite !andb_true_iff, !ut_contains_spec in H.
  assert (C : forall u v w, e v w = false -> e u v = true -> e u w = true -> False).
  { intros u v w H0 H1 H2. rewrite (T v u w (S _ _ H1) H2) in H0. discriminate. }
  destruct H as [[[H1 H2] H3] _]. unfold arranged.
  destruct H1 as [H1 | [H1 | H1]], H2 as [H2 | [H2 | H2]], H3 as [H3 | [H3 | H3]];
  try (exfalso; solve [exact (C _ _ _ Hxy H1 H2) | exact (C _ _ _ Hxz H1 H3) | exact (C _ _ _ Hyz H2 H3)]); tauto.
Qed.
End Triplets.

Lemma list_equals_spec : forall A (e : A -> A -> bool) l l', list_equals e l l' = true <-> Forall2 (fun x y => e x y = true) l l'.
Proof.
  intros A e. induction l as [|x l IH]; intros [|y l']; cbn; split; intros H; try discriminate; try (inversion H; fail); try constructor; auto.
  - apply andb_true_iff in H. apply H.
  - apply IH. apply andb_true_iff in H. apply H.
  - inversion H; subst. apply andb_true_iff. split; [assumption | apply IH; assumption].
Qed.
