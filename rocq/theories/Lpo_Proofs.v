(** The ordering on trees. *)
From Coq Require Import ZArith List Bool String Lia Wellfounded.
From Verif Require Import Ast_Model Sem_Spec Ast_Proofs Lpo_Spec.
Import ListNotations.
Open Scope Z_scope.

Lemma str_compare_refl s : String.compare s s = Eq.
Proof. induction s as [|c s IH]; cbn; auto. unfold Ascii.compare. rewrite N.compare_refl. exact IH. Qed.
Lemma str_compare_trans s : forall t u, String.compare s t = Lt -> String.compare t u = Lt -> String.compare s u = Lt.
Proof.
  induction s as [|c s IH]; intros [|d t] [|e u]; cbn; try discriminate; auto.
  destruct (Ascii.compare c d) eqn:Q1; try discriminate; destruct (Ascii.compare d e) eqn:Q2; try discriminate; intros H1 H2.
  - apply Ascii.compare_eq_iff in Q1 as ->. rewrite Q2. eauto.
  - apply Ascii.compare_eq_iff in Q1 as ->. rewrite Q2. auto.
  - apply Ascii.compare_eq_iff in Q2 as ->. rewrite Q1. auto.
  - assert (Q3 : Ascii.compare c e = Lt).
    { unfold Ascii.compare in *. rewrite N.compare_lt_iff in *. lia. }
    rewrite Q3. reflexivity.
Qed.
Lemma prec_irrefl p : ~ prec p p.
Proof. intros [H|[_ H]]; [rewrite str_compare_refl in H; discriminate|lia]. Qed.
Lemma prec_trans p q r : prec p q -> prec q r -> prec p r.
Proof.
  intros [H1|[E1 H1]] [H2|[E2 H2]].
  - left. eapply str_compare_trans; eauto.
  - left. rewrite <- E2. exact H1.
  - left. rewrite E1. exact H2.
  - right. split; [congruence|lia].
Qed.
Lemma prec_total p q : prec p q \/ p = q \/ prec q p.
Proof.
  destruct (String.compare (id_name p) (id_name q)) eqn:Q.
  - apply String.compare_eq_iff in Q. destruct (Z.lt_trichotomy (id_index p) (id_index q)) as [H|[H|H]].
    + left; right; auto.
    + right; left. destruct p, q; cbn in *; congruence.
    + right; right; right; auto.
  - left; left; auto.
  - right; right; left. rewrite String.compare_antisym, Q. reflexivity.
Qed.

Lemma ident_dec (p q : ident) : {p = q} + {p <> q}.
Proof. decide equality; [apply String.string_dec|apply Z.eq_dec]. Defined.

Section TreeInd.
Variable P : tree -> Prop.
Hypothesis HV : forall x, P (V x).
Hypothesis HN : forall f l, Forall P l -> P (N f l).
Fixpoint tree_ind' (t : tree) : P t :=
  match t with
  | V x => HV x
  | N f l => HN f l ((fix go (l : list tree) : Forall P l :=
                       match l with [] => Forall_nil P | a :: r => Forall_cons a (tree_ind' a) (go r) end) l)
  end.
End TreeInd.

Fixpoint size (t : tree) : nat := match t with V _ => 1 | N _ l => S (list_sum (map size l)) end.
Lemma size_in t l : In t l -> (size t <= list_sum (map size l))%nat.
Proof. induction l as [|a l IH]; cbn; [tauto|]. intros [->|H]; [lia|]. specialize (IH H). unfold list_sum in *. lia. Qed.
Lemma size_arg t f l : In t l -> (size t < size (N f l))%nat.
Proof. intros H. apply size_in in H. cbn. lia. Qed.
Lemma size_pos t : (0 < size t)%nat.
Proof. destruct t; cbn; lia. Qed.

(** what all the ways to be smaller have in common *)
Definition leq s t := s = t \/ less s t.
Lemma less_leq s t g l : In t l -> leq s t -> less s (N g l).
Proof. intros H [->|K]; [apply less_arg; auto|eapply less_in; eauto]. Qed.
Definition lexless (l l' : list tree) : Prop :=
  exists pre s t r r', l = pre ++ s :: r /\ l' = pre ++ t :: r' /\ less s t /\ List.length r = List.length r'.
Lemma less_inv s t : less s t -> exists g l', t = N g l' /\
  ((exists u, In u l' /\ leq s u) \/
   exists f l, s = N f l /\ (forall u, In u l -> less u t) /\ (prec f g \/ (f = g /\ lexless l l'))).
Proof.
  intros H. destruct H as [t g l Hi|s t g l Hi Hs|f g l l' Hp Ha|f pre s t l l' Hs Hl Ha].
  - exists g, l. split; auto. left. exists t. split; auto. left; auto.
  - exists g, l. split; auto. left. exists t. split; auto. right; auto.
  - exists g, l'. split; auto. right. exists f, l. auto.
  - exists f, (pre ++ t :: l'). split; auto. right. exists f, (pre ++ s :: l). repeat split; auto. right. split; auto.
    exists pre, s, t, l, l'. auto.
Qed.
Lemma less_head f g l l' : (forall u, In u l -> less u (N g l')) -> prec f g \/ (f = g /\ lexless l l') -> less (N f l) (N g l').
Proof.
  intros Ha [H|[-> (pre & s & t & r & r' & -> & -> & Hs & Hl)]]; [apply less_prec; auto|apply less_lex; auto].
Qed.
(** two splittings of a list *)
Lemma split_compare {A} (p1 : list A) : forall p2 x y r1 r2, p1 ++ x :: r1 = p2 ++ y :: r2 ->
  (p1 = p2 /\ x = y /\ r1 = r2) \/ (exists q, p2 = p1 ++ x :: q /\ r1 = q ++ y :: r2) \/ (exists q, p1 = p2 ++ y :: q /\ r2 = q ++ x :: r1).
Proof.
  induction p1 as [|a p1 IH]; intros [|b p2] x y r1 r2 H; cbn in *.
  - injection H as -> ->. auto.
  - injection H as -> ->. right; left. exists p2. auto.
  - injection H as -> <-. right; right. exists p1. auto.
  - assert (E : a = b) by congruence. assert (H' : p1 ++ x :: r1 = p2 ++ y :: r2) by congruence. subst b. clear H. rename H' into H. destruct (IH _ _ _ _ _ H) as [(-> & -> & ->)|[(q & -> & ->)|(q & -> & ->)]]; eauto 6.
Qed.
Lemma lexless_trans l1 l2 l3 : (forall a b c, In a l1 -> In b l2 -> In c l3 -> less a b -> less b c -> less a c) ->
  lexless l1 l2 -> lexless l2 l3 -> lexless l1 l3.
Proof.
  intros T (p & a & b & r & r' & -> & -> & Hab & Hl) (q & b' & c & u & u' & E & -> & Hbc & Hl').
  destruct (split_compare _ _ _ _ _ _ E) as [(-> & -> & ->)|[(z & -> & ->)|(z & -> & ->)]].
  - exists q, a, c, r, u'. repeat split; auto; [|congruence]. eapply T; eauto; apply in_elt.
  - exists p, a, b, r, (z ++ c :: u'). rewrite <- !app_assoc. cbn. repeat split; auto.
    rewrite app_length in *. cbn in *. congruence.
  - exists q, b', c, (z ++ a :: r), u'. rewrite <- !app_assoc. cbn. repeat split; auto.
    rewrite !app_length in *. cbn in *. lia.
Qed.
Theorem less_trans : forall s t u, less s t -> less t u -> less s u.
Proof.
  intros s t u. remember (size s + size t + size u)%nat as n eqn:En. revert s t u En.
  induction n as [n IH] using lt_wf_ind. intros s t u -> Hst Htu.
  destruct (less_inv _ _ Htu) as (h & us & -> & [(v & Hv & Hl)|(g & ts & -> & Ha & Hh)]).
  - apply (less_leq s v); auto. destruct Hl as [<-|Hl]; [right; auto|right].
    apply (IH (size s + size t + size v)%nat) with t; auto. pose proof (size_arg v h us Hv). lia.
  - destruct (less_inv _ _ Hst) as (g' & ts' & E & [(v & Hv & Hl)|(f & ss & -> & Ha' & Hh')]); injection E as <- <-.
    + specialize (Ha v Hv). destruct Hl as [->|Hl]; auto.
      apply (IH (size s + size v + size (N h us))%nat) with v; auto. pose proof (size_arg v g ts Hv). lia.
    + apply less_head.
      * intros v Hv. apply (IH (size v + size (N g ts) + size (N h us))%nat) with (N g ts); auto. pose proof (size_arg v f ss Hv). lia.
      * destruct Hh as [Hh|[-> Hh]], Hh' as [Hh'|[-> Hh']]; auto.
        -- left. eapply prec_trans; eauto.
        -- right. split; auto. apply lexless_trans with ts; auto. intros a b c Hia Hib Hic Hab Hbc.
           apply (IH (size a + size b + size c)%nat) with b; auto.
           pose proof (size_arg a h ss Hia). pose proof (size_arg b h ts Hib). pose proof (size_arg c h us Hic). lia.
Qed.
Theorem less_irrefl t : ~ less t t.
Proof.
  induction t as [x|f l IH] using tree_ind'; intros H; destruct (less_inv _ _ H) as (g & l' & E & [(u & Hu & Hl)|(f' & l2 & E2 & Ha & Hh)]);
    try discriminate; injection E as <- <-.
  - rewrite Forall_forall in IH. apply (IH u Hu). assert (Hu' : less u (N f l)) by (apply less_arg; auto).
    destruct Hl as [<-|Hl]; auto. eapply less_trans; eauto.
  - injection E2 as <- <-. destruct Hh as [Hp|[_ (pre & s & t & r & r' & E1 & E2 & Hs & _)]]; [eapply prec_irrefl; eauto|].
    rewrite E1 in E2. apply app_inv_head in E2. injection E2 as -> ->. rewrite Forall_forall in IH. apply (IH t); auto.
    rewrite E1. apply in_elt.
Qed.
Theorem less_asym s t : less s t -> ~ less t s.
Proof. intros H K. apply (less_irrefl s). eapply less_trans; eauto. Qed.
Lemma less_mono f pre s t l : less s t -> less (N f (pre ++ s :: l)) (N f (pre ++ t :: l)).
Proof.
  intros H. apply less_lex; auto. intros u Hu. apply in_app_or in Hu as [Hu|[<-|Hu]].
  - apply less_arg. apply in_or_app; auto.
  - eapply less_in; eauto. apply in_elt.
  - apply less_arg. apply in_or_app; cbn; auto.
Qed.
Theorem less_plug w s t : less s t -> less (plug w s) (plug w t).
Proof.
  induction 1 as [t g l Hi|s t g l Hi Hs IH|f g l l' Hp Ha IH|f pre s t l l' Hs IHs Hl Ha IH]; cbn [plug].
  - apply less_arg. apply in_map; auto.
  - eapply less_in; eauto. apply in_map; auto.
  - apply less_prec; auto. intros u Hu. apply in_map_iff in Hu as (v & <- & Hv). auto.
  - rewrite !map_app in *. cbn [map]. apply less_lex; auto; [rewrite !map_length; auto|].
    intros u Hu. replace (map (plug w) pre ++ plug w s :: map (plug w) l) with (map (plug w) (pre ++ s :: l)) in Hu by (rewrite map_app; reflexivity).
    apply in_map_iff in Hu as (v & <- & Hv). apply IH in Hv. cbn [plug] in Hv. rewrite map_app in Hv. exact Hv.
Qed.

(** ** Well-foundedness, on a finite set of symbols *)
Definition over (F : list ident) (t : tree) : Prop := incl (symbols t) F.
Definition lessF (F : list ident) (s t : tree) : Prop := over F s /\ less s t.
Section WF.
Variable F : list ident.
Lemma over_arg f l t : over F (N f l) -> In t l -> over F t.
Proof. intros H Ht x Hx. apply H. cbn. right. apply in_flat_map. eauto. Qed.
Lemma filter_length_le {A} (f : A -> bool) l : (List.length (filter f l) <= List.length l)%nat.
Proof. induction l as [|a l IH]; cbn; [lia|]. destruct (f a); cbn; lia. Qed.
Lemma prec_wf : well_founded (fun f g => In f F /\ prec f g).
Proof.
  assert (K : forall n G f, incl G F -> (List.length G <= n)%nat -> (forall g, In g F -> prec g f -> In g G) -> Acc (fun f g => In f F /\ prec f g) f).
  { induction n as [|n IH]; intros G f HG Hn Hf; constructor; intros g [Hg Hp].
    - pose proof (Hf g Hg Hp). destruct G; cbn in *; [tauto|lia].
    - pose proof (Hf g Hg Hp) as Hi. destruct (in_split _ _ Hi) as (G1 & G2 & ->).
      apply IH with (G := filter (fun h => if ident_dec h g then false else true) (G1 ++ g :: G2)).
      + intros x Hx. apply filter_In in Hx as [Hx _]. auto.
      + rewrite filter_app, app_length. cbn [filter]. destruct (ident_dec g g) as [_|E]; [|exfalso; apply E; auto].
        pose proof (filter_length_le (fun h => if ident_dec h g then false else true) G1). pose proof (filter_length_le (fun h => if ident_dec h g then false else true) G2).
        rewrite app_length in Hn. cbn in Hn. lia.
      + intros h Hh Hph. apply filter_In. split; [apply Hf; auto; eapply prec_trans; eauto|].
        destruct (ident_dec h g) as [->|_]; auto. exfalso. eapply prec_irrefl; eauto. }
  intros f. apply (K (List.length F) F f); auto. intros x; auto.
Qed.
Definition lexF (l l' : list tree) : Prop := Forall (Acc (lessF F)) l /\ lexless l l' /\ Forall (over F) l.
Lemma lexF_wf : forall n l, List.length l = n -> Forall (Acc (lessF F)) l -> Acc lexF l.
Proof.
  induction n as [|n IH]; intros l Hn HA.
  - destruct l; [|discriminate]. constructor. intros l' (_ & (pre & s & t & r & r' & _ & E & _) & _). destruct pre; discriminate.
  - destruct l as [|x l]; [discriminate|]. apply eq_add_S in Hn. inversion HA as [|? ? Hx Hl]; subst x0 l0. clear HA.
    revert l Hl Hn. induction Hx as [x Hx IHx]. intros l Hl Hn.
    specialize (IH l Hn Hl) as Hacc. induction Hacc as [l Hacc IHl]. constructor.
    intros l' (HA & (pre & s & t & r & r' & E' & E & Hs & Hlen) & HO).
    destruct pre as [|y pre]; cbn in E, E'.
    + injection E as -> ->. subst l'. inversion HA; inversion HO; subst. apply IHx; auto. split; auto.
    + injection E as -> ->. subst l'. inversion HA; inversion HO; subst. apply IHl.
      * split; [auto|split; auto]. exists pre, s, t, r, r'. auto.
      * auto.
      * change (List.length (pre ++ s :: r) = List.length (pre ++ t :: r')). rewrite !app_length. cbn. congruence.
Qed.
Lemma acc_node f : forall l, Forall (Acc (lessF F)) l -> Acc (lessF F) (N f l).
Proof.
  induction (prec_wf f) as [f _ IHf]. intros l Hl. pose proof (lexF_wf _ l eq_refl Hl) as Hacc.
  induction Hacc as [l _ IHl]. constructor. intros s [Ho Hs].
  induction s as [x|g us IHs] using tree_ind'; destruct (less_inv _ _ Hs) as (f' & l' & E & [(u & Hu & Hle)|(g' & us' & E' & Ha & Hh)]);
    injection E as <- <-.
  - rewrite Forall_forall in Hl. specialize (Hl u Hu). destruct Hle as [->|Hle]; auto. apply (Acc_inv Hl). split; auto.
  - discriminate.
  - rewrite Forall_forall in Hl. specialize (Hl u Hu). destruct Hle as [->|Hle]; auto. apply (Acc_inv Hl). split; auto.
  - injection E' as <- <-. assert (HU : Forall (Acc (lessF F)) us).
    { rewrite Forall_forall in *. intros u Hu. apply IHs; auto. eapply over_arg; eauto. }
    destruct Hh as [Hp|[-> Hlx]].
    + apply IHf; auto. split; auto. apply Ho. cbn; auto.
    + apply IHl; auto. split; [auto|split; auto]. rewrite Forall_forall. intros u Hu. eapply over_arg; eauto.
Qed.
Theorem less_wf : well_founded (lessF F).
Proof.
  intros t. induction t as [x|f l IH] using tree_ind'.
  - constructor. intros s [_ Hs]. inversion Hs.
  - apply acc_node. exact IH.
Qed.
End WF.
