(** C14, aliasing part: a copy shares no cell with the values that existed before. *)
From Coq Require Import ZArith List Bool String Lia.
From Verif Require Import Ast_Model Sem_Spec Ast_Proofs Subst_Model Subst_Proofs FormHeap_Model FormHeap_Proofs.
Import ListNotations.
Open Scope nat_scope.

(** [rep h n P f g]: the value [f] stands for [g], with cells in [P], none of them used twice, nested at most [n] times *)
Inductive rep (h : fheap) : nat -> (nat -> Prop) -> hform -> form -> Prop :=
| rep_all n P i vs f g : rep h n P f g -> rep h (S n) P (HAll i vs f) (All i vs g)
| rep_ex n P i vs f g : rep h n P f g -> rep h (S n) P (HEx i vs f) (Ex i vs g)
| rep_not n P i f g : rep h n P f g -> rep h (S n) P (HNot i f) (Not i g)
| rep_or n (P Q : nat -> Prop) i a l gs : nth_error h a = Some l -> reps h n Q l gs -> P a -> ~ Q a -> (forall x, Q x -> P x) -> rep h (S n) P (HOr i a) (Or i gs)
| rep_and n (P Q : nat -> Prop) i a l gs : nth_error h a = Some l -> reps h n Q l gs -> P a -> ~ Q a -> (forall x, Q x -> P x) -> rep h (S n) P (HAnd i a) (And i gs)
| rep_equ n (P P1 P2 : nat -> Prop) i a b x y : rep h n P1 a x -> rep h n P2 b y -> (forall z, P1 z -> ~ P2 z) -> (forall z, P1 z \/ P2 z -> P z) -> rep h (S n) P (HEqu i a b) (Equ i x y)
| rep_imp n (P P1 P2 : nat -> Prop) i a b x y : rep h n P1 a x -> rep h n P2 b y -> (forall z, P1 z -> ~ P2 z) -> (forall z, P1 z \/ P2 z -> P z) -> rep h (S n) P (HImp i a b) (Imp i x y)
| rep_pred n P i p tys args : rep h (S n) P (HPred i p tys args) (Pred i p tys args)
| rep_top n P i : rep h (S n) P (HTop i) (Top i)
| rep_bot n P i : rep h (S n) P (HBot i) (Bot i)
with reps (h : fheap) : nat -> (nat -> Prop) -> list hform -> list form -> Prop :=
| reps_nil n P : reps h n P [] []
| reps_cons n (P P1 P2 : nat -> Prop) f g l gs : rep h n P1 f g -> reps h n P2 l gs -> (forall z, P1 z -> ~ P2 z) -> (forall z, P1 z \/ P2 z -> P z) -> reps h n P (f :: l) (g :: gs).
Scheme rep_mut := Induction for rep Sort Prop with reps_mut := Induction for reps Sort Prop.
Combined Scheme rep_reps_ind from rep_mut, reps_mut.

Lemma rep_weak h : (forall n P f g, rep h n P f g -> forall P' : nat -> Prop, (forall z, P z -> P' z) -> rep h n P' f g) /\
  (forall n P l gs, reps h n P l gs -> forall P' : nat -> Prop, (forall z, P z -> P' z) -> reps h n P' l gs).
Proof. apply rep_reps_ind; intros; econstructor; eauto. Qed.
Lemma rep_frame h h' : (forall n P f g, rep h n P f g -> (forall z, P z -> nth_error h' z = nth_error h z) -> rep h' n P f g) /\
  (forall n P l gs, reps h n P l gs -> (forall z, P z -> nth_error h' z = nth_error h z) -> reps h' n P l gs).
Proof.
  apply rep_reps_ind; intros; try (econstructor; eauto; fail).
  - eapply rep_or; eauto. rewrite H0; auto.
  - eapply rep_and; eauto. rewrite H0; auto.
Qed.
Definition all_abs (n : nat) (h : fheap) (l : list hform) : option (list form) :=
  fold_right (fun g acc => match habs n h g, acc with Some x, Some r => Some (x :: r) | _, _ => None end) (Some []) l.
Lemma rep_habs h : (forall n P f g, rep h n P f g -> habs n h f = Some g) /\
  (forall n P l gs, reps h n P l gs -> all_abs n h l = Some gs).
Proof.
  apply rep_reps_ind; intros; cbn [habs]; try (rewrite H; reflexivity); try reflexivity.
  - unfold all_abs in H. rewrite e, H. reflexivity.
  - unfold all_abs in H. rewrite e, H. reflexivity.
  - rewrite H, H0. reflexivity.
  - rewrite H, H0. reflexivity.
  - cbn. rewrite H. unfold all_abs in H0. rewrite H0. reflexivity.
Qed.
Lemma all_abs_some n h l : forall gs, all_abs n h l = Some gs -> Forall2 (fun f g => habs n h f = Some g) l gs.
Proof.
  induction l as [|f l IH]; intros gs E; cbn in E; [injection E as <-; constructor|].
  destruct (habs n h f) as [x|] eqn:E1; [|discriminate]. unfold all_abs in IH.
  destruct (fold_right _ _ l) as [r|] eqn:E2; [|discriminate]. injection E as <-. constructor; auto.
Qed.
Lemma all_abs_of n h l gs : Forall2 (fun f g => habs n h f = Some g) l gs -> all_abs n h l = Some gs.
Proof. induction 1 as [|f g l gs H H1 IH]; [reflexivity|]. cbn. unfold all_abs in IH. rewrite H, IH. reflexivity. Qed.

Lemma F2_impl {A B} (P Q : A -> B -> Prop) l l' : (forall a b, P a b -> Q a b) -> Forall2 P l l' -> Forall2 Q l l'.
Proof. intros H F. induction F; constructor; auto. Qed.
(** what denoted a formula still does when cells are added *)
Lemma habs_more n : forall h h' f g, (forall a, a < List.length h -> nth_error h' a = nth_error h a) -> habs n h f = Some g -> habs n h' f = Some g.
Proof.
  induction n as [|n IH]; intros h h' f g A E; [discriminate|].
  assert (C : forall a k, match nth_error h a with None => None | Some l => match all_abs n h l with Some r => Some (k r) | None => None end end = Some g ->
    match nth_error h' a with None => None | Some l => match all_abs n h' l with Some r => Some (k r) | None => None end end = Some g).
  { intros a k Ea. destruct (nth_error h a) as [l|] eqn:El; [|discriminate]. rewrite A by (apply nth_error_Some; congruence). rewrite El.
    destruct (all_abs n h l) as [r|] eqn:Er; [|discriminate]. rewrite (all_abs_of n h' l r); [exact Ea|].
    eapply F2_impl; [|apply all_abs_some, Er]. intros x y. apply IH, A. }
  destruct f; cbn [habs] in *; try exact E; try (apply C, E);
    repeat match goal with H : context [habs n h ?f] |- _ => let x := fresh "x" in let Ex := fresh "Ex" in
      destruct (habs n h f) as [x|] eqn:Ex; cbn in H; [rewrite (IH h h' f x A Ex)|discriminate] end; exact E.
Qed.

Definition copy_all (n : nat) : fheap -> list hform -> option (fheap * list hform) :=
  fix go h l := match l with
    | [] => Some (h, [])
    | x :: r => match hcopy n h x with
                | Some (h1, x') => match go h1 r with Some (h2, r') => Some (h2, x' :: r') | None => None end
                | None => None end
    end.
Lemma nth_app {A} (l1 l2 : list A) a : a < List.length l1 -> nth_error (l1 ++ l2) a = nth_error l1 a.
Proof. apply nth_error_app1. Qed.
(** the cells of a copy are new, and distinct *)
Lemma copy_ok n : forall h f g, habs n h f = Some g ->
  exists ext f', hcopy n h f = Some (h ++ ext, f') /\ rep (h ++ ext) n (fun a => List.length h <= a < List.length (h ++ ext)) f' g.
Proof.
  induction n as [|n IH]; intros h f g E; [discriminate|].
  assert (L : forall l gs h0, Forall2 (fun f g => habs n h0 f = Some g) l gs ->
    exists ext l', copy_all n h0 l = Some (h0 ++ ext, l') /\ reps (h0 ++ ext) n (fun a => List.length h0 <= a < List.length (h0 ++ ext)) l' gs).
  { induction l as [|x l IHl]; intros gs h0 F; inversion F as [|? y ? ys Hx Hl]; subst; cbn [copy_all].
    - exists [], []. rewrite app_nil_r. split; [reflexivity|constructor].
    - destruct (IH _ _ _ Hx) as (e1 & x' & -> & R1).
      assert (F1 : Forall2 (fun f g => habs n (h0 ++ e1) f = Some g) l ys).
      { eapply F2_impl; [|exact Hl]. intros u v. apply habs_more. intros a Ha. apply nth_app, Ha. }
      destruct (IHl _ _ F1) as (e2 & l' & E2 & R2). rewrite <- app_assoc in E2, R2. rewrite E2. exists (e1 ++ e2), (x' :: l').
      split; [reflexivity|]. econstructor; [|exact R2| |].
      + eapply rep_frame; [exact R1|]. cbn. intros z Hz. rewrite app_assoc. apply nth_app. lia.
      + cbn. intros z H1 H2. lia.
      + cbn. rewrite !app_length. intros z. lia. }
  assert (C : forall a (k : list form -> form) (kh : nat -> hform), match nth_error h a with None => None | Some l => match all_abs n h l with Some r => Some (k r) | None => None end end = Some g ->
    exists l' gs ext, match nth_error h a with None => None | Some l => match copy_all n h l with Some (h', l') => Some (h' ++ [l'], kh (List.length h')) | None => None end end
      = Some (h ++ ext ++ [l'], kh (List.length (h ++ ext))) /\ g = k gs /\ nth_error (h ++ ext ++ [l']) (List.length (h ++ ext)) = Some l' /\
      reps (h ++ ext ++ [l']) n (fun a => List.length h <= a < List.length (h ++ ext)) l' gs).
  { intros a k kh Ea. destruct (nth_error h a) as [l|]; [|discriminate]. destruct (all_abs n h l) as [r|] eqn:Er; [|discriminate].
    injection Ea as <-. destruct (L l r h (all_abs_some _ _ _ _ Er)) as (e & l' & -> & R). exists l', r, e. rewrite app_assoc.
    split; [reflexivity|]. split; [reflexivity|]. split; [rewrite nth_error_app2, Nat.sub_diag by lia; reflexivity|].
    eapply rep_frame; [exact R|]. cbn. intros z Hz. apply nth_app. lia. }
  destruct f; cbn [habs] in E; cbn [hcopy].
  - destruct (habs n h f) as [x|] eqn:Ex; [|discriminate]. injection E as <-. destruct (IH _ _ _ Ex) as (e & f' & -> & R). exists e. eexists. split; [reflexivity|]. constructor. exact R.
  - destruct (habs n h f) as [x|] eqn:Ex; [|discriminate]. injection E as <-. destruct (IH _ _ _ Ex) as (e & f' & -> & R). exists e. eexists. split; [reflexivity|]. constructor. exact R.
  - destruct (C a (Or ix) (HOr ix) E) as (l' & gs & e & H1 & -> & H2 & H3). exists (e ++ [l']). eexists. split; [exact H1|].
    eapply rep_or; [exact H2|exact H3| | |]; cbn; rewrite ?app_length; cbn; lia.
  - destruct (C a (And ix) (HAnd ix) E) as (l' & gs & e & H1 & -> & H2 & H3). exists (e ++ [l']). eexists. split; [exact H1|].
    eapply rep_and; [exact H2|exact H3| | |]; cbn; rewrite ?app_length; cbn; lia.
  - destruct (habs n h f1) as [x|] eqn:Ex; [|discriminate]. destruct (habs n h f2) as [y|] eqn:Ey; [|discriminate]. injection E as <-.
    destruct (IH _ _ _ Ex) as (e1 & x' & -> & R1).
    assert (Ey' : habs n (h ++ e1) f2 = Some y) by (eapply habs_more; [|exact Ey]; intros a Ha; apply nth_app, Ha).
    destruct (IH _ _ _ Ey') as (e2 & y' & -> & R2). rewrite <- app_assoc in *. exists (e1 ++ e2). eexists. split; [reflexivity|]. econstructor; [|exact R2| |].
      + eapply rep_frame; [exact R1|]. cbn. intros z Hz. rewrite app_assoc. apply nth_app. lia.
      + cbn. intros z H1 H2. lia.
      + cbn. rewrite !app_length. intros z. lia.
  - destruct (habs n h f1) as [x|] eqn:Ex; [|discriminate]. destruct (habs n h f2) as [y|] eqn:Ey; [|discriminate]. injection E as <-.
    destruct (IH _ _ _ Ex) as (e1 & x' & -> & R1).
    assert (Ey' : habs n (h ++ e1) f2 = Some y) by (eapply habs_more; [|exact Ey]; intros a Ha; apply nth_app, Ha).
    destruct (IH _ _ _ Ey') as (e2 & y' & -> & R2). rewrite <- app_assoc in *. exists (e1 ++ e2). eexists. split; [reflexivity|]. econstructor; [|exact R2| |].
      + eapply rep_frame; [exact R1|]. cbn. intros z Hz. rewrite app_assoc. apply nth_app. lia.
      + cbn. intros z H1 H2. lia.
      + cbn. rewrite !app_length. intros z. lia.
  - destruct (habs n h f) as [x|] eqn:Ex; [|discriminate]. injection E as <-. destruct (IH _ _ _ Ex) as (e & f' & -> & R). exists e. eexists. split; [reflexivity|]. constructor. exact R.
  - injection E as <-. exists []. rewrite app_nil_r. eexists. split; [reflexivity|constructor].
  - injection E as <-. exists []. rewrite app_nil_r. eexists. split; [reflexivity|constructor].
  - injection E as <-. exists []. rewrite app_nil_r. eexists. split; [reflexivity|constructor].
Qed.

(** ** Replacement in a value that shares no cell *)
Lemma set_nth_len {A} n (x : A) l : List.length (set_nth n x l) = List.length l.
Proof. revert n. induction l as [|y l IH]; intros [|n]; cbn; auto. Qed.
Lemma set_nth_other {A} n (x : A) l k : k <> n -> nth_error (set_nth n x l) k = nth_error l k.
Proof. revert n k. induction l as [|y l IH]; intros [|n] [|k] H; cbn; auto; congruence. Qed.
Lemma set_nth_same {A} n (x : A) l : n < List.length l -> nth_error (set_nth n x l) n = Some x.
Proof. revert n. induction l as [|y l IH]; intros [|n] H; cbn in *; try lia; auto. apply IH. lia. Qed.
Lemma set_nth_mid {A} (d : list A) x y l : set_nth (List.length d) y (d ++ x :: l) = (d ++ [y]) ++ l.
Proof. induction d as [|z d IH]; cbn; congruence. Qed.
Lemma hupd_len h a i f : List.length (hupd h a i f) = List.length h.
Proof. unfold hupd. destruct (nth_error h a); [apply set_nth_len|reflexivity]. Qed.
Lemma hupd_other h a i f k : k <> a -> nth_error (hupd h a i f) k = nth_error h k.
Proof. intros H. unfold hupd. destruct (nth_error h a); [apply set_nth_other, H|reflexivity]. Qed.

Definition replace_all (n : nat) (m : meta) (t : term) (a : nat) : fheap -> nat -> list hform -> option fheap :=
  fix go h i l := match l with
    | [] => Some h
    | x :: r => match hreplace n h m t x with
                | Some (h1, x') => go (hupd h1 a i x') (S i) r
                | None => None end
    end.
Lemma reps_app h n : forall l1 gs1 l2 gs2 (P1 P2 P : nat -> Prop), reps h n P1 l1 gs1 -> reps h n P2 l2 gs2 ->
  (forall z, P1 z -> ~ P2 z) -> (forall z, P1 z \/ P2 z -> P z) -> reps h n P (l1 ++ l2) (gs1 ++ gs2).
Proof.
  induction l1 as [|x l1 IH]; intros gs1 l2 gs2 P1 P2 P R1 R2 D S; inversion R1 as [|? ? P3 P4 ? ? ? ? Hf Hl Hd Hs]; subst; cbn.
  - eapply (proj2 (rep_weak h)); [exact R2|]. auto.
  - econstructor; [eassumption|eapply (IH _ _ _ P4 P2 (fun z => P4 z \/ P2 z)); [eassumption|exact R2| |]| |].
    + intros z Hz. apply D. auto.
    + auto.
    + intros z Hz [H'|H']; [eapply Hd; eauto|]. eapply D; eauto.
    + intros z [Hz|[Hz|Hz]]; auto.
Qed.
Section Replace.
Variables (m : meta) (t : term).
Lemma replace_ok n : forall h P f g, rep h n P f g -> (forall z, P z -> z < List.length h) ->
  exists h' r, hreplace n h m t f = Some (h', r) /\ List.length h <= List.length h' /\
    (forall z, z < List.length h -> ~ P z -> nth_error h' z = nth_error h z) /\
    rep h' n (fun z => P z \/ List.length h <= z < List.length h') r (replace_meta m t g).
Proof.
  induction n as [|n IH]; intros h P f g R B; [inversion R|].
  assert (L : forall l gs h0 (Q Qd : nat -> Prop) a d gd b0, nth_error h0 a = Some (d ++ l) -> reps h0 n Q l gs -> reps h0 n Qd d gd ->
    (forall z, Q z -> ~ Qd z) -> ~ Q a -> ~ Qd a -> (forall z, Q z \/ Qd z -> z < List.length h0) -> b0 <= List.length h0 ->
    exists h' l', replace_all n m t a h0 (List.length d) l = Some h' /\ List.length h0 <= List.length h' /\
      (forall z, z < List.length h0 -> ~ Q z -> z <> a -> nth_error h' z = nth_error h0 z) /\ nth_error h' a = Some (d ++ l') /\
      reps h' n (fun z => Q z \/ Qd z \/ List.length h0 <= z < List.length h') (d ++ l') (gd ++ map (replace_meta m t) gs)).
  { induction l as [|x l IHl]; intros gs h0 Q Qd a d gd b0 Ea Rl Rd D Na Nd B0 Hb; inversion Rl as [|? ? P1 P2 ? g0 ? gs0 H2 H3 H4 H5]; subst; cbn [replace_all].
    - exists h0, []. split; [reflexivity|]. split; [lia|]. split; [auto|]. split; [exact Ea|]. rewrite !app_nil_r.
      eapply (proj2 (rep_weak h0)); [exact Rd|]. cbn; auto.
    - destruct (IH h0 P1 x g0 H2) as (h1 & x' & -> & L1 & F1 & R1); [intros z Hz; apply B0; auto|].
      assert (Sa : a < List.length h0) by (apply nth_error_Some; congruence).
      assert (Ea1 : nth_error h1 a = Some (d ++ x :: l)) by (rewrite F1; auto).
      set (h2 := hupd h1 a (List.length d) x').
      assert (L2 : List.length h2 = List.length h1) by apply hupd_len.
      assert (Ea2 : nth_error h2 a = Some ((d ++ [x']) ++ l)).
      { unfold h2, hupd. rewrite Ea1, set_nth_same, set_nth_mid by lia. reflexivity. }
      set (Q1 := fun z => P1 z \/ List.length h0 <= z < List.length h1).
      assert (Rx : rep h2 n Q1 x' (replace_meta m t g0)).
      { eapply rep_frame; [exact R1|]. intros z Hz. apply hupd_other. intros ->. destruct Hz as [Hz|Hz]; [apply Na; auto|lia]. }
      assert (Rl2 : reps h2 n P2 l gs0).
      { eapply rep_frame; [exact H3|]. intros z Hz. unfold h2. rewrite hupd_other by (intros ->; apply Na; auto).
        apply F1; [apply B0; auto|]. intros Hz1. eapply H4; eauto. }
      assert (Rd2 : reps h2 n (fun z => Qd z \/ Q1 z) (d ++ [x']) (gd ++ [replace_meta m t g0])).
      { apply (reps_app h2 n _ _ _ _ Qd Q1).
        - eapply rep_frame; [exact Rd|]. intros z Hz. unfold h2. rewrite hupd_other by (intros ->; auto). apply F1; [apply B0; auto|]. intros Hz1. eapply D; eauto.
        - econstructor; [exact Rx|apply reps_nil with (P := fun _ => False)|auto|]. intros z [Hz|[]]; exact Hz.
        - intros z Hz [Hz1|Hz1]; [eapply D; eauto|]. pose proof (B0 z (or_intror Hz)). lia.
        - auto. }
      destruct (IHl gs0 h2 P2 (fun z => Qd z \/ Q1 z) a (d ++ [x']) (gd ++ [replace_meta m t g0]) b0 Ea2 Rl2 Rd2) as (h' & l' & E' & L' & F' & A' & R').
      + intros z Hz [Hz1|[Hz1|Hz1]]; [eapply D; eauto|eapply H4; eauto|]. assert (z < List.length h0) by (apply B0; auto). lia.
      + auto.
      + intros [Hz|[Hz|Hz]]; [auto|apply Na; auto|lia].
      + intros z [Hz|[Hz|[Hz|Hz]]]; [assert (z < List.length h0) by (apply B0; auto)|assert (z < List.length h0) by (apply B0; auto)|assert (z < List.length h0) by (apply B0; auto)|]; lia.
      + lia.
      + rewrite app_length in E'. cbn in E'. rewrite Nat.add_1_r in E'. fold h2. rewrite E'. exists h', (x' :: l').
        rewrite <- app_assoc in A', R'. rewrite <- app_assoc in R'. cbn in A', R'. split; [reflexivity|]. split; [lia|]. split.
        { intros z Hz N1 N2. rewrite F' by (auto; lia). unfold h2. rewrite hupd_other by auto. apply F1; auto. }
        split; [exact A'|]. cbn [map]. eapply (proj2 (rep_weak h')); [exact R'|]. unfold Q1. cbn. intros z Hz.
        destruct Hz as [Hz|[[Hz|[Hz|Hz]]|Hz]]; auto; right; right; lia. }
  assert (Cc : forall (Q : nat -> Prop) a l gs, nth_error h a = Some l -> reps h n Q l gs -> P a -> ~ Q a -> (forall x, Q x -> P x) ->
    exists h' l', replace_all n m t a h 0 l = Some h' /\ List.length h <= List.length h' /\
      (forall z, z < List.length h -> ~ P z -> nth_error h' z = nth_error h z) /\ nth_error h' a = Some l' /\
      reps h' n (fun z => Q z \/ List.length h <= z < List.length h') l' (map (replace_meta m t) gs)).
  { intros Q a l gs Ea Rl Pa Na S. 
    destruct (L l gs h Q (fun _ => False) a [] [] 0 Ea Rl (reps_nil _ _ _)) as (h' & l' & E' & L' & F' & A' & R'); auto; try lia.
    - intros z [Hz|[]]. auto.
    - exists h', l'. split; [exact E'|]. split; [exact L'|]. split; [|split; [exact A'|]].
      + intros z Hz N. apply F'; [exact Hz|auto|]. intros ->. auto.
      + eapply (proj2 (rep_weak h')); [exact R'|]. cbn. tauto. }
  assert (Qc : forall f0 g0 (k : hform -> hform), rep h n P f0 g0 -> exists h' r, 
    match hcopy n h f0 with Some (h1, g1) => match hreplace n h1 m t g1 with Some (h2, g2) => Some (h2, k g2) | None => None end | None => None end = Some (h', k r) /\
    List.length h <= List.length h' /\ (forall z, z < List.length h -> ~ P z -> nth_error h' z = nth_error h z) /\
    rep h' n (fun z => P z \/ List.length h <= z < List.length h') r (replace_meta m t g0)).
  { intros f0 g0 k R0. apply (proj1 (rep_habs h)) in R0. destruct (copy_ok n h f0 g0 R0) as (e & f1 & -> & R1).
    destruct (IH _ _ _ _ R1) as (h' & r & -> & L' & F' & R'); [cbn; intros; lia|]. exists h', r. split; [reflexivity|].
    rewrite app_length in *. split; [lia|]. split.
    - intros z Hz N. rewrite F' by (cbn; lia). apply nth_app, Hz.
    - eapply (proj1 (rep_weak h')); [exact R'|]. cbn. intros z. lia. }
  assert (Bin : forall f1 f2 x y (P1 P2 : nat -> Prop) (k : hform -> hform -> hform), rep h n P1 f1 x -> rep h n P2 f2 y -> (forall z, P1 z -> ~ P2 z) -> (forall z, P1 z \/ P2 z -> P z) ->
    exists h' r1 r2, match hreplace n h m t f1 with Some (h1, a') => match hreplace n h1 m t f2 with Some (h2, b') => Some (h2, k a' b') | None => None end | None => None end = Some (h', k r1 r2) /\
    List.length h <= List.length h' /\ (forall z, z < List.length h -> ~ P z -> nth_error h' z = nth_error h z) /\
    exists Q1 Q2 : nat -> Prop, rep h' n Q1 r1 (replace_meta m t x) /\ rep h' n Q2 r2 (replace_meta m t y) /\ (forall z, Q1 z -> ~ Q2 z) /\
      forall z, Q1 z \/ Q2 z -> P z \/ List.length h <= z < List.length h').
  { intros f1 f2 x y P1 P2 k R1 R2 D S. destruct (IH _ _ _ _ R1) as (h1 & r1 & -> & L1 & F1 & R1'); [intros; apply B; auto|].
    assert (R2' : rep h1 n P2 f2 y).
    { eapply rep_frame; [exact R2|]. intros z Hz. apply F1; [apply B; auto|]. intros Hz1. eapply D; eauto. }
    destruct (IH _ _ _ _ R2') as (h2 & r2 & -> & L2 & F2 & R2''); [intros z Hz; enough (z < List.length h) by lia; apply B; auto|].
    exists h2, r1, r2. split; [reflexivity|]. split; [lia|]. split.
    { intros z Hz N. rewrite F2 by (auto; lia). apply F1; auto. }
    exists (fun z => P1 z \/ List.length h <= z < List.length h1), (fun z => P2 z \/ List.length h1 <= z < List.length h2).
    split; [|split; [exact R2''|split]].
    - eapply rep_frame; [exact R1'|]. cbn. intros z [Hz|Hz]; apply F2.
      + enough (z < List.length h) by lia. apply B; auto.
      + intros Hz1. eapply D; eauto.
      + lia.
      + intros Hz1. assert (z < List.length h) by (apply B; auto). lia.
    - cbn. intros z [Hz|Hz] [Hz1|Hz1]; [eapply D; eauto| | |lia].
      + assert (z < List.length h) by (apply B; auto). lia.
      + assert (z < List.length h) by (apply B; auto). lia.
    - cbn. intros z Hz. assert (P1 z \/ P2 z -> P z \/ List.length h <= z < List.length h2) by auto. destruct Hz as [[Hz|Hz]|[Hz|Hz]]; auto; right; lia. }
  assert (T : forall z, False -> z < List.length h) by tauto.
  inversion R as [? ? i vs f0 g0 H1|? ? i vs f0 g0 H1|? ? i f0 g0 H1|? ? Q i a l gs H1 H2 H3 H4 H5|? ? Q i a l gs H1 H2 H3 H4 H5
    |? ? P1 P2 i a b x y H1 H2 H3 H4|? ? P1 P2 i a b x y H1 H2 H3 H4| | |]; subst; cbn [hreplace replace_meta].
  - destruct (Qc f0 g0 (HAll i vs) H1) as (h' & r & E & L' & F' & R'). exists h', (HAll i vs r). split; [exact E|]. split; [exact L'|]. split; [exact F'|]. constructor. exact R'.
  - destruct (Qc f0 g0 (HEx i vs) H1) as (h' & r & E & L' & F' & R'). exists h', (HEx i vs r). split; [exact E|]. split; [exact L'|]. split; [exact F'|]. constructor. exact R'.
  - destruct (IH _ _ _ _ H1 B) as (h' & r & -> & L' & F' & R'). exists h', (HNot i r). split; [reflexivity|]. split; [exact L'|]. split; [exact F'|]. constructor. exact R'.
  - destruct (Cc Q a l gs H1 H2 H3 H4 H5) as (h' & l' & E & L' & F' & A' & R'). unfold replace_all in E. rewrite H1, E. exists h', (HOr i a). split; [reflexivity|].
    split; [exact L'|]. split; [exact F'|]. pose proof (B _ H3). eapply rep_or; [exact A'|exact R'|auto| |]; cbn; [intros [?|?]; [auto|lia]|intros z [?|?]; auto].
  - destruct (Cc Q a l gs H1 H2 H3 H4 H5) as (h' & l' & E & L' & F' & A' & R'). unfold replace_all in E. rewrite H1, E. exists h', (HAnd i a). split; [reflexivity|].
    split; [exact L'|]. split; [exact F'|]. pose proof (B _ H3). eapply rep_and; [exact A'|exact R'|auto| |]; cbn; [intros [?|?]; [auto|lia]|intros z [?|?]; auto].
  - destruct (Bin a b x y P1 P2 (HEqu i) H1 H2 H3 H4) as (h' & r1 & r2 & E & L' & F' & Q1 & Q2 & R1 & R2 & D & S).
    exists h', (HEqu i r1 r2). split; [exact E|]. split; [exact L'|]. split; [exact F'|]. eapply rep_equ; eauto.
  - destruct (Bin a b x y P1 P2 (HImp i) H1 H2 H3 H4) as (h' & r1 & r2 & E & L' & F' & Q1 & Q2 & R1 & R2 & D & S).
    exists h', (HImp i r1 r2). split; [exact E|]. split; [exact L'|]. split; [exact F'|]. eapply rep_imp; eauto.
  - exists h. eexists. split; [reflexivity|]. split; [lia|]. split; [auto|constructor].
  - exists h. eexists. split; [reflexivity|]. split; [lia|]. split; [auto|constructor].
  - exists h. eexists. split; [reflexivity|]. split; [lia|]. split; [auto|constructor].
Qed.

(** replacing in a copy leaves every value that existed before as it was, and answers as on immutable formulas *)
Theorem copy_then_replace n h f g : habs n h f = Some g ->
  exists h1 f1 h2 r, hcopy n h f = Some (h1, f1) /\ habs n h1 f1 = Some g /\
    hreplace n h1 m t f1 = Some (h2, r) /\ habs n h2 r = Some (replace_meta m t g) /\
    forall k f0 g0, habs k h f0 = Some g0 -> habs k h1 f0 = Some g0 /\ habs k h2 f0 = Some g0.
Proof.
  intros E. destruct (copy_ok n h f g E) as (e & f1 & E1 & R1).
  destruct (replace_ok n _ _ _ _ R1) as (h2 & r & E2 & L2 & F2 & R2); [cbn; intros; lia|].
  exists (h ++ e), f1, h2, r. split; [exact E1|]. split; [apply (proj1 (rep_habs _)) in R1; exact R1|]. split; [exact E2|].
  split; [apply (proj1 (rep_habs _)) in R2; exact R2|]. intros k f0 g0 E0. split; (eapply habs_more; [|exact E0]); intros a Ha.
  - apply nth_app, Ha.
  - rewrite F2 by (rewrite ?app_length; lia). apply nth_app, Ha.
Qed.
End Replace.
