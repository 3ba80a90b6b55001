(** Scripts that are accepted, and scripts that are not (C99-C102). *)
From Coq Require Import ZArith List Bool String Ascii Lia.
From Verif Require Import Ast_Model Sem_Spec Occ_Spec Unif_Model GsTerm_Spec GsProof_Model GsProof_Spec GsProof_Witness Tptp_Model Tptp_Spec Tptp_Witness Rocq_Model Rocq_Spec Rocq_Proofs.
Import ListNotations.
Open Scope string_scope.
Open Scope list_scope.
Open Scope Z_scope.

Definition the_I : ident := mkId 91 "goeland_I".
(** Rocq does not accept the script, whatever congruence proves; the symbols of the problem are declared *)
Definition rejected (s : sequent) (axs : list form) (c : form) : Prop := exists globals base,
  declared base globals /\
  (forall f x n, In f (c :: axs) -> In (x, false, n) (f_uses 1 f) -> exists p, In (p, n) globals /\ id_name p = x) /\
  exists st ts, rocq 1 [] s = Ok (st, ts) /\ forall cong, ~ accepted cong globals base st ts.
Lemma dec_x k s : 0 <= k -> ("x" ++ dec k)%string = String "x" s -> dec k = s.
Proof. intros _ E. injection E as E. exact E. Qed.
Ltac decl_ok := split; [cbn; repeat constructor; cbn; intuition discriminate|split; [exists the_I; split; [cbn; auto|reflexivity]|
  intros p n Hp; cbn in Hp; repeat (destruct Hp as [Hp|Hp]; [injection Hp as <- <-; split; [cbn; lia|intros k _ E; cbn in E; discriminate]|]); destruct Hp]].
Ltac uses_ok := intros f x n Hf Hx; cbn in Hf; repeat match goal with
   | K : _ \/ _ |- _ => destruct K as [K|K]
   | K : False |- _ => destruct K
   | K : _ = f |- _ => subst f; cbn in Hx
   | K : (_, _, _) = (_, _, _) |- _ => first [discriminate K|injection K as <- <-; eexists; split; [cbn; eauto 9|reflexivity]] end.
Ltac not_accepted := do 2 eexists; split; [vm_compute; reflexivity|]; intros cong H; vm_compute in H; discriminate.

(** ** A conjunction of three formulas *)
Definition C0 : form := Pred 0 (mkId 22 "c0") [] [].
Definition three : form := Imp 0 (And 0 [A0; B0; C0]) A0.
Definition L1 : list form := [no three; And 0 [A0; B0; C0]; no A0].
Definition three_root : sequent :=
  sq_of [no three] NIMP 0 None [[And 0 [A0; B0; C0]; no A0]] [sq_of L1 AND 1 None [[A0; B0; C0]] [sq_of (L1 ++ [A0; B0; C0]) AX 3 None [] []]].
Lemma three_gs3 : gs3 [no three] three_root.
Proof.
  eapply P_alpha; [discriminate|apply app_here; [reflexivity|left; reflexivity]|apply (A_nimp 0 0)|reflexivity|apply among_self|reflexivity|].
  eapply P_alpha; [discriminate|apply app_here; [reflexivity|cbn; auto]|apply (A_and 0)|reflexivity|apply among_self|reflexivity|].
  eapply P_close; [discriminate|reflexivity|apply app_here; [reflexivity|cbn; auto]| |reflexivity]. right. right. exists (no A0). split; [cbn; auto|]. left. reflexivity.
Qed.
Lemma three_rejected : rejected three_root [] three.
Proof. exists [(the_I, 0%nat)], 100. split; [decl_ok|]. split; [uses_ok|]. not_accepted. Qed.

(** ** A constant of the problem whose name contains sko *)
Definition risko : term := Fun (mkId 61 "risko") [] [].
Definition instance (t : term) : form := Imp 0 (p1 t) (Ex 0 [vz] (p1 Zt)).
Definition I1 (t : term) : list form := [no (instance t); p1 t; no (Ex 0 [vz] (p1 Zt))].
Definition inst_root (t : term) : sequent :=
  sq_of [no (instance t)] NIMP 0 None [[p1 t; no (Ex 0 [vz] (p1 Zt))]]
   [sq_of (I1 t) NEX 2 (Some t) [[no (p1 t)]] [sq_of (I1 t ++ [no (p1 t)]) AX 3 None [] []]].
Lemma inst_gs3 p tys : gs3 [no (instance (Fun p tys []))] (inst_root (Fun p tys [])).
Proof.
  eapply P_alpha; [discriminate|apply app_here; [reflexivity|left; reflexivity]|apply (A_nimp 0 0)|reflexivity|apply among_self|reflexivity|].
  eapply P_gamma with (v := vz) (b := p1 Zt) (u := Fun p tys []) (r := no (p1 (Fun p tys []))); [discriminate|apply app_here; [reflexivity|cbn; auto 12]| |reflexivity|reflexivity|reflexivity|].
  { apply (G_nex 0 0 [vz]). right. right. left. exists 0, 0, 0. split; reflexivity. }
  eapply P_close; [discriminate|reflexivity|apply app_here; [reflexivity|cbn; auto 12]| |reflexivity]. right. right. exists (p1 (Fun p tys [])). split; [cbn; auto 12|]. right. apply Rules_Proofs.form_eqb_refl.
Qed.
Lemma risko_rejected : rejected (inst_root risko) [] (instance risko).
Proof. exists [(the_I, 0%nat); (mkId 61 "risko", 0%nat)], 100. split; [decl_ok|]. split; [uses_ok|]. not_accepted. Qed.
(** ** A term with type arguments *)
Definition poly : term := Fun (mkId 62 "nil") [iota] [].
Lemma poly_rejected : rejected (inst_root poly) [] (instance poly).
Proof. exists [(the_I, 0%nat); (mkId 62 "nil", 0%nat)], 100. split; [decl_ok|]. split; [uses_ok|]. not_accepted. Qed.

(** ** A Skolem symbol twice on a branch, after a weakening *)
Definition again : form := Imp 0 (Ex 0 [vy] (p1 Y)) (Ex 0 [vz] (p1 Zt)).
Definition W1 : list form := [no again; Ex 0 [vy] (p1 Y); no (Ex 0 [vz] (p1 Zt))].
Definition again_root : sequent :=
  sq_of [no again] NIMP 0 None [[Ex 0 [vy] (p1 Y); no (Ex 0 [vz] (p1 Zt))]]
   [sq_of W1 EX 1 (Some sk) [[p1 sk]]
    [sq_of (W1 ++ [p1 sk]) W 3 None []
     [sq_of W1 EX 1 (Some sk) [[p1 sk]]
      [sq_of (W1 ++ [p1 sk]) NEX 2 (Some sk) [[no (p1 sk)]] [sq_of (W1 ++ [p1 sk; no (p1 sk)]) AX 3 None [] []]]]]].
Lemma again_gs3 : gs3 [no again] again_root.
Proof.
  eapply P_alpha; [discriminate|apply app_here; [reflexivity|left; reflexivity]|apply (A_nimp 0 0)|reflexivity|apply among_self|reflexivity|].
  assert (E : delta_by EX (Ex 0 [vy] (p1 Y)) vy (p1 Y) sk (p1 sk)) by (apply (D_ex 0 [vy]); left; exists 0; split; reflexivity).
  eapply P_delta with (v := vy) (b := p1 Y) (u := sk) (r := p1 sk); [discriminate|apply app_here; [reflexivity|cbn; auto]|exact E|reflexivity|absent|reflexivity|reflexivity|].
  eapply P_weaken with (Gamma' := W1); [discriminate|reflexivity|reflexivity|reflexivity| |reflexivity|].
  { do 3 (apply Drop_later; [discriminate|]). apply Drop_here. reflexivity. }
  eapply P_delta with (v := vy) (b := p1 Y) (u := sk) (r := p1 sk); [discriminate|apply app_here; [reflexivity|cbn; auto]|exact E|reflexivity|absent|reflexivity|reflexivity|].
  eapply P_gamma with (v := vz) (b := p1 Zt) (u := sk) (r := no (p1 sk)); [discriminate|apply app_here; [reflexivity|cbn; auto 12]| |reflexivity|reflexivity|reflexivity|].
  { apply (G_nex 0 0 [vz]). right. right. left. exists 0, 0, 0. split; reflexivity. }
  eapply P_close; [discriminate|reflexivity|apply app_here; [reflexivity|cbn; auto 12]| |reflexivity]. right. right. exists (no (p1 sk)). split; [cbn; auto 12|]. left. reflexivity.
Qed.
Lemma again_rejected : rejected again_root [] again.
Proof. exists [(the_I, 0%nat)], 100. split; [decl_ok|]. split; [uses_ok|]. not_accepted. Qed.

(** ** $false and an equality are closed as any other formula; the name of a constant without a term hides one of the problem *)
Definition cx0 : term := Fun (mkId 63 "x0") [] [].
Definition hide : form := Imp 0 (Ex 0 [vy] A0) (instance cx0).
Definition hide_root : sequent :=
  let G1 := [no hide; Ex 0 [vy] A0; no (instance cx0)] in
  let G2 := G1 ++ [A0] in
  let G3 := G2 ++ [p1 cx0; no (Ex 0 [vz] (p1 Zt))] in
  sq_of [no hide] NIMP 0 None [[Ex 0 [vy] A0; no (instance cx0)]]
   [sq_of G1 EX 1 None [[A0]]
    [sq_of G2 NIMP 2 None [[p1 cx0; no (Ex 0 [vz] (p1 Zt))]]
     [sq_of G3 NEX 5 (Some cx0) [[no (p1 cx0)]] [sq_of (G3 ++ [no (p1 cx0)]) AX 4 None [] []]]]].
Lemma hide_gs3 : gs3 [no hide] hide_root.
Proof.
  eapply P_alpha; [discriminate|apply app_here; [reflexivity|left; reflexivity]|apply (A_nimp 0 0)|reflexivity|apply among_self|reflexivity|].
  eapply P_vacuous with (v := vy) (b := A0) (u := sk) (r := A0); [discriminate|apply app_here; [reflexivity|cbn; auto]| |intros []|reflexivity|reflexivity|reflexivity|].
  { apply (D_ex 0 [vy]). left. exists 0. split; reflexivity. }
  eapply P_alpha; [discriminate|apply app_here; [reflexivity|cbn; auto]|apply (A_nimp 0 0)|reflexivity|apply among_self|reflexivity|].
  eapply P_gamma with (v := vz) (b := p1 Zt) (u := cx0) (r := no (p1 cx0)); [discriminate|apply app_here; [reflexivity|cbn; auto 12]| |reflexivity|reflexivity|reflexivity|].
  { apply (G_nex 0 0 [vz]). right. right. left. exists 0, 0, 0. split; reflexivity. }
  eapply P_close; [discriminate|reflexivity|apply app_here; [reflexivity|cbn; auto 12]| |reflexivity]. right. right. exists (no (p1 cx0)). split; [cbn; auto 12|]. left. reflexivity.
Qed.
Lemma hide_rejected : exists globals base,
  NoDup (map (fun x => id_name (fst x)) globals) /\ In (the_I, 0%nat) globals /\ In (mkId 63 "x0", 0%nat) globals /\
  exists st ts, rocq 1 [] hide_root = Ok (st, ts) /\ forall cong, ~ accepted cong globals base st ts.
Proof.
  exists [(the_I, 0%nat); (mkId 63 "x0", 0%nat)], 100. split; [cbn; repeat constructor; cbn; intuition discriminate|]. split; [cbn; auto|]. split; [cbn; auto|]. not_accepted.
Qed.

(** ** Accepted: two axioms, all the kinds of rules *)
Definition good_globals : list (ident * nat) := [(the_I, 0%nat); (mkId 40 "a", 0%nat)].
Lemma good_begins : begins good_root [ax1; ax2] Tptp_Witness.goal k0.
Proof. eapply (Be_axioms good_root 0 [ax1; ax2] 0); [discriminate|reflexivity|reflexivity]. Qed.
Lemma good_declared : declared 100 good_globals. Proof. decl_ok. Qed.
Lemma sko_sk : sko_name "skolem@y@0". Proof. exists "", "lem@y@0". reflexivity. Qed.
Lemma same_list l : Forall2 same l l. Proof. induction l; constructor; [apply Rules_Proofs.form_eqb_refl|assumption]. Qed.
Lemma good_rocq_ok : Rocq_Spec.ok good_globals 100 [] (([ax1; ax2] ++ []) ++ [neg Tptp_Witness.goal]) k0.
Proof.
  change (Rocq_Spec.ok good_globals 100 [] G0 k0).
  eapply Rocq_Spec.K_delta with (f := ax2) (v := vy) (b := p1 Y) (tys := []) (args := []) (p := mkId 50 "skolem@y@0") (r := p1 sk);
    [reflexivity|avail|apply (D_ex 2 [vy]); left; exists 2; split; reflexivity|split; [reflexivity|cbn; intuition lia]|exact sko_sk|reflexivity|cbn; intuition lia|intros []|intros []|cbn; intuition discriminate|cbn; intuition lia|reflexivity|reflexivity|reflexivity|].
  change (Rocq_Spec.ok good_globals 100 [sk] G1 k1).
  assert (P : printable good_globals [sk] sk) by (eapply Pr_sko; [exact sko_sk|left; reflexivity|reflexivity]).
  eapply Rocq_Spec.K_gamma with (f := ax1) (v := vx) (b := Imp 0 (p1 X) (q1 X)) (u := sk); [reflexivity|avail|apply (G_all 1 [vx]); left; exists 1; split; reflexivity|split; [reflexivity|cbn; intuition lia]|left; split; [reflexivity|exact P]|reflexivity|reflexivity|].
  change (Rocq_Spec.ok good_globals 100 [sk] G2 k2).
  eapply Rocq_Spec.K_gamma with (f := no Tptp_Witness.goal) (v := vz) (b := q1 Zt) (u := sk); [reflexivity|avail|apply (G_nex 0 0 [vz]); right; right; left; exists 0, 0, 0; split; reflexivity|split; [reflexivity|cbn; intuition lia]|left; split; [reflexivity|exact P]|reflexivity|reflexivity|].
  change (Rocq_Spec.ok good_globals 100 [sk] G3 k3).
  eapply Rocq_Spec.K_beta with (f := Imp 0 (p1 sk) (q1 sk)); [reflexivity|avail|apply (B_imp 0)|reflexivity| |].
  { constructor; [apply same_list|]. constructor; [apply same_list|constructor]. }
  constructor; [|constructor; [|constructor]].
  - eapply Rocq_Spec.K_close with (f := no (p1 sk)); [reflexivity|reflexivity|avail| |reflexivity]. right. right. right. exists 0, (p1 sk). split; [reflexivity|avail].
  - eapply Rocq_Spec.K_close with (f := q1 sk); [reflexivity|reflexivity|avail| |reflexivity]. right. right. left. avail.
Qed.
Lemma good_script : exists st ts, rocq 1 [] good_root = Ok (st, ts) /\ List.length ts = 8%nat.
Proof. vm_compute. do 2 eexists. split; reflexivity. Qed.
(** what congruence does is at least what it does on opposite hypotheses *)
Definition opposite (l : list form) : bool := existsb (fun f => existsb (fun g => form_eqb (neg f) g) l) l.
Lemma opposite_closes l a b : In a l -> In b l -> same (neg a) b -> opposite l = true.
Proof. intros A B S. apply existsb_exists. exists a. split; [exact A|]. apply existsb_exists. exists b. split; [exact B|exact S]. Qed.
Lemma good_accepted : exists st ts, rocq 1 [] good_root = Ok (st, ts) /\ accepted opposite good_globals 100 st ts /\ below 100 st.
Proof.
  eexists _, _. split; [vm_compute; reflexivity|]. split; [vm_compute; reflexivity|]. intros p Hp. cbn in Hp. repeat (destruct Hp as [<-|Hp]; [cbn; lia|]). destruct Hp.
Qed.

(** ** The printing stops: there is no conjecture *)
Definition only_axioms : form := And 0 [no A0; A0].
Definition axioms_root : sequent := sq_of [only_axioms] AND 0 None [[no A0; A0]] [sq_of [only_axioms; no A0; A0] AX 1 None [] []].
Lemma axioms_gs3 : gs3 [only_axioms] axioms_root.
Proof.
  eapply P_alpha; [discriminate|apply app_here; [reflexivity|left; reflexivity]|apply (A_and 0)|reflexivity|apply among_self|reflexivity|].
  eapply P_close; [discriminate|reflexivity|apply app_here; [reflexivity|cbn; auto]| |reflexivity]. right. right. exists A0. split; [cbn; auto|]. right. reflexivity.
Qed.
Lemma axioms_stop : rocq 1 [] axioms_root = Crash. Proof. reflexivity. Qed.
Definition lone : form := Or 0 [Bot 0; Bot 0].
Definition lone_root : sequent := sq_of [lone] OR 0 None [[Bot 0]; [Bot 0]] [sq_of [lone; Bot 0] AX 1 None [] []; sq_of [lone; Bot 0] AX 1 None [] []].
Lemma lone_gs3 : gs3 [lone] lone_root.
Proof.
  eapply P_beta; [discriminate|apply app_here; [reflexivity|left; reflexivity]|apply (B_or 0)| |discriminate|].
  { repeat constructor; apply among_self. }
  constructor; [|constructor; [|constructor]]; (eapply P_close; [discriminate|reflexivity|apply app_here; [reflexivity|cbn; auto]| |reflexivity]; left; exists 0; reflexivity).
Qed.
Lemma lone_stop : rocq 1 [] lone_root = Crash. Proof. reflexivity. Qed.

(** ** Declarations *)
Definition no_env (s : string) : option ty := None.
Definition pred1 (n : string) (l : list term) : form := Pred 0 (mkId 30 n) [] l.
Definition ca : term := Fun (mkId 40 "a") [] [].
Lemma twice_bad known l : decls_ok known l -> NoDup (map fst l) /\ forall x, In x (map fst l) -> ~ In x known.
Proof.
  revert known. induction l as [|[x t] r IH]; intros known; [split; [constructor|intros _ []]|]. cbn. intros (A & _ & B). destruct (IH _ B) as [N K]. split.
  - constructor; [|exact N]. intros H. apply (K x H). left. reflexivity.
  - intros y [<-|H]; [exact A|]. intros Q. apply (K y H). right. exact Q.
Qed.
Definition two_arities : form := Not 0 (Imp 0 (pred1 "p" []) (pred1 "p" [ca])).
Lemma two_arities_bad : ~ decls_ok preamble (context 1 no_env None two_arities).
Proof. intros H. apply twice_bad in H. destruct H as [H _]. change (NoDup ["p"; "p"; "a"]) in H. inversion H as [|x l N]. apply N. cbn. auto. Qed.
Definition two_kinds : form := Not 0 (Imp 0 (pred1 "a" []) (pred1 "p" [ca])).
Lemma two_kinds_bad : ~ decls_ok preamble (context 1 no_env None two_kinds).
Proof. intros H. apply twice_bad in H. destruct H as [H _]. change (NoDup ["a"; "p"; "a"]) in H. inversion H as [|x l N]. apply N. cbn. auto. Qed.
Definition own_name : form := Not 0 (pred1 "p" [Fun (mkId 41 "goeland_I") [] []]).
Lemma own_name_bad : ~ decls_ok preamble (context 1 no_env None own_name).
Proof. intros H. apply twice_bad in H. destruct H as [_ H]. apply (H "goeland_I"); cbn; auto 30. Qed.
(** a typed problem: nat is a type, a is one of its elements *)
Definition typed_env (s : string) : option ty :=
  if String.eqb s "nat" then Some (TyConstr "$tType" []) else if String.eqb s "a" then Some (TyConstr "nat" []) else
  if String.eqb s "p" then Some (TyFunc (TyConstr "nat" []) (TyConstr "$o" [])) else None.
Definition typed_root : form := Not 0 (pred1 "p" [ca]).
Lemma typed_bad : ~ decls_ok preamble (context 1 typed_env None typed_root).
Proof. intros (_ & ((H & _) & _) & _). cbn in H. repeat (destruct H as [H|H]; [discriminate|]). destruct H. Qed.
Definition decl_root : form := Not 0 (Imp 0 (pred1 "p" [ff ca ca; ca]) (Ex 0 [vx] (pred1 "p" [X; ca]))).
Definition decl_uses := flat_map (f_uses 1) [decl_root].
Lemma decl_cond : (forall s p n, In (s, p, n) decl_uses -> ~ In s preamble /\ type_ok preamble (type_of_use no_env (s, p, n))) /\
  (forall s p n p' n', In (s, p, n) decl_uses -> In (s, p', n') decl_uses -> type_of_use no_env (s, p, n) = type_of_use no_env (s, p', n')) /\
  List.length (context 1 no_env None decl_root) = 3%nat.
Proof.
  split; [|split].
  - intros s p n H. cbn in H. repeat (destruct H as [H|H]; [inversion H; subst; clear H; split; [intros Q; cbn in Q; repeat (destruct Q as [Q|Q]; [discriminate|]); destruct Q|cbn; auto 12]|]). destruct H.
  - intros s p n p' n' H H'. cbn in H, H'.
    repeat match goal with K : _ \/ _ |- _ => destruct K as [K|K] | K : False |- _ => destruct K end; inversion H; subst; inversion H'; subst; reflexivity.
  - reflexivity.
Qed.
Lemma good_shown : shown (([ax1; ax2] ++ []) ++ [neg Tptp_Witness.goal]) k0.
Proof.
  change (shown G0 k0). eapply S_delta; [cbn; auto 12|exact Logic.I|reflexivity|avail|reflexivity|reflexivity|].
  change (shown G1 k1). eapply S_one; [cbn; auto 12|reflexivity|avail|reflexivity|reflexivity|].
  change (shown G2 k2). eapply S_one; [cbn; auto 12|reflexivity|avail|reflexivity|reflexivity|].
  change (shown G3 k3). eapply S_beta; [cbn; auto 12|reflexivity|avail|].
  constructor; [|constructor; [|constructor]]; (eapply S_close; [reflexivity|reflexivity|avail|reflexivity]).
Qed.
Lemma again_begins : begins again_root [] again again_root. Proof. eapply Be_goal. reflexivity. Qed.
Lemma again_plain : every plain_terms again_root.
Proof. do 5 (constructor; [exact Logic.I || reflexivity|]; constructor; [|constructor]). constructor; [exact Logic.I|constructor]. Qed.
Lemma inst_begins t : begins (inst_root t) [] (instance t) (inst_root t). Proof. eapply Be_goal. reflexivity. Qed.
