(** Proofs with metavariables, before and after the final substitution (C103-C105). *)
From Coq Require Import ZArith List Bool String Lia.
From Verif Require Import LibSet_Model Ast_Model Sem_Spec Occ_Spec Subst_Model Unif_Model GsTerm_Spec GsProof_Model GsProof_Spec GsProof_Fresh GsProof_Witness PrfSubst_Model PrfSubst_Spec PrfSubst_Proofs.
Import ListNotations.
Open Scope string_scope.
Open Scope list_scope.
Open Scope Z_scope.

Definition MX : meta := mkMeta 100 0 "X" 1 iota.
Definition MY : meta := mkMeta 101 0 "Y" 2 iota.

(** ** A metavariable that occurs twice in an argument *)
Definition ff (s t : term) : term := Fun (mkId 41 "f") [] [s; t].
Definition tw_root : form := And 0 [All 0 [vx] (p1 (ff X X)); Not 0 (p1 (ff a0 a0))].
Definition tw : list pstep :=
 [PS tw_root 0 1 "ALPHA_AND" [[All 0 [vx] (p1 (ff X X)); Not 0 (p1 (ff a0 a0))]] [];
  PS (All 0 [vx] (p1 (ff X X))) 0 2 "GAMMA_FORALL" [[p1 (ff (Meta MX) (Meta MX))]] [];
  PS (p1 (ff (Meta MX) (Meta MX))) 0 3 "CLOSURE" [] []].
Definition tw_s : list mixed := [MTerm MX a0].
Ltac avoid := let m := fresh in let u := fresh in let H := fresh in intros m u H; cbn in H; repeat (destruct H as [H|H]; [injection H as <- <-; cbn; intuition discriminate|]); destruct H.
Lemma tw_vtab : vtab tw_s fresh_delta [tw_root] tw.
Proof.
  eapply V_alpha; [left; reflexivity|apply (A_and 0)|reflexivity|apply among_self| |reflexivity].
  eapply V_gamma with (v := vx) (u := Meta MX); [cbn; auto|by_all|avoid|reflexivity| |reflexivity].
  apply V_close; [reflexivity|cbn; auto 6| |reflexivity]. right. right. exists (Not 0 (p1 (ff a0 a0))). split; [cbn; auto|left; reflexivity].
Qed.
Lemma tw_final : exists r1 r2 r3, fst (final_proof tw_s tw) = [r1; r2; r3] /\ ps_form r3 = p1 (ff a0 (Meta MX)) /\ ps_rule r3 = AX.
Proof. do 3 eexists. repeat split. Qed.
Lemma utab_cons R ok G p q rest : utab R ok G (p :: q :: rest) -> exists fs, (ps_results p = [fs] \/ ps_rule p = GsProof_Model.R /\ fs = []) /\ utab R ok (G ++ fs) (q :: rest).
Proof.
  intros T. inversion T as [|G0 p0 rest0 l fs A B C D K F|G0 p0 rest0 v b u r A B C D F|G0 p0 rest0 v b u r A B C D K F|G0 p0 rest0 A B C|]; subst; eauto.
  exists []. rewrite app_nil_r. auto.
Qed.
Lemma utab_nil R ok G : ~ utab R ok G []. Proof. intros T. inversion T. Qed.
Lemma utab_one R ok G p : utab R ok G [p] -> ps_rule p = AX -> found R (ps_form p) G /\ clash G (ps_form p).
Proof.
  intros T E. inversion T as [G0 p0 A B C D|G0 p0 rest0 l fs A B C D K F|G0 p0 rest0 v b u r A B C D F|G0 p0 rest0 v b u r A B C D K F|G0 p0 rest0 A B C|G0 p0 ls A B C D K]; subst; auto.
  all: try (exfalso; eapply utab_nil; eassumption). rewrite E in B. inversion B.
Qed.
Ltac step H := let fs := fresh "fs" in let E := fresh in apply utab_cons in H; destruct H as (fs & [E|[E _]] & H); [vm_compute in E; injection E as <-|discriminate].
Lemma tw_not : ~ utab same any_delta [full_form tw_s tw_root] (fst (final_proof tw_s tw)).
Proof.
  intros T. cbn [tw tw_s final_proof subst_proof map fst] in T. step T. step T. apply utab_one in T; [|reflexivity]. destruct T as [_ T].
  destruct T as [(i & E)|[(i & j & E)|(g & Hg & E)]]; [discriminate..|]. cbn in Hg.
  repeat (destruct Hg as [Hg|Hg]; [subst g; destruct E as [E|E]; vm_compute in E; discriminate|]). destruct Hg.
Qed.
Lemma tw_crash : make_gs3 eq0 false 5 None (fst (final_proof tw_s tw)) = Crash.
Proof. vm_compute. reflexivity. Qed.

(** ** Two formulas of a rule that become equal *)
Definition pi (i : Z) (t : term) : form := Pred i (mkId 12 "d") [] [t].
Definition rep : form := Imp 0 (All 0 [vx; vy] (And 0 [pi 5 X; pi 6 Y])) (p1 a0).
Definition rep_all (t : term) : form := All 0 [vy] (And 0 [pi 5 t; pi 6 Y]).
Definition rep_first : pstep := PS (neg rep) 0 1 "ALPHA_NOT_IMPLY" [[All 0 [vx; vy] (And 0 [pi 5 X; pi 6 Y]); neg (p1 a0)]] [].
Definition rep_rest : list pstep :=
 [PS (All 0 [vx; vy] (And 0 [pi 5 X; pi 6 Y])) 0 2 "GAMMA_FORALL" [[rep_all (Meta MX)]] [];
  PS (rep_all (Meta MX)) 0 3 "GAMMA_FORALL" [[And 0 [pi 5 (Meta MX); pi 6 (Meta MY)]]] [];
  PS (And 0 [pi 5 (Meta MX); pi 6 (Meta MY)]) 0 4 "ALPHA_AND" [[pi 5 (Meta MX); pi 6 (Meta MY)]] [];
  PS (pi 6 (Meta MY)) 0 5 "CLOSURE" [] []].
Definition rep_s : list mixed := [MTerm MX a0; MTerm MY a0].
Lemma rep_vtab : vtab rep_s fresh_delta [ps_form rep_first] (rep_first :: rep_rest).
Proof.
  eapply V_alpha; [left; reflexivity|apply (A_nimp 0 0)|reflexivity|apply among_self| |reflexivity].
  eapply V_gamma with (v := vx) (u := Meta MX); [cbn; auto|apply (G_all 0); right; left; do 4 eexists; split; reflexivity|avoid|reflexivity| |reflexivity].
  eapply V_gamma with (v := vy) (u := Meta MY); [cbn; auto 6|by_all|avoid|reflexivity| |reflexivity].
  eapply V_alpha; [cbn; auto 8|apply (A_and 0)|reflexivity|apply among_self| |reflexivity].
  apply V_close; [reflexivity|cbn; auto 10| |reflexivity]. right. right. exists (neg (p1 a0)). split; [cbn; auto|left; reflexivity].
Qed.
(** the formulas of a concrete proof, and the lists of formulas generated *)
Fixpoint sforms (p : pstep) : list form := let '(PS f _ _ _ rs cs) := p in f :: List.concat rs ++ flat_map (flat_map sforms) cs.
Fixpoint sgens (p : pstep) : list (list form) := let '(PS _ _ _ _ rs cs) := p in rs ++ flat_map (flat_map sgens) cs.
Lemma sforms_all f l : in_proof f l -> In f (flat_map sforms l).
Proof.
  induction 1 as [p l Hp|f r p l Hp H2 H3|f c p l Hp H2 H3 IH]; apply in_flat_map; exists p; (split; [exact Hp|]); destruct p; cbn in *; [auto|right; apply in_app_iff..].
  - left. apply in_concat. eauto.
  - right. apply in_flat_map. eauto.
Qed.
Lemma sgens_all fs l : generated fs l -> In fs (flat_map sgens l).
Proof.
  induction 1 as [fs p l Hp H2|fs c p l Hp H2 H3 IH]; apply in_flat_map; exists p; (split; [exact Hp|]); destruct p; cbn in *; apply in_app_iff; [auto|right].
  apply in_flat_map. eauto.
Qed.
Ltac lin := let f := fresh in let H := fresh in intros f H; apply sforms_all in H; cbn in H;
  repeat (destruct H as [H|H]; [subst f; vm_compute; repeat split; try (let m := fresh in let E := fresh in intros m E; first [discriminate E|injection E as <-; discriminate]); repeat (constructor; try lia)|]); destruct H.
Ltac dist := let f := fresh in let H := fresh in intros f H; apply sgens_all in H; cbn in H;
  repeat (destruct H as [H|H]; [subst f; vm_compute; repeat (constructor; try discriminate)|]); destruct H.
Lemma rep_linear : forall f, in_proof f (rep_first :: rep_rest) -> stays_linear rep_s f.
Proof. lin. Qed.
Lemma rep_not : ~ tab any_delta [full_form rep_s (neg rep)] (fst (final_proof rep_s (rep_first :: rep_rest))).
Proof.
  intros T. assert (E : forall G l, tab any_delta G l -> utab eq any_delta G l).
  { clear. assert (E : forall f l, In f l -> found eq f l) by (intros f l H; exists f; auto).
    fix IH 3. intros G proof T. destruct T as [Gamma p A B C D|Gamma p rest l fs A B C D K F|Gamma p rest v b u r A B C D F|Gamma p rest v b u r A B C D K F|Gamma p rest A B C|Gamma p ls A B C D K].
    - apply U_close; auto.
    - eapply U_alpha; eauto.
    - eapply U_gamma; eauto.
    - eapply U_delta; eauto.
    - apply U_skip; auto.
    - eapply U_beta; eauto. clear - IH K. induction K as [|fs c rs cs Hc K IHE]; constructor; [apply IH, Hc|exact IHE]. }
  apply E in T. cbn [rep_rest rep_s final_proof subst_proof map fst] in T. step T. step T. step T. step T. apply utab_one in T; [|reflexivity]. destruct T as [(h & Hh & Eh) _].
  subst h. vm_compute in Hh. repeat (destruct Hh as [Hh|Hh]; [discriminate|]). destruct Hh.
Qed.
(** ** A proof that is printed *)
Definition gx : form := Ex 0 [vz] (neg (p1 Zt)).
Definition ga : form := All 0 [vx] (Or 0 [p1 X; q1 X]).
Definition gb : form := All 0 [vy] (neg (q1 Y)).
Definition good_first : pstep := PS (And 0 [gx; ga; gb]) 0 1 "ALPHA_AND" [[gx; ga; gb]] [].
Definition good_rest : list pstep :=
 [PS gx 0 2 "DELTA_EXISTS" [[neg (p1 sk)]] [];
  PS ga 0 3 "GAMMA_FORALL" [[Or 0 [p1 (Meta MX); q1 (Meta MX)]]] [];
  PS (Or 0 [p1 (Meta MX); q1 (Meta MX)]) 0 4 "BETA_OR" [[p1 (Meta MX)]; [q1 (Meta MX)]]
   [[PS (p1 (Meta MX)) 0 5 "CLOSURE" [] []];
    [PS gb 0 6 "GAMMA_FORALL" [[neg (q1 (Meta MY))]] []; PS (neg (q1 (Meta MY))) 0 7 "CLOSURE" [] []]]].
Definition good_s : list mixed := [MTerm MX sk; MTerm MY (Meta MX); MTerm MX sk].
Lemma good_vtab : vtab good_s fresh_delta [ps_form good_first] (good_first :: good_rest).
Proof.
  eapply V_alpha; [left; reflexivity|apply (A_and 0)|reflexivity|apply among_self| |reflexivity].
  eapply V_delta with (v := vz) (b := neg (p1 Zt)) (u := sk); [cbn; auto|by_ex|avoid|reflexivity| | |reflexivity].
  - intros v' E. split; [rewrite E; cbn; auto|]. intros f Hf K. apply form_subs_in in K. cbn in Hf. decompose [or] Hf; subst; try contradiction; vm_compute in K; discriminate.
  - eapply V_gamma with (v := vx) (u := Meta MX); [cbn; auto 6|by_all|avoid|reflexivity| |reflexivity].
    eapply V_beta; [cbn; auto 10|apply (B_or 0)| |discriminate|].
    + repeat constructor; apply among_self.
    + constructor; [|constructor; [|constructor]].
      * apply V_close; [reflexivity|cbn; auto 14| |reflexivity]. right. right. exists (neg (p1 sk)). split; [cbn; auto 14|left; reflexivity].
      * eapply V_gamma with (v := vy) (u := Meta MY); [cbn; auto 10|by_all|avoid|reflexivity| |reflexivity].
        apply V_close; [reflexivity|cbn; auto 14| |reflexivity]. right. right. exists (q1 sk). split; [cbn; auto 14|right; reflexivity].
Qed.
Lemma good_linear : forall f, in_proof f (good_first :: good_rest) -> stays_linear good_s f.
Proof. lin. Qed.
Lemma good_distinct : forall fs, generated fs (good_first :: good_rest) -> distinct (map (full_form good_s) fs).
Proof. dist. Qed.
Lemma good_metas : exists x x', snd (final_proof [MTerm MX sk] (good_first :: good_rest)) = Some x /\ find meta_eqb meta_ltb x MY = true /\ find meta_eqb meta_ltb x MX = false /\
  snd (final_proof [] (good_first :: good_rest)) = Some x' /\ find meta_eqb meta_ltb x' MX = true.
Proof. do 2 eexists. split; [vm_compute; reflexivity|]. split; [reflexivity|]. split; [reflexivity|]. split; [vm_compute; reflexivity|reflexivity]. Qed.
