(** Concrete cases for C30, C31, C55. *)
From Coq Require Import ZArith List Bool String.
From Verif Require Import LibSet_Model Ast_Model Problem_Model Rules_Model Sem_Spec Occ_Spec Free_Spec Rules_Spec Skolem_Spec
  Tableau_Spec LibSet_Proofs Ast_Proofs Skolem_Witness Tableau_Witness Expand_Model Expand_Spec Expand_Witness
  Unif_Model Unif_Spec Unif_Witness UnifTree_Model UnifTree_Witness Closure_Model Closure_Spec Closure_Proofs Closure_Final.
Import ListNotations.
Open Scope list_scope.
Open Scope Z_scope.

Definition mono0 (_ : string) : nat := O.

(** ** A run that closes a satisfiable formula:
    (! [X,Y] : ((p(g(c),X,Y) & ~ p(X,g(Y),b)) | q(X,Y))) & ~ q(g(c),c) *)
Definition pP : ident := mkId 1 "p".
Definition qP : ident := mkId 2 "q".
Definition gg (t : term) : term := Fun (mkId 3 "g") [] [t].
Definition cc : term := Fun (mkId 4 "c") [] [].
Definition bb : term := Fun (mkId 5 "b") [] [].
Definition x_ : term := Var 20 "X".
Definition y_ : term := Var 21 "Y".
Definition lF : form := And 1
  [All 2 [mkTV "X" 20 iT; mkTV "Y" 21 iT]
     (Or 3 [And 4 [Pred 5 pP [] [gg cc; x_; y_]; Not 6 (Pred 7 pP [] [x_; gg y_; bb])]; Pred 8 qP [] [x_; y_]]);
   Not 9 (Pred 10 qP [] [gg cc; cc])].
Definition lF_end (k : sko_kind) : forest := run 5 (plant 5 gS k lF).
Definition lF_leaves : list state := Eval vm_compute in fo_leaves (lF_end Outer).
Lemma lF_leaves_ok k : fo_leaves (lF_end k) = lF_leaves.
Proof. destruct k; vm_compute; reflexivity. Qed.
Definition mX30 : meta := mkMeta 30 0 "X" 0 iT.
Definition mY31 : meta := mkMeta 31 0 "Y" 1 iT.
Definition lS : list (meta * term) := [(mX30, gg cc); (mY31, cc)].
(** symbols: 0 and 2 (= and q) have two arguments, 1 (p) has three, 3 (g) one *)
Definition car : signature :=
  mkSig (fun i => if (i =? 0)%Z then 2 else if (i =? 1)%Z then 3 else if (i =? 2)%Z then 2 else if (i =? 3)%Z then 1 else 0)%nat
    (fun m => m_ty m = iT) (fun _ => True).
Lemma car_mono : monomorphic car mono0.
Proof. split; [intros m E; cbn in E; rewrite E; reflexivity|reflexivity]. Qed.
Ltac wellc := cbn; unfold pmeta; cbn; repeat match goal with |- _ /\ _ => split | |- True => exact I | |- _ = _ => reflexivity | |- _ <= _ => discriminate end.
Lemma lS_extends : extends lS lS.
Proof. intros k t [E|[E|[]]]; injection E as <- <-; apply term_eqb_reflect; reflexivity. Qed.
Lemma lF_finds k : forall st, In st (fo_leaves (lF_end k)) -> finds 0 nid mono0 30 30 same0 [] lS st.
Proof.
  intros st H. rewrite lF_leaves_ok in H. destruct H as [<-|[<-|[]]];
    (eexists; eexists; split; [vm_compute; reflexivity|right; exists lS; split; [left; reflexivity|exact lS_extends]]).
Qed.
Lemma lF_fo k : forall st, In st (fo_leaves (lF_end k)) ->
  forall x, In x (q_lf (st_q st) ++ q_atomic (st_q st)) -> first_order car (ft_form x).
Proof.
  intros st H x Hx. rewrite lF_leaves_ok in H. destruct H as [<-|[<-|[]]]; cbn in Hx;
    repeat (destruct Hx as [<-|Hx]; [split; [reflexivity|wellc]|]); destruct Hx.
Qed.
Lemma lF_start : wf_start gS lF.
Proof.
  split; [apply wffb_ok; reflexivity|]. split; [reflexivity|]. split; [reflexivity|]. intros x Hx. cbn in Hx. intuition (subst; reflexivity).
Qed.
(** c is false, b is true, g is the identity, p holds when its last argument is false, q is the disjunction, = is reflexive *)
Definition boolL : interp := mkInterp bool bool
  (fun s _ ds => if s =? 3 then match ds with [x] => x | _ => true end else (s =? 5))
  (fun s _ ds => if s =? 1 then match ds with [_; _; z] => z = false | _ => False end
                 else if s =? 2 then match ds with [x; y] => x || y = true | _ => False end else True)
  (fun _ _ => true) (fun _ => true) (fun _ => true) (fun _ _ => true) (fun _ _ => true).
Definition valL : val boolL := @mkVal boolL (fun _ => true) (fun _ => true) (fun _ => true) (fun _ _ => true).
Lemma lF_sat : eq_refl_in 0 boolL /\ holds lF valL.
Proof.
  split; [intros ts d; exact I|]. cbn. split; [|split; [discriminate|exact I]].
  intros [|] d; cbn; [right; left; reflexivity|]. destruct d; cbn; [right; left; reflexivity|left]. repeat split. discriminate.
Qed.
Lemma lF_unsound : forall k, exists F s, wf_start gS lF /\ grows same0 (plant 5 gS k lF) F /\ fo_leaves F <> [] /\
  monomorphic car mono0 /\ car 0 = 2%nat /\
  (forall st, In st (fo_leaves F) -> finds 0 nid mono0 30 30 same0 [] s st /\
     forall x, In x (q_lf (st_q st) ++ q_atomic (st_q st)) -> first_order car (ft_form x)) /\
  exists I (v : val I), eq_refl_in 0 I /\ holds lF v.
Proof.
  intros k. exists (lF_end k), lS. split; [exact lF_start|]. split; [exact (run_grows 5 (plant 5 gS k lF))|].
  split; [rewrite lF_leaves_ok; discriminate|].
  split; [exact car_mono|]. split; [reflexivity|]. split; [|exists boolL, valL; exact lF_sat].
  intros st H. split; [exact (lF_finds k st H)|exact (lF_fo k st H)].
Qed.

(** ** A run that closes an unsatisfiable one: (! [X] : (p(c,c,X) | q(X,g(X)))) & ~ p(c,c,b) & ~ q(b,g(b)) *)
Definition uF : form := And 1
  [All 2 [mkTV "X" 20 iT] (Or 3 [Pred 4 pP [] [cc; cc; x_]; Pred 5 qP [] [x_; gg x_]]);
   Not 6 (Pred 7 pP [] [cc; cc; bb]); Not 9 (Pred 10 qP [] [bb; gg bb])].
Definition uF_end (k : sko_kind) : forest := run 3 (plant 5 gS k uF).
Definition uF_leaves : list state := Eval vm_compute in fo_leaves (uF_end Outer).
Lemma uF_leaves_ok k : fo_leaves (uF_end k) = uF_leaves.
Proof. destruct k; vm_compute; reflexivity. Qed.
Definition uS : list (meta * term) := [(mX30, bb)].
Lemma uS_extends : extends uS uS.
Proof. intros k t [E|[]]; injection E as <- <-; apply term_eqb_reflect; reflexivity. Qed.
Lemma uF_start : wf_start gS uF.
Proof.
  split; [apply wffb_ok; reflexivity|]. split; [reflexivity|]. split; [reflexivity|]. intros x Hx. cbn in Hx. intuition (subst; reflexivity).
Qed.
Lemma uF_finds k : forall st, In st (fo_leaves (uF_end k)) -> finds 0 nid mono0 30 30 same0 [] uS st /\
  state_strict 0 nid mono0 30 30 same0 st [] <> Out /\
  forall x, In x (q_lf (st_q st) ++ q_atomic (st_q st)) -> first_order car (ft_form x).
Proof.
  intros st H. rewrite uF_leaves_ok in H. split; [|split].
  - destruct H as [<-|[<-|[]]];
    (eexists; eexists; split; [vm_compute; reflexivity|right; exists uS; split; [left; reflexivity|exact uS_extends]]).
  - destruct H as [<-|[<-|[]]]; vm_compute; discriminate.
  - intros x Hx. destruct H as [<-|[<-|[]]]; cbn in Hx; repeat (destruct Hx as [<-|Hx]; [split; [reflexivity|wellc]|]); destruct Hx.
Qed.

(** ** One literal against an index *)
Definition tree_of (b : bool) (fs : list form) : node := match make_tree nid (atoms b fs) with Some k => k | None => empty_node end.
Definition mX_ : term := Meta mX30.
Definition mY_ : term := Meta mY31.
(** a match in which a binding of Y was lost: ~ p(X,g(Y),b) against p(g(c),X,Y) *)
Definition bad_f : form := Not 6 (Pred 7 pP [] [mX_; gg mY_; bb]).
Definition bad_p : list form := [Pred 5 pP [] [gg cc; mX_; mY_]].
Lemma not_same a b : term_eqb a b = false -> ~ same_term a b.
Proof. intros E H. apply term_eqb_reflect in H. congruence. Qed.
Lemma bad_closure : exists ar lp ln tpos tneg f l, Forall (first_order ar) (f :: lp ++ ln) /\ monomorphic ar mono0 /\ ar 0 = 2%nat /\
  make_tree nid (atoms true lp) = Some tpos /\ make_tree nid (atoms false ln) = Some tneg /\
  closure_real 0 nid mono0 30 30 tpos tneg [] f = Ok (true, [mixed_terms l]) /\ ~ closes 0 l (branch_with (f :: lp ++ ln)).
Proof.
  exists car, bad_p, [], (tree_of true bad_p), (tree_of false []), bad_f, lS.
  split; [repeat constructor; wellc|]. split; [exact car_mono|]. do 4 (split; [vm_compute; reflexivity|]).
  intros C. destruct C as [i ts H|i j ts H|i p tys args ts i' j' p' tys' args' ts' H1 H2 _ _ F|i j p tys a a' ts H E S].
  - destruct H as [H|[H|[]]]; discriminate.
  - destruct H as [H|[H|[]]]; discriminate.
  - destruct H1 as [H1|[H1|[]]]; [discriminate|]. destruct H2 as [H2|[H2|[]]]; [|discriminate].
    injection H1 as <- <- <- <- <-. injection H2 as <- <- <- <- <- <-.
    inversion F as [|? ? ? ? _ F2]; subst. inversion F2 as [|? ? ? ? _ F3]; subst. inversion F3 as [|? ? ? ? F4 _]; subst.
    revert F4. apply not_same. vm_compute. reflexivity.
  - destruct H as [H|[H|[]]]; [|discriminate]. injection H as <- <- <- <- <-. discriminate.
Qed.
(** two matches and a disequality *)
Definition nl (t u : term) : form := Not 6 (Pred 7 qP [] [t; u]).
Definition ok_n : list form := [nl (gg cc) bb; nl cc (gg mY_); nl bb mY_].
Definition ok_f : form := Pred 5 qP [] [mX_; gg cc].
Definition ok_l : list (list mixed) := [[MTerm mX30 cc; MTerm mY31 cc]; [MTerm mX30 bb; MTerm mY31 (gg cc)]].
Definition eqP : ident := mkId 0 "=".
Definition neq_f : form := Not 8 (Pred 9 eqP [] [gg mX_; gg (gg cc)]).
Lemma ok_closure : Forall (first_order car) (ok_f :: [] ++ ok_n) /\ monomorphic car mono0 /\ car 0 = 2%nat /\
  make_tree nid (atoms true []) = Some (tree_of true []) /\ make_tree nid (atoms false ok_n) = Some (tree_of false ok_n) /\
  closure_strict 0 nid mono0 30 30 (tree_of true []) (tree_of false ok_n) [] ok_f = Ok (true, ok_l) /\
  closure_real 0 nid mono0 30 30 (tree_of true []) (tree_of false ok_n) [] ok_f = Ok (true, ok_l).
Proof. split; [repeat constructor; wellc|]. split; [exact car_mono|]. repeat split; vm_compute; reflexivity. Qed.
Lemma neq_closure : first_order car neq_f /\
  closure_strict 0 nid mono0 30 30 (tree_of true []) (tree_of false ok_n) [] neq_f = Ok (true, [[MTerm mX30 (gg cc)]]) /\
  closure_real 0 nid mono0 30 30 (tree_of true []) (tree_of false ok_n) [] neq_f = Ok (true, [[MTerm mX30 (gg cc)]]).
Proof. split; [split; [reflexivity|wellc]|]. split; vm_compute; reflexivity. Qed.

(** ** Forbidden substitutions *)
Definition forb1 : list (list mixed) := [[MTerm mX30 bb; MTerm mY31 (gg cc)]].
Definition forb2 : list (list mixed) := [[MTerm mX30 (gg cc)]].
(** the second match is returned though it is forbidden *)
Lemma retried_match : exists lp ln tpos tneg forb f l sg,
  Forall (first_order car) (f :: lp ++ ln) /\ make_tree nid (atoms true lp) = Some tpos /\ make_tree nid (atoms false ln) = Some tneg /\
  search_inequalities 0 (add_unif 30 30) f = Ok None /\
  closure_real 0 nid mono0 30 30 tpos tneg forb f = Ok (true, l) /\ In sg l /\ sg <> [] /\ In sg forb.
Proof.
  exists [], ok_n, (tree_of true []), (tree_of false ok_n), forb1, ok_f, ok_l, [MTerm mX30 bb; MTerm mY31 (gg cc)].
  split; [repeat constructor; wellc|]. do 4 (split; [vm_compute; reflexivity|]).
  split; [right; left; reflexivity|]. split; [discriminate|left; reflexivity].
Qed.
(** so is the only answer of a disequality *)
Lemma retried_inequality : exists forb f sg, first_order car f /\
  closure_real 0 nid mono0 30 30 (tree_of true []) (tree_of false []) forb f = Ok (true, [sg]) /\ sg <> [] /\ In sg forb.
Proof.
  exists forb2, neq_f, [MTerm mX30 (gg cc)]. split; [split; [reflexivity|wellc]|]. split; [vm_compute; reflexivity|].
  split; [discriminate|left; reflexivity].
Qed.
(** the copy of a metavariable has its name, and is refused the term of the first *)
Definition mX32 : meta := mkMeta 32 1 "X" 0 iT.
Lemma refused_copy : exists lp ln tpos tneg forb f s,
  Forall (first_order car) (f :: lp ++ ln) /\ make_tree nid (atoms true lp) = Some tpos /\ make_tree nid (atoms false ln) = Some tneg /\
  closure_real 0 nid mono0 30 30 tpos tneg [] f = Ok (true, [mixed_terms s]) /\
  closure_real 0 nid mono0 30 30 tpos tneg forb f = Ok (false, []) /\ ~ retried (map term_part forb) s.
Proof.
  exists [], [nl (gg cc) bb], (tree_of true []), (tree_of false [nl (gg cc) bb]), forb2, (Pred 5 qP [] [Meta mX32; bb]), [(mX32, gg cc)].
  split; [repeat constructor; wellc|]. do 4 (split; [vm_compute; reflexivity|]).
  intros (f & [<-|[]] & H). destruct (H mX32 (gg cc) (or_introl eq_refl)) as (k' & v' & [E|[]] & E2 & _). injection E as <- <-. discriminate.
Qed.
(** one forbidden match, one allowed; then both forbidden *)
Definition forb3 : list (list mixed) := [[MTerm mX30 cc; MTerm mY31 cc]].
Definition forb4 : list (list mixed) := [[MTerm mX30 bb; MTerm mY31 (gg cc)]; [MTerm mX30 cc; MTerm mY31 cc]].
Lemma names_case forb sg : In forb [forb3; forb4] -> In sg ok_l -> names_ok (map term_part forb) (term_part sg).
Proof.
  intros Hf Hsg f Hin. split.
  - destruct Hf as [<-|[<-|[]]]; cbn in Hin; intuition (subst; cbn); repeat (constructor; [cbn; intuition discriminate|]); constructor.
  - intros k v k' v' Hs Hf'. destruct Hf as [<-|[<-|[]]]; cbn in Hin; destruct Hsg as [<-|[<-|[]]]; cbn in Hs;
      repeat (destruct Hin as [<-|Hin]; [cbn in Hf';
        repeat (destruct Hs as [Es|Hs]; [injection Es as <- <-; repeat (destruct Hf' as [Ef|Hf']; [injection Ef as <- <-; cbn; split; congruence|]); destruct Hf'|]); destruct Hs|]); destruct Hin.
Qed.
Lemma forb_first : search_inequalities 0 (add_unif 30 30) ok_f = Ok None /\
  closure_real 0 nid mono0 30 30 (tree_of true []) (tree_of false ok_n) forb3 ok_f = Ok (true, [[MTerm mX30 bb; MTerm mY31 (gg cc)]]) /\
  names_ok (map term_part forb3) (term_part [MTerm mX30 bb; MTerm mY31 (gg cc)]).
Proof. split; [reflexivity|]. split; [vm_compute; reflexivity|]. apply names_case; cbn; auto. Qed.
Lemma forb_all : obvious_closure ok_f = false /\ search_inequalities 0 (add_unif 30 30) ok_f = Ok None /\
  (exists ms, search_closure nid (add_unif 30 30) (compute 30 (add_unif 30 30)) (tree_of true []) (tree_of false ok_n) ok_f = Ok ms /\
    all_some (map (fun m => to_mixed mono0 (snd m)) ms) = Some ok_l) /\
  (forall sg, In sg ok_l -> sg <> [] /\ names_ok (map term_part forb4) (term_part sg) /\ retried (map term_part forb4) (term_part sg)).
Proof.
  split; [reflexivity|]. split; [reflexivity|]. split; [eexists; split; vm_compute; reflexivity|].
  intros sg H. split; [destruct H as [<-|[<-|[]]]; discriminate|]. split; [apply names_case; [cbn; auto|exact H]|].
  destruct H as [<-|[<-|[]]]; [exists (term_part [MTerm mX30 cc; MTerm mY31 cc]); split; [right; left; reflexivity|]
    |exists (term_part [MTerm mX30 bb; MTerm mY31 (gg cc)]); split; [left; reflexivity|]];
  (intros k v Hin; exists k, v; split; [exact Hin|]; split; [reflexivity|apply term_eqb_reflect; destruct Hin as [E|[E|[]]]; injection E as <- <-; reflexivity]).
Qed.
