(** Files rejected because of the type given to a declared symbol, or to an equality; examples for the types of declarations. *)
From Coq Require Import ZArith String List Bool.
From Verif Require Import Ast_Model Ast_Proofs Sem_Spec UnifTree_Model Typing_Model Typing_Spec Typing_Witness Typing_Final
  Elab_Model Elab_Spec Elab_Proofs Elab_Final Elab_Types Elab_Eq.
Import ListNotations.
Open Scope list_scope.
Open Scope Z_scope.

(** The environment of the type checker after the declarations of a file (main.go:364-375, AddToGlobalEnv). *)
Definition file_env (l : list cstmt) : env :=
  fold_left (fun E s => match s with CSType _ p t => declare E (id_name p) t | _ => E end) l env0.
Definition as_file (decls : list (string * ptype)) (f : pform) : list pstmt :=
  map (fun d => PSType RType (fst d) (snd d)) decls ++ [PSForm RAxiom f].

(** a call from which every schedule goes on to one that aborts *)
Inductive doomed (E : env) : task -> Prop :=
| Do_now : forall t, (forall h, exec E h t = None) -> doomed E t
| Do_child : forall t, (forall h h' ks, exec E h t = Some (h', ks) -> exists k, In k ks /\ doomed E k) -> doomed E t.
Lemma doomed_step E s s' : Typing_Model.step E s s' -> (exists t, In t (snd s) /\ doomed E t) -> exists t, In t (snd s') /\ doomed E t.
Proof.
  intros [h h' l1 t ks l2 X] (t0 & Hin & Hd). cbn [snd] in *. apply in_app_or in Hin.
  destruct Hin as [Hin|[<-|Hin]].
  - exists t0. split; [apply in_or_app; now left|exact Hd].
  - destruct Hd as [t Hn|t Hc]; [rewrite Hn in X; discriminate|]. destruct (Hc _ _ _ X) as (k & Hk & Dk).
    exists k. split; [apply in_or_app; right; apply in_or_app; now left|exact Dk].
  - exists t0. split; [apply in_or_app; right; apply in_or_app; now right|exact Hd].
Qed.
Lemma doomed_rejected E f : doomed E (TForm None f) -> aborts E f /\ ~ accepts E f.
Proof.
  intros D. assert (NA : ~ accepts E f).
  { intros [h H]. assert (G : forall s s', steps E s s' -> (exists t, In t (snd s) /\ doomed E t) -> exists t, In t (snd s') /\ doomed E t).
    { induction 1 as [|s s' s'' Hs _ IH]; [easy|]. intros Q. apply IH. exact (doomed_step E s s' Hs Q). }
    destruct (G _ _ H) as (t & [] & _). exists (TForm None f). split; [now left|exact D]. }
  split; [|exact NA]. destruct (ends E f); tauto.
Qed.

(** ** A constant of any type *)
(** c : !>[A : $tType] : A, p : !>[A : $tType] : (A > $o), and ! [A : $tType] : p(A, c(A)) *)
Definition any_c : ptype := PTyQuant [("A"%string, p_ttype)] (PTyVar "A").
Definition any_p : ptype := PTyQuant [("A"%string, p_ttype)] (PTyBin PTypeMap (PTyVar "A") p_prop).
Definition any_file : list pstmt :=
  as_file [("c"%string, any_c); ("p"%string, any_p)]
    (PQuant PQuantAll [("A"%string, p_ttype)] (PPred "p" [PVar "A"; PFun "c" [PVar "A"] None])).
Definition any_bound : ty := TyBound "A" 2.
Definition any_form : form :=
  All 1 [mkTV "A" 2 tType] (Pred 0 (mkId 1 "p") [any_bound] [Fun (mkId 0 "c") [any_bound] []]).
Lemma any_declared : declares any_c ["A"%string] [] (PTyVar "A") /\ declares any_p ["A"%string] [PTyVar "A"] p_prop.
Proof.
  split.
  - apply (De_poly [("A"%string, p_ttype)]). constructor. constructor. now left.
  - apply (De_poly [("A"%string, p_ttype)]). constructor; [constructor; constructor; now left|]. constructor. constructor.
Qed.
Lemma any_elab : exists ds b g, to_internal_syntax true any_file gen0 = EOk (ds ++ [CSForm RAxiom any_form], b, g) /\
  file_env ds "c"%string = Some (TyPi ["A"%string] (TyVar "A")) /\
  instantiate (TyPi ["A"%string] (TyVar "A")) [any_bound] = Some any_bound /\ get_args_ty any_bound = None /\
  aborts (file_env ds) any_form /\ ~ accepts (file_env ds) any_form.
Proof.
  exists [CSType RType (mkId 0 "c") (TyPi ["A"%string] (TyVar "A"));
          CSType RType (mkId 1 "p") (TyPi ["A"%string] (TyFunc (TyVar "A") (TyConstr "$o" [])))].
  do 2 eexists. split; [vm_compute; reflexivity|]. split; [reflexivity|]. split; [reflexivity|]. split; [reflexivity|].
  apply doomed_rejected. unfold any_form. apply Do_child. intros h h' ks X. cbn [exec] in X.
  destruct (add_vars h None [mkTV "A" 2 tType]) as [[h1 p1]| |]; try discriminate X. injection X as <- <-.
  eexists. split; [now left|]. apply Do_child. intros h2 h' ks X. cbn in X. injection X as <- <-.
  eexists. split; [now left|]. apply Do_now. intros h3. reflexivity.
Qed.

(** ** An equality at a type with arguments *)
(** list : $tType > $tType, id : !>[A : $tType] : (A > A), and ! [x : list(a)] : id(list(a), x) = x *)
Definition list_a : pterm := PFun "list" [PFun "a" [] None] None.
Definition list_decls : list (string * ptype) :=
  [("a"%string, p_ttype); ("list"%string, PTyBin PTypeMap p_ttype p_ttype);
   ("id"%string, PTyQuant [("A"%string, p_ttype)] (PTyBin PTypeMap (PTyVar "A") (PTyVar "A")))].
Definition list_ty : ptype := PTyFun "list" [pty_const "a"].
Definition list_left : pterm := PFun "id" [list_a; PVar "x"] None.
Definition list_file : list pstmt :=
  as_file list_decls (PQuant PQuantAll [("x"%string, list_ty)] (PPred "=" [list_left; PVar "x"])).
Definition list_con : context := initial_context ++ list_decls ++ [("x"%string, list_ty)].
Definition list_kappa (s : string) : option bool := if String.eqb s "x" then Some false else None.
Definition list_kind : pterm -> bool := Elab_Spec.kind list_kappa (sig_tysym (initial_context ++ list_decls)).
(** the formula, with the equality at the type [T] *)
Definition list_form (T : ty) : form :=
  All 1 [mkTV "x" 3 (TyConstr "list" [TyConstr "a" []])]
    (Pred 0 (mkId 4 "=") [T] [Fun (mkId 2 "id") [TyConstr "list" [TyConstr "a" []]] [Var 3 "x"]; Var 3 "x"]).
Lemma list_typed : typed_as list_kind list_con list_left list_ty.
Proof.
  apply (Ta_poly list_kind list_con "id" [list_a] [PVar "x"] [("A"%string, p_ttype)] (PTyBin PTypeMap (PTyVar "A") (PTyVar "A"))
           [PTyVar "A"] (PTyVar "A") (fun _ => list_ty)).
  - apply lookup_declared. reflexivity.
  - constructor; [constructor|]; constructor; now left.
  - reflexivity.
  - repeat constructor.
  - repeat constructor.
Qed.
Definition list_env : list cstmt :=
  [CSType RType (mkId 0 "a") tType; CSType RType (mkId 1 "list") (TyFunc tType tType);
   CSType RType (mkId 2 "id") (TyPi ["A"%string] (TyFunc (TyVar "A") (TyVar "A")))].
Lemma list_elab : exists b g,
  to_internal_syntax true list_file gen0 = EOk (list_env ++ [CSForm RAxiom (list_form (TyConstr "list" []))], b, g) /\
  ~ written (TyConstr "list" []) list_ty /\
  aborts (file_env list_env) (list_form (TyConstr "list" [])) /\ ~ accepts (file_env list_env) (list_form (TyConstr "list" [])) /\
  well_typed (file_env list_env) (list_form (TyConstr "list" [TyConstr "a" []])).
Proof.
  do 2 eexists. split; [vm_compute; reflexivity|]. split.
  { intros W. inversion W as [|s As ts F]; subst. inversion F. }
  split; [|split].
  1,2: apply doomed_rejected; unfold list_form; apply Do_child; intros h h' ks X; cbn [exec] in X;
    destruct (add_vars h None _) as [[h1 p1]| |]; try discriminate X; injection X as <- <-;
    eexists; (split; [now left|]); apply Do_child; intros h2 h' ks X; cbn in X; injection X as <- <-;
    exists (TTy p1 (TyConstr "list" [])); (split; [do 2 right; now left|]); apply Do_now; reflexivity.
  assert (LA : is_type (file_env list_env) [("x"%string, TyConstr "list" [TyConstr "a" []])] (TyConstr "list" [TyConstr "a" []])).
  { eapply it_constr; [reflexivity|constructor|]. constructor; [|constructor]. eapply it_constr; [reflexivity|constructor|constructor]. }
  assert (LX : has_ty (file_env list_env) same_ty [("x"%string, TyConstr "list" [TyConstr "a" []])] (Var 3 "x") (TyConstr "list" [TyConstr "a" []])).
  { eapply ht_var; [reflexivity|apply ty_eqb_reflect; reflexivity]. }
  apply wt_all.
  eapply wt_pred with (J := TyFunc (TyProd [TyConstr "list" [TyConstr "a" []]; TyConstr "list" [TyConstr "a" []]]) (TyConstr "$o" [])); [reflexivity| |apply prof_prod|constructor; [exact LA|constructor]| |apply ty_eqb_reflect; reflexivity].
  - apply (inst_poly ["a"%string] (TyFunc (TyProd [TyVar "a"; TyVar "a"]) (TyConstr "$o" [])) _ (fun _ => TyConstr "list" [TyConstr "a" []])); [repeat constructor; easy|reflexivity| |].
    + repeat constructor.
    + cbn. intros x Hx. cbn in *. tauto.
  - constructor; [|constructor; [exact LX|constructor]].
    eapply ht_fun with (J := TyFunc (TyConstr "list" [TyConstr "a" []]) (TyConstr "list" [TyConstr "a" []]));
      [reflexivity| |constructor|constructor; [exact LA|constructor]|constructor; [exact LX|constructor]|apply ty_eqb_reflect; reflexivity].
    apply (inst_poly ["A"%string] (TyFunc (TyVar "A") (TyVar "A")) _ (fun _ => TyConstr "list" [TyConstr "a" []]));
      [repeat constructor; easy|reflexivity| |].
    + repeat constructor.
    + cbn. intros x Hx. cbn in *. tauto.
Qed.

(** ** Examples *)
(** g : !>[A : $tType, B : $tType] : ((A * (B * list(A))) > B) at $int and a bound type *)
Definition ex_vs : list (string * ptype) := [("A"%string, p_ttype); ("B"%string, p_ttype)].
Definition ex_args : list ptype := [PTyVar "A"; PTyVar "B"; PTyFun "list" [PTyVar "A"]].
Definition ex_g : ptype :=
  PTyQuant ex_vs (PTyBin PTypeMap (PTyBin PTypeProd (PTyVar "A") (PTyBin PTypeProd (PTyVar "B") (PTyFun "list" [PTyVar "A"]))) (PTyVar "B")).
Definition ex_sigma (n : string) : ty := if String.eqb n "A" then TyConstr "$int" [] else TyBound "C" 5.
Lemma ex_declares : declares ex_g (map fst ex_vs) ex_args (PTyVar "B") /\
  map ex_sigma (map fst ex_vs) = [TyConstr "$int" []; TyBound "C" 5] /\ Forall type_argument [TyConstr "$int" []; TyBound "C" 5] /\
  map (read ex_sigma) ex_args = [TyConstr "$int" []; TyBound "C" 5; TyConstr "list" [TyConstr "$int" []]] /\
  read ex_sigma (PTyVar "B") = TyBound "C" 5.
Proof.
  split; [|now repeat constructor]. apply (De_poly ex_vs).
  apply Bd_fun; [|constructor; cbn; tauto]. apply (Pr_two _ _ _ [PTyVar "A"] [PTyVar "B"; PTyFun "list" [PTyVar "A"]]).
  - constructor. constructor. cbn. tauto.
  - apply (Pr_two _ _ _ [PTyVar "B"] [PTyFun "list" [PTyVar "A"]]); constructor; constructor; cbn; try tauto.
    constructor; [constructor; cbn; tauto|constructor].
Qed.
(** the equality id(a, y) = y, with y of type a, and 1 = y with y of type $real (which the type checker will refuse) *)
Definition eq_con : context := initial_context ++ list_decls ++ [("x"%string, pty_const "a"); ("y"%string, pty_const "$real")].
Definition eq_kappa (s : string) : option bool := if String.eqb s "x" then Some false else if String.eqb s "y" then Some false else None.
Definition eq_tysym : string -> bool := sig_tysym (initial_context ++ list_decls).
Definition eq_left : pterm := PFun "id" [PFun "a" [] None; PVar "x"] None.
Definition eq_one : pterm := PFun "1" [] (Some (pty_const "$int")).
Lemma eq_con_ok : con_ok eq_kappa eq_tysym ["x"; "y"]%string eq_con.
Proof.
  apply con_ok_iff. unfold con_ok'.
  assert (Q : forall s, lookup_ctx eq_con s =
     if String.eqb s "x" then Some (pty_const "a") else if String.eqb s "y" then Some (pty_const "$real") else lookup_ctx (initial_context ++ list_decls) s).
  { intros s. unfold eq_con. rewrite app_assoc, lookup_app. unfold lookup_ctx at 1. cbn [rev app assoc].
    rewrite (String.eqb_sym "y" s), (String.eqb_sym "x" s).
    destruct (String.eqb_spec s "x") as [->|]; [reflexivity|]. destruct (String.eqb s "y"); reflexivity. }
  assert (K : con_ok' (fun _ => None) eq_tysym [] (initial_context ++ list_decls)).
  { apply con_ok_iff. apply con_ok_sig. intros s t Hin. split; [reflexivity|].
    assert (F : Forall (fun d => top_type (snd d)) (initial_context ++ list_decls)) by (repeat constructor).
    rewrite Forall_forall in F. exact (F (s, t) Hin). }
  destruct K as (_ & _ & K3 & K4). split; [|split; [|split]].
  - intros x k t. rewrite Q. unfold eq_kappa. destruct (String.eqb x "x"); [intros [= <-] [= <-]; now split|].
    destruct (String.eqb x "y"); [intros [= <-] [= <-]; now split|discriminate].
  - intros x [<-|[<-|[]]]; rewrite Q; discriminate.
  - intros s t. rewrite Q. unfold eq_kappa. destruct (String.eqb s "x"); [discriminate|]. destruct (String.eqb s "y"); [discriminate|].
    intros _. apply K3. reflexivity.
  - intros s. rewrite Q. unfold eq_kappa. destruct (String.eqb s "x"); [discriminate|]. destruct (String.eqb s "y"); [discriminate|].
    intros _. apply K4. reflexivity.
Qed.
Lemma eq_left_case :
  typed_as (Elab_Spec.kind eq_kappa eq_tysym) eq_con eq_left (pty_const "a") /\
  wk_term eq_kappa eq_tysym ["x"; "y"]%string eq_left /\ wk_term eq_kappa eq_tysym ["x"; "y"]%string (PVar "x") /\
  Forall (fun a => Elab_Spec.kind eq_kappa eq_tysym a = true -> flat a) (arguments eq_left) /\
  ~ In (head_name eq_left) tptp_defined /\
  (forall d, In (head_name eq_left, d) (numbers eq_left ++ numbers (PVar "x")) -> eq_left = PFun (head_name eq_left) [] (Some d)) /\
  exists con' f b g', elab_form true eq_con (PPred "=" [eq_left; PVar "x"]) gen0 = EOk (con', f, b, g').
Proof.
  split.
  { apply (Ta_poly _ eq_con "id" [PFun "a" [] None] [PVar "x"] [("A"%string, p_ttype)] (PTyBin PTypeMap (PTyVar "A") (PTyVar "A"))
           [PTyVar "A"] (PTyVar "A") (fun _ => pty_const "a")).
    - apply lookup_declared. reflexivity.
    - constructor; [constructor|]; constructor; now left.
    - reflexivity.
    - repeat constructor.
    - repeat constructor. }
  split; [cbn; repeat split; try discriminate; try tauto; intros Q; first [apply Forall_nil|vm_compute in Q; discriminate]|].
  split; [cbn; split; [tauto|discriminate]|].
  split; [repeat constructor; cbn; trivial|]. split; [cbn; intuition discriminate|]. split; [cbn; tauto|].
  do 4 eexists. vm_compute. reflexivity.
Qed.
Lemma eq_one_case :
  typed_as (Elab_Spec.kind eq_kappa eq_tysym) eq_con eq_one p_int /\
  wk_term eq_kappa eq_tysym ["x"; "y"]%string eq_one /\ wk_term eq_kappa eq_tysym ["x"; "y"]%string (PVar "y") /\
  Forall (fun a => Elab_Spec.kind eq_kappa eq_tysym a = true -> flat a) (arguments eq_one) /\
  ~ In (head_name eq_one) tptp_defined /\
  (forall d, In (head_name eq_one, d) (numbers eq_one ++ numbers (PVar "y")) -> eq_one = PFun (head_name eq_one) [] (Some d)) /\
  exists con' f b g', elab_form true eq_con (PPred "=" [eq_one; PVar "y"]) gen0 = EOk (con', f, b, g').
Proof.
  split. { apply Ta_number; [|repeat constructor]. intros t Ht. apply lookup_declared in Ht. vm_compute in Ht. discriminate. }
  split; [cbn; repeat split; try discriminate; exists "$int"%string; split; [reflexivity|discriminate]|].
  split; [cbn; split; [tauto|discriminate]|].
  split; [constructor|]. split; [cbn; intuition discriminate|]. split; [cbn; intros d [[= <-]|[]]; reflexivity|].
  do 4 eexists. vm_compute. reflexivity.
Qed.
