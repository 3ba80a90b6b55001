(** Concrete types and terms. *)
From Coq Require Import ZArith List Bool String Lia.
From Verif Require Import Ast_Model Sem_Spec Ast_Proofs Unif_Model Unif_Spec UnifLoss_Model UnifTree_Model UnifTree_Spec UnifTree_Final Closure_Model UnifTree_Witness Ty_Spec Ty_Proofs.
Import ListNotations.
Open Scope string_scope.
Open Scope list_scope.
Open Scope Z_scope.

Definition tI : ty := TyConstr "$i" [].
(** ** Types and terms *)
(** names and indices as in the tables of the maker *)
Definition wid (s : string) : ident := mkId (if String.eqb s "$i" then 1 else if String.eqb s "list" then 2 else 3) s.
Definition wknown (s : string) : Prop := In s ["$i"; "list"].
Definition wname (i : Z) : string := "A".
Definition T_list : ty := TyConstr "list" [TyConstr "list" [TyMeta "A" 4 0]].
Definition T_list_i : ty := TyConstr "list" [tI].
Lemma wid_name s : id_name (wid s) = s.
Proof. reflexivity. Qed.
Lemma wid_inj s s' : wknown s -> wknown s' -> id_index (wid s) = id_index (wid s') -> s = s'.
Proof. unfold wknown. cbn. intros [<-|[<-|[]]] [<-|[<-|[]]]; vm_compute; congruence. Qed.
Lemma T_list_case : named wname wknown T_list /\ named wname wknown T_list_i /\ atomic T_list /\
  ty_to_term wid T_list = Some (Fun (wid "list") [] [Fun (wid "list") [] [Meta (mkMeta 4 (-1) "A" 0 tType)]]).
Proof.
  assert (L : wknown "list") by (unfold wknown; cbn; auto). assert (I0 : wknown "$i") by (unfold wknown; cbn; auto).
  split; [|split; [|split; [|reflexivity]]].
  - apply na_constr; [exact L|]. constructor; [|constructor]. apply na_constr; [exact L|]. constructor; [|constructor]. exact (na_meta wname wknown 4 0).
  - apply na_constr; [exact L|]. constructor; [|constructor]. apply na_constr; [exact I0|constructor].
  - repeat constructor.
Qed.
Definition war1 (s : string) : nat := if String.eqb s "nil" then 1 else if String.eqb s "cons" then 1 else 0.
Definition t_cons : term :=
  Fun (mkId 9 "cons") [T_list_i] [Meta (mkMeta 3 0 "X" 0 T_list_i); Fun (mkId 8 "nil") [T_list_i] []].
Lemma t_cons_case : typed_args war1 t_cons.
Proof. repeat constructor. Qed.

(** the first type metavariable and the first metavariable have the same index *)
Definition A0 : ty := fst (maker_tymeta "A" 0 gen0).
Definition X0 : meta := fst (maker_meta "X" 0 A0 (snd (maker_tymeta "A" 0 gen0))).
Lemma same_index : term_eqb (Meta X0) (match ty_to_term nid A0 with Some u => u | None => Fun (nid "") [] [] end) = true.
Proof. reflexivity. Qed.
(** p<A>(X) does not match p<$i>(c) *)
Definition f_meta : item := IPred 1 (mkId 40 "p") [A0] [Meta X0].
Definition f_inst : item := IPred 2 (mkId 40 "p") [tI] [Fun (mkId 41 "c") [] []].
Definition k_meta : node := match make_tree nid [f_meta] with Some k => k | None => empty_node end.
Lemma f_meta_lost : make_tree nid [f_meta] = Some k_meta /\ unify_real nid 30 30 k_meta f_inst = Ok [].
Proof. split; vm_compute; reflexivity. Qed.
(** with distinct indices they match *)
Definition X1 : meta := mkMeta 1 0 "X" 0 A0.
Definition f_meta1 : item := IPred 1 (mkId 40 "p") [A0] [Meta X1].
Definition k_meta1 : node := match make_tree nid [f_meta1] with Some k => k | None => empty_node end.
Definition s_meta1 : substs := [(mkMeta 0 (-1) "A" 0 tType, Fun (nid "$i") [] []); (X1, Fun (mkId 41 "c") [] [])].
Lemma f_meta1_found : make_tree nid [f_meta1] = Some k_meta1 /\ unify_real nid 30 30 k_meta1 f_inst = Ok [(f_meta1, s_meta1)].
Proof. split; vm_compute; reflexivity. Qed.
Lemma meta_clash : exists g A g1 X g2, maker_tymeta "A" 0 g = (A, g1) /\ maker_meta "X" 0 A g1 = (X, g2) /\
  (exists u, ty_to_term nid A = Some u /\ same_term (Meta X) u) /\
  exists p k q, make_tree nid [IPred 1 p [A] [Meta X]] = Some k /\ unify_real nid 30 30 k q = Ok [] /\
  exists X' k' s, m_index X' <> m_index X /\ make_tree nid [IPred 1 p [A] [Meta X']] = Some k' /\
    unify_real nid 30 30 k' q = Ok [(IPred 1 p [A] [Meta X'], s)].
Proof.
  exists gen0, A0, (snd (maker_tymeta "A" 0 gen0)), X0, (snd (maker_meta "X" 0 A0 (snd (maker_tymeta "A" 0 gen0)))).
  split; [reflexivity|]. split; [reflexivity|]. split.
  - exists (Meta (mkMeta 0 (-1) "A" 0 tType)). split; [reflexivity|]. apply term_eqb_reflect. reflexivity.
  - exists (mkId 40 "p"), k_meta, f_inst. split; [apply f_meta_lost|]. split; [apply f_meta_lost|].
    exists X1, k_meta1, s_meta1. split; [discriminate|]. apply f_meta1_found.
Qed.
