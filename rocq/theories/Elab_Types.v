(** The types of declared symbols, from the declaration to the type checker. *)
From Coq Require Import ZArith String List Bool.
From Verif Require Import Ast_Model UnifTree_Model Typing_Model Elab_Model Elab_Proofs.
Import ListNotations.
Open Scope list_scope.
Open Scope Z_scope.

(** ** Specification *)

(** The types of arguments and results: variables of [vs] and applied constructors. *)
Inductive atom_type (vs : list string) : ptype -> Prop :=
| At_var : forall n, In n vs -> atom_type vs (PTyVar n)
| At_fun : forall s args, Forall (atom_type vs) args -> atom_type vs (PTyFun s args).

(** A product of types, associated in any way. *)
Inductive product (vs : list string) : ptype -> list ptype -> Prop :=
| Pr_one : forall t, atom_type vs t -> product vs t [t]
| Pr_two : forall l r ls rs, product vs l ls -> product vs r rs ->
    product vs (PTyBin PTypeProd l r) (ls ++ rs).

(** The declared type [t] is: for all types [vs], from [args] to [out]. *)
Inductive body_is (vs : list string) : ptype -> list ptype -> ptype -> Prop :=
| Bd_const : forall t, atom_type vs t -> body_is vs t [] t
| Bd_fun : forall l args r, product vs l args -> atom_type vs r ->
    body_is vs (PTyBin PTypeMap l r) args r.
Inductive declares : ptype -> list string -> list ptype -> ptype -> Prop :=
| De_mono : forall t args out, body_is [] t args out -> declares t [] args out
| De_poly : forall vs b args out, body_is (map fst vs) b args out ->
    declares (PTyQuant vs b) (map fst vs) args out.

(** The type written [t], where the variables stand for the types given by [sigma]. *)
Fixpoint read (sigma : string -> ty) (t : ptype) : ty :=
  match t with
  | PTyVar n => sigma n
  | PTyFun s args => TyConstr s (map (read sigma) args)
  | _ => tType
  end.

(** The types a symbol is applied to in a formula. *)
Definition type_argument (t : ty) : Prop :=
  match t with TyBound _ _ | TyConstr _ _ => True | _ => False end.

(** ** Proofs *)

Definition wrap (l : list ty) : ty := match l with [t] => t | _ => TyProd l end.

Lemma atom_forbidden vs t : atom_type vs t -> forbidden t = false.
Proof. intros []; reflexivity. Qed.
Lemma product_forbidden vs t l : product vs t l -> forbidden t = false.
Proof. intros [t' H|]; [exact (atom_forbidden vs t' H)|reflexivity]. Qed.

Lemma elab_atom vs t : atom_type vs t -> forall g, elab_type true t g = EOk (read TyVar t, g).
Proof.
  induction t as [n|s args IH|o l r IHl IHr|vars b IHb] using ptype_ind'; intros H g; inversion H; subst; [reflexivity|].
  cbn [elab_type read].
  assert (G : forall g, (fix go (l : list ptype) (g : gen) : eres (list ty * gen) :=
                         match l with
                         | [] => EOk ([], g)
                         | a :: r => edo (a', g) <- elab_type true a g; edo (r', g) <- go r g; EOk (a' :: r', g)
                         end) args g = EOk (map (read TyVar) args, g)).
  { match goal with HF : Forall (atom_type vs) args |- _ => revert IH HF end. clear.
    induction args as [|a args IHa]; intros IH HF g; [reflexivity|].
    inversion_clear IH. inversion_clear HF. cbn [map]. rewrite H by assumption. cbn [ebind].
    rewrite IHa by assumption. reflexivity. }
  rewrite G. reflexivity.
Qed.

Lemma atom_not_prod vs t : atom_type vs t -> flatten_prod (read TyVar t) = [read TyVar t].
Proof. intros []; reflexivity. Qed.

Lemma product_ne vs t l : product vs t l -> l <> [].
Proof. intros H; induction H; [discriminate|]. destruct ls; [congruence|discriminate]. Qed.

Lemma product_atoms vs t l : product vs t l -> Forall (atom_type vs) l.
Proof. intros H; induction H; [repeat constructor; assumption|apply Forall_app; tauto]. Qed.

Lemma flatten_atoms vs l : Forall (atom_type vs) l -> flat_map flatten_prod (map (read TyVar) l) = map (read TyVar) l.
Proof.
  intros H; induction H as [|t l Ht H IH]; [reflexivity|]. cbn [map flat_map]. rewrite (atom_not_prod vs t Ht), IH. reflexivity.
Qed.

Lemma wrap_flat vs l : Forall (atom_type vs) l -> flatten_prod (wrap (map (read TyVar) l)) = map (read TyVar) l.
Proof.
  intros H. pose proof (flatten_atoms vs l H) as F. destruct H as [|t [|t' l] Ht H]; [reflexivity| |].
  - exact (atom_not_prod vs t Ht).
  - exact F.
Qed.

Lemma elab_product vs t l : product vs t l -> forall g, elab_type true t g = EOk (wrap (map (read TyVar) l), g).
Proof.
  intros H; induction H as [t Ht|l r ls rs Hl IHl Hr IHr]; intros g; [exact (elab_atom vs t Ht g)|].
  cbn [elab_type]. rewrite (product_forbidden vs l ls Hl), (product_forbidden vs r rs Hr). cbn [orb].
  rewrite IHl. cbn [ebind]. rewrite IHr. cbn [ebind].
  rewrite (wrap_flat vs ls), (wrap_flat vs rs) by (eapply product_atoms; eassumption).
  rewrite <- map_app. f_equal. f_equal. unfold wrap.
  apply product_ne in Hl. apply product_ne in Hr.
  destruct ls as [|a [|b ls]]; [congruence| |reflexivity]. destruct rs as [|c rs]; [congruence|reflexivity].
Qed.

Definition body_ty (args : list ptype) (out : ptype) : ty :=
  match args with [] => read TyVar out | _ => TyFunc (wrap (map (read TyVar) args)) (read TyVar out) end.

Lemma elab_body vs b args out : body_is vs b args out -> forall g, elab_type true b g = EOk (body_ty args out, g).
Proof.
  intros [t Ht|l as' r Hl Hr] g; [exact (elab_atom vs t Ht g)|].
  cbn [elab_type]. rewrite (product_forbidden vs l as' Hl), (atom_forbidden vs r Hr). cbn [orb].
  rewrite !(elab_product vs l as' Hl). cbn [ebind]. rewrite !(elab_atom vs r Hr). cbn [ebind].
  rewrite !(elab_product vs l as' Hl). cbn [ebind]. rewrite !(elab_atom vs r Hr). cbn [ebind].
  apply product_ne in Hl. destruct as'; [congruence|reflexivity].
Qed.

Lemma body_not_pi vs b args out : body_is vs b args out -> forall xs u, body_ty args out <> TyPi xs u.
Proof.
  intros [t Ht|l as' r Hl Hr] xs u.
  - destruct Ht; discriminate.
  - apply product_ne in Hl. destruct as'; [congruence|discriminate].
Qed.

Lemma find_last sigma vs ts n : map sigma vs = ts -> In n vs -> find_ty n (rev (combine vs ts)) = Some (sigma n).
Proof.
  intros <- Hin.
  assert (E : rev (combine vs (map sigma vs)) = combine (rev vs) (map sigma (rev vs))).
  { clear. induction vs as [|v vs IH]; [reflexivity|]. cbn [map combine rev]. rewrite IH, map_app. cbn [map].
    generalize (rev vs). intros l. induction l as [|w l IHl]; [reflexivity|]. cbn [map combine app]. now rewrite IHl. }
  rewrite E. apply in_rev in Hin. revert Hin. generalize (rev vs). intros l. induction l as [|w l IH]; [intros []|].
  cbn [map combine find_ty]. destruct (String.eqb_spec n w) as [->|Hne]; [reflexivity|].
  intros [->|H]; [congruence|exact (IH H)].
Qed.

Lemma all_some_map {A B} (f : A -> option B) h l : (forall a, In a l -> f a = Some (h a)) -> all_some (map f l) = Some (map h l).
Proof.
  induction l as [|a l IH]; intros H; [reflexivity|]. cbn [map all_some]. rewrite (H a (or_introl eq_refl)), IH; [reflexivity|].
  intros b Hb. exact (H b (or_intror Hb)).
Qed.

Lemma inst_atom vs ts sigma t : map sigma vs = ts -> atom_type vs t ->
  inst_rec (rev (combine vs ts)) (read TyVar t) = Some (read sigma t).
Proof.
  intros Hs. induction t as [n|s args IH|o l r IHl IHr|vars b IHb] using ptype_ind'; intros H; inversion H; subst.
  - apply find_last; [reflexivity|assumption].
  - cbn [read inst_rec]. rewrite map_map.
    rewrite (all_some_map (fun x => inst_rec _ (read TyVar x)) (read sigma)); [reflexivity|].
    rewrite Forall_forall in IH. intros a Ha. apply IH; [assumption|].
    match goal with HF : Forall (atom_type vs) args |- _ => rewrite Forall_forall in HF; exact (HF a Ha) end.
Qed.

Lemma inst_wrap vs ts sigma l : map sigma vs = ts -> Forall (atom_type vs) l ->
  inst_rec (rev (combine vs ts)) (wrap (map (read TyVar) l)) = Some (wrap (map (read sigma) l)).
Proof.
  intros Hs Hl.
  assert (G : inst_rec (rev (combine vs ts)) (TyProd (map (read TyVar) l)) = Some (TyProd (map (read sigma) l))).
  { cbn [inst_rec]. rewrite map_map.
    rewrite (all_some_map (fun x => inst_rec _ (read TyVar x)) (read sigma)); [reflexivity|].
    rewrite Forall_forall in Hl. intros a Ha. apply (inst_atom vs); [exact Hs|exact (Hl a Ha)]. }
  destruct l as [|t [|t' l]]; [exact G| |exact G].
  inversion_clear Hl. apply (inst_atom vs); assumption.
Qed.

(** A type without variables is read in the same way whatever the variables stand for. *)
Lemma read_closed sigma tau t : atom_type [] t -> read sigma t = read tau t.
Proof.
  induction t as [n|s args IH|o l r IHl IHr|vars b IHb] using ptype_ind'; intros H; inversion H; subst.
  - contradiction.
  - cbn [read]. f_equal. apply map_ext_in. intros a Ha. rewrite Forall_forall in IH. apply IH; [assumption|].
    match goal with HF : Forall (atom_type []) args |- _ => rewrite Forall_forall in HF; exact (HF a Ha) end.
Qed.

Definition inst_ty (sigma : string -> ty) (args : list ptype) (out : ptype) : ty :=
  match args with [] => read sigma out | _ => TyFunc (wrap (map (read sigma) args)) (read sigma out) end.

Lemma body_atoms vs b args out : body_is vs b args out -> Forall (atom_type vs) args /\ atom_type vs out.
Proof. intros [t Ht|l as' r Hl Hr]; [split; [constructor|exact Ht]|split; [eapply product_atoms; exact Hl|exact Hr]]. Qed.

Lemma declared_instance t vs args out ts sigma :
  declares t vs args out -> map sigma vs = ts ->
  (forall g, exists t', elab_type true t g = EOk (t', g) /\ instantiate t' ts = Some (inst_ty sigma args out)).
Proof.
  intros [b args' out' Hb|xs b args' out' Hb] Hs g.
  - exists (body_ty args' out'). split; [exact (elab_body [] b _ _ Hb g)|].
    cbn [map] in Hs. subst ts. destruct (body_atoms _ _ _ _ Hb) as [Ha Ho].
    destruct args' as [|a args'].
    + cbn [body_ty inst_ty]. rewrite (read_closed TyVar sigma out' Ho). destruct Ho; [contradiction|reflexivity].
    + cbn [body_ty inst_ty instantiate]. rewrite (read_closed TyVar sigma out' Ho).
      replace (map (read TyVar) (a :: args')) with (map (read sigma) (a :: args')); [reflexivity|].
      apply map_ext_in. intros x Hx. rewrite Forall_forall in Ha. apply read_closed. exact (Ha x Hx).
  - exists (TyPi (map fst xs) (body_ty args' out')). split.
    + cbn [elab_type]. rewrite (elab_body _ b _ _ Hb g). cbn [ebind].
      pose proof (body_not_pi _ _ _ _ Hb) as Hn. destruct (body_ty args' out'); try reflexivity. exfalso. eapply Hn. reflexivity.
    + cbn [instantiate]. rewrite <- Hs, map_length, Nat.eqb_refl.
      destruct (body_atoms _ _ _ _ Hb) as [Ha Ho]. destruct args' as [|a args'].
      * cbn [body_ty inst_ty]. apply (inst_atom (map fst xs)); [reflexivity|exact Ho].
      * cbn [body_ty inst_ty inst_rec].
        rewrite (inst_wrap (map fst xs) _ sigma (a :: args') eq_refl Ha), (inst_atom (map fst xs) _ sigma out' eq_refl Ho). reflexivity.
Qed.

Lemma read_argument vs ts sigma t : map sigma vs = ts -> Forall type_argument ts -> atom_type vs t -> type_argument (read sigma t).
Proof.
  intros <- Hts []; [|exact Logic.I]. rewrite Forall_forall in Hts. apply Hts. cbn [read]. apply in_map. assumption.
Qed.

Theorem declared_types t vs args out ts sigma g :
  declares t vs args out -> map sigma vs = ts -> Forall type_argument ts ->
  (args <> [] \/ exists s l, read sigma out = TyConstr s l) ->
  exists t' u, elab_type true t g = EOk (t', g) /\ instantiate t' ts = Some u /\
    get_args_ty u = Some (map (read sigma) args) /\
    (args <> [] -> get_out_ty u = Some (read sigma out)) /\ (args = [] -> u = read sigma out).
Proof.
  intros Hd Hs Hts Hcase. destruct (declared_instance t vs args out ts sigma Hd Hs g) as (t' & H1 & H2).
  exists t', (inst_ty sigma args out). split; [exact H1|]. split; [exact H2|].
  assert (Ha : Forall (atom_type vs) args).
  { destruct Hd as [b args' out' Hb|xs b args' out' Hb]; apply body_atoms in Hb; tauto. }
  destruct args as [|a args].
  - cbn [inst_ty]. destruct Hcase as [Hc|(s & l & E)]; [congruence|]. rewrite E.
    split; [reflexivity|]. split; [congruence|reflexivity].
  - split; [|split; [reflexivity|discriminate]].
    cbn [inst_ty get_args_ty wrap map]. destruct args as [|b args]; [|reflexivity]. cbn [map].
    inversion Ha; subst. assert (Hr : type_argument (read sigma a)) by (eapply read_argument; eauto).
    destruct (read sigma a); cbn in Hr; try contradiction; reflexivity.
Qed.
