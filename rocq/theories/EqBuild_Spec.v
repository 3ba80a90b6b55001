(** What the equality reasoning of a branch should read and answer.  Independent of EqBuild_Model.v and Bse_Model.v. *)
From Coq Require Import ZArith List Bool String.
From Verif Require Import Ast_Model Occ_Spec Sem_Spec Unif_Spec UnifTree_Model.
Import ListNotations.
Open Scope list_scope.
Open Scope Z_scope.

Section Lits.
Variable e : Z. (* the index of the equality symbol *)
(** The literals of a branch in an algebra with real equality; the types are part of the predicates. *)
Definition atom (A : alg) (P : Z -> list ty -> list (dom A) -> Prop) (v : Z -> dom A) (p : ident) (tys : list ty) (args : list term) : Prop :=
  if id_index p =? e then match args with [a; b] => tev A v a = tev A v b | _ => True end
  else P (id_index p) tys (map (tev A v) args).
Definition lit (A : alg) (P : Z -> list ty -> list (dom A) -> Prop) (v : Z -> dom A) (f : form) : Prop :=
  match f with
  | Pred _ p tys args => atom A P v p tys args
  | Not _ (Pred _ p tys args) => ~ atom A P v p tys args
  | _ => True
  end.
(** The substitution closes the branch: where its bindings hold, the literals do not hold together (the metavariables are rigid). *)
Definition closes (fs : list form) (sg : list (meta * term)) : Prop :=
  forall A P v, solves A v sg -> (forall f, In f fs -> lit A P v f) -> False.
(** [l = r] is a literal of the branch, positive or negative *)
Definition equality_of (pos : bool) (fs : list form) (l r : term) : Prop :=
  exists ix ix' p ty, id_index p = e /\ In (if pos then Pred ix p [ty] [l; r] else Not ix' (Pred ix p [ty] [l; r])) fs.

(** The type is not a part of the term. *)
Definition apart (t a : term) : Prop :=
  match t with
  | Fun p _ _ => ~ In (id_index p) (t_funs a)
  | Meta m => ~ In (m_index m) (t_metas a)
  | _ => False
  end.
(** Literals on first-order terms without type arguments, each symbol with its number of arguments.  Only the equality has a type. *)
Definition atom_ok (ar : signature) (name_id : string -> ident) (p : ident) (tys : list ty) (args : list term) : Prop :=
  Forall (well ar) args /\ symbol ar p /\ (List.length tys + List.length args = ar (id_index p))%nat /\
  if id_index p =? e then exists ty t a b, tys = [ty] /\ args = [a; b] /\ ty_to_term name_id ty = Some t /\ well ar t /\ apart t a /\ apart t b
  else tys = [].
Definition lit_ok (ar : signature) (name_id : string -> ident) (f : form) : Prop :=
  match f with
  | Pred _ p tys args | Not _ (Pred _ p tys args) => atom_ok ar name_id p tys args
  | _ => True
  end.
(** The next numbers of metavariables are new, those of types too. *)
Definition counters (ar : signature) (ct cm : Z) : Prop :=
  0 <= cm /\ cm + 1 < ct /\ forall m, known ar m -> m_index m < ct /\ m_index m <> cm /\ m_index m <> cm + 1.
End Lits.
