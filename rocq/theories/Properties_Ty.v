(** C48: type arguments as terms. *)
From Coq Require Import ZArith List Bool String.
From Verif Require Import Ast_Model Sem_Spec Conc_Spec Unif_Model UnifLoss_Model UnifTree_Model UnifTree_Final Closure_Model Ty_Spec Ty_Proofs UnifTree_Witness Ty_Witness.
Import ListNotations.
Open Scope Z_scope.

(** C48 (partial): a type written as a term is read back, and the types that can be written are those built from type
    metavariables and constructors.  [name_id] is MkId.  Missing: the indices of type metavariables (refuted below). *)
Theorem C48_types_partial :
  forall name_id, (forall s, id_name (name_id s) = s) ->
  (forall t u, ty_to_term name_id t = Some u -> term_to_ty u = Some t) /\
  (forall t, (exists u, ty_to_term name_id t = Some u) <-> atomic t).
Proof. exact (fun name_id H => conj (ty_term_ty name_id H) (atomic_iff name_id)). Qed.
Print Assumptions C48_types_partial.
(** two types are equal exactly when their terms are, when names have their own indices and the index of a type metavariable gives
    its name *)
Theorem C48_equality_partial :
  forall name_id mname (K : string -> Prop), (forall s s', K s -> K s' -> id_index (name_id s) = id_index (name_id s') -> s = s') ->
  forall t1 t2 u1 u2, named mname K t1 -> named mname K t2 ->
  ty_to_term name_id t1 = Some u1 -> ty_to_term name_id t2 = Some u2 -> (same_term u1 u2 <-> same_ty t1 t2).
Proof. exact equality_agree. Qed.
Print Assumptions C48_equality_partial.
(** MkId, in a state of the maker where no index has two names (C08), is such a [name_id] on the names it knows *)
Theorem C48_names_partial :
  forall g, gen_ok g ->
  and (forall s, id_name (fst (maker_id s g)) = s)
      (forall s s', known g s -> known g s' -> id_index (fst (maker_id s g)) = id_index (fst (maker_id s' g)) -> s = s').
Proof. exact maker_names. Qed.
Print Assumptions C48_names_partial.
Example C48_types_case :
  (forall s s', wknown s -> wknown s' -> id_index (wid s) = id_index (wid s') -> s = s') /\
  named wname wknown T_list /\ named wname wknown T_list_i /\ atomic T_list /\
  ty_to_term wid T_list = Some (Fun (wid "list") [] [Fun (wid "list") [] [Meta (mkMeta 4 (-1) "A" 0 tType)]]).
Proof. exact (conj wid_inj T_list_case). Qed.
(** the terms given to the unification machine carry no types, and are read back when each symbol has its number of types *)
Theorem C48_terms_partial :
  forall name_id, (forall s, id_name (name_id s) = s) -> forall ty_arity t, typed_args ty_arity t ->
  exists u, fun_arg name_id t = Some [u] /\ untyped u /\ translate_term ty_arity u = Some t.
Proof. exact (fun name_id H ty_arity t => term_round name_id H ty_arity t). Qed.
Print Assumptions C48_terms_partial.
(** reading a term again changes nothing *)
Theorem C48_again :
  forall ty_arity t u, translate_term ty_arity t = Some u -> translate_term ty_arity u = Some u.
Proof. exact (fun ty_arity t u => translate_again ty_arity t u). Qed.
Print Assumptions C48_again.
Example C48_terms_case : typed_args war1 t_cons /\ (forall s, id_name (wid s) = s).
Proof. exact (conj t_cons_case wid_name). Qed.

(** C48 refuted: the first type metavariable and the first metavariable that are made are the same term, and the index
    does not find p<A>(X) from p<$i>(c).  It does when their indices differ. *)
Theorem C48_refuted :
  exists g A g1 X g2, maker_tymeta "A" 0 g = (A, g1) /\ maker_meta "X" 0 A g1 = (X, g2) /\
  (exists u, ty_to_term nid A = Some u /\ same_term (Meta X) u) /\
  exists p k q, make_tree nid [IPred 1 p [A] [Meta X]] = Some k /\ unify_real nid 30 30 k q = Ok [] /\
  exists X' k' s, m_index X' <> m_index X /\ make_tree nid [IPred 1 p [A] [Meta X']] = Some k' /\
    unify_real nid 30 30 k' q = Ok [(IPred 1 p [A] [Meta X'], s)].
Proof. exact meta_clash. Qed.
Print Assumptions C48_refuted.
