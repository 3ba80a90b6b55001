(** Types that have a term view, and terms carrying them. *)
From Coq Require Import ZArith List Bool String.
From Verif Require Import Ast_Model.
Import ListNotations.
Open Scope Z_scope.

(** types built from type metavariables and constructors *)
Inductive atomic : ty -> Prop :=
| at_meta n i f : atomic (TyMeta n i f)
| at_constr c l : Forall atomic l -> atomic (TyConstr c l).
(** the metavariables of a type are called [mname i] and its constructors satisfy [K] *)
Inductive named (mname : Z -> string) (K : string -> Prop) : ty -> Prop :=
| na_meta i f : named mname K (TyMeta (mname i) i f)
| na_constr c l : K c -> Forall (named mname K) l -> named mname K (TyConstr c l).
(** terms built from metavariables and symbols, each symbol with its number of types *)
Inductive typed_args (ty_arity : string -> nat) : term -> Prop :=
| ta_meta m : typed_args ty_arity (Meta m)
| ta_fun p tys args : List.length tys = ty_arity (id_name p) -> Forall atomic tys -> Forall (typed_args ty_arity) args ->
    typed_args ty_arity (Fun p tys args).
(** no symbol of a term carries types *)
Inductive untyped : term -> Prop :=
| un_meta m : untyped (Meta m)
| un_fun p args : Forall untyped args -> untyped (Fun p [] args).
(** the maker has an index for the name *)
Definition known (g : gen) (s : string) : Prop := exists i, lookup s (idTable g) = Some i.
