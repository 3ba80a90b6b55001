(** Model of the substitution application functions of src/Core/substitutions_search.go. *)
From Coq Require Import ZArith List Bool String.
From Verif Require Import Ast_Model.
Import ListNotations.
Open Scope Z_scope.

(** substitutions_search.go:230-246 ApplySubstitutionOnTerm, with 283-295
    ApplySubstitutionOnTermList: one binding, full replacement *)
Fixpoint apply_subst_on_term (old : meta) (new : term) (t : term) : term :=
  match t with
  | Meta m => if meta_eqb m old then new else t
  | Fun p tys args => Fun p tys (map (apply_subst_on_term old new) args)
  | _ => t
  end.

(** Unif/substitutions_mixed: a binding is either a type binding or a term binding *)
Inductive mixed : Type :=
| MTy (m : ty) (t : ty)         (* Unif.TySubstitution; [m] is a TyMeta *)
| MTerm (m : meta) (t : term).  (* Unif.Substitution *)

(** substitutions_search.go:263-280 ApplySubstitutionsOnTerm (t <> nil) *)
Definition apply_substs_on_term (s : list mixed) (t : term) : term :=
  fold_left (fun t b => match b with
                        | MTy m u => term_subst_ty m u t
                        | MTerm m u => replace_sub (Meta m) u t
                        end) s t.

(** substitutions_search.go:298-316 ApplySubstitutionsOnFormula (f <> nil) *)
Definition apply_substs_on_form (s : list mixed) (f : form) : form :=
  fold_left (fun f b => match b with
                        | MTy m u => form_subst_ty m u f
                        | MTerm m u => replace_meta m u f
                        end) s f.
