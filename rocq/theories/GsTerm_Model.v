(** Model of the recovery of instantiation terms: Mods/gs3/dependency.go.

    An occurrence is a path of argument positions. The accumulator currentOcc of the Go functions is only appended to: it
    is the concatenation here. A nil term is [None]; an index out of range and Glob.Anomaly are [Crash]. *)
From Coq Require Import ZArith List Bool.
From Verif Require Import Ast_Model Unif_Model.
Import ListNotations.
Open Scope list_scope.
Open Scope Z_scope.

(** dependency.go:157-171 getVariableOccurrencesTerm; [v] is the index of the variable (typed-vars.go:77-79 ToBoundVar) *)
Fixpoint var_occs_term (v : Z) (path : list nat) (t : term) : list (list nat) :=
  match t with
  | Var i _ => if i =? v then [path] else []
  | Fun _ _ args =>
    (fix go (k : nat) (l : list term) : list (list nat) :=
       match l with
       | [] => []
       | a :: r => var_occs_term v (path ++ [k]) a ++ go (S k) r
       end) 0%nat args
  | _ => []
  end.
Fixpoint var_occs_terms (v : Z) (path : list nat) (k : nat) (l : list term) : list (list nat) :=
  match l with
  | [] => []
  | a :: r => var_occs_term v (path ++ [k]) a ++ var_occs_terms v path (S k) r
  end.
(** dependency.go:120-155 getVariableOccurrencesForm, getUnaryOcc, getNAryOcc (binders are not looked at) *)
Fixpoint var_occs_form (v : Z) (path : list nat) (f : form) : list (list nat) :=
  match f with
  | Pred _ _ _ args => var_occs_terms v path 0 args
  | Not _ g | All _ _ g | Ex _ _ g => var_occs_form v (path ++ [0%nat]) g
  | And _ fs | Or _ fs =>
    (fix go (k : nat) (l : list form) : list (list nat) :=
       match l with
       | [] => []
       | a :: r => var_occs_form v (path ++ [k]) a ++ go (S k) r
       end) 0%nat fs
  | Imp _ a b | Equ _ a b => var_occs_form v (path ++ [0%nat]) a ++ var_occs_form v (path ++ [1%nat]) b
  | Top _ | Bot _ => []
  end.
(** dependency.go:230-242 getTerm *)
Fixpoint get_term (occ : list nat) (t : term) : option term :=
  match occ with
  | [] => Some t
  | k :: r =>
    match t with
    | Fun _ _ args => match nth_error args k with Some a => get_term r a | None => None end
    | _ => None
    end
  end.
(** dependency.go:188-228 getTermAux, getUnaryTerm, getNAryTerm *)
Fixpoint get_term_aux (occ : list nat) (f : form) : out (option term) :=
  match f with
  | Top _ | Bot _ => Ok None
  | _ =>
    match occ with
    | [] => Crash
    | k :: r =>
      let nary fs := match nth_error fs k with Some g => get_term_aux r g | None => Ok None end in
      match f with
      | Pred _ _ _ args => Ok (match nth_error args k with Some a => get_term r a | None => None end)
      | Not _ g | All _ _ g | Ex _ _ g => match k with O => get_term_aux r g | S _ => Ok None end
      | And _ fs | Or _ fs => nary fs
      | Imp _ a b | Equ _ a b => nary [a; b]
      | Top _ | Bot _ => Ok None
      end
    end
  end.
(** dependency.go:173-186 getTermAt *)
Fixpoint get_term_at (f : form) (acc : option term) (occs : list (list nat)) : out (option term) :=
  match occs with
  | [] => Ok acc
  | o :: r =>
    do t <- get_term_aux o f;
    match acc with
    | None => get_term_at f t r
    | Some u =>
      match t with
      | Some t => if term_eqb u t then get_term_at f acc r else Crash
      | None => Crash
      end
    end
  end.
(** dependency.go:110-118 getResultTerm *)
Definition get_result_term (v : tvar) (bare last : form) : out (option term) :=
  get_term_at last None (var_occs_form (tv_index v) [] bare).
(** dependency.go:90-108 getNextFormula; the indices of the formulas built are not used, they are 0 *)
Fixpoint get_next_formula (f : form) : form :=
  match f with
  | All _ (_ :: (_ :: _) as vs) g => All 0 (tl vs) g
  | All _ _ g => g
  | Ex _ (_ :: (_ :: _) as vs) g => Ex 0 (tl vs) g
  | Ex _ _ g => g
  | Not _ g => Not 0 (get_next_formula g)
  | _ => f
  end.
(** At(0) on the list of variables *)
Definition at0 (vs : list tvar) (bare last : form) : out (option term) :=
  match vs with v :: _ => get_result_term v bare last | [] => Crash end.
(** dependency.go:52-66 manageGammasInstantiations *)
Definition gamma_term (initial result : form) : out (option term) :=
  let bare := get_next_formula initial in
  match initial with
  | All _ vs _ => at0 vs bare result
  | Not _ (Ex _ vs _) => at0 vs bare result
  | _ => Ok None
  end.
(** dependency.go:72-84 manageDeltasSkolemisations *)
Definition delta_term (initial result : form) : out (option term) :=
  let bare := get_next_formula initial in
  match initial with
  | Ex _ vs _ => at0 vs bare result
  | Not _ (All _ vs _) => at0 vs bare result
  | _ => Ok None
  end.
