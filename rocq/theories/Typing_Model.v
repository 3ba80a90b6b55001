(** Model of src/Typing (rules.go, env-and-context.go) and of the functions of AST/ty-syntax.go it calls.

    Process aborts (Glob.Fatal, Glob.Anomaly) are [None]. *)
From Coq Require Import ZArith List Bool String.
From Verif Require Import LibSet_Model LibSetHeap_Model Ast_Model UnifTree_Model.
Import ListNotations.
Open Scope Z_scope.

(** ** Type schemes *)

(** lookup in a Go map, newest binding first *)
Fixpoint find_ty (r : string) (m : list (string * ty)) : option ty :=
  match m with
  | [] => None
  | (k, v) :: m' => if String.eqb r k then Some v else find_ty r m'
  end.

(** ty-syntax.go:383-420 instantiateTyRec.  [m] is the Go map, newest binding first.  Every type that is not
    a type variable, a constructor, a product or an arrow is an Anomaly, and so is a variable without binding *)
Fixpoint inst_rec (m : list (string * ty)) (t : ty) : option ty :=
  match t with
  | TyVar r => find_ty r m
  | TyConstr s args => option_map (TyConstr s) (all_some (map (inst_rec m) args))
  | TyProd args => option_map TyProd (all_some (map (inst_rec m) args))
  | TyFunc a b => match inst_rec m a, inst_rec m b with Some x, Some y => Some (TyFunc x y) | _, _ => None end
  | _ => None
  end.
(** ty-syntax.go:344-380 InstantiateTy; [None] is the Fatal (wrong number of types) or the Anomaly (not a scheme) *)
Definition instantiate (t : ty) (tys : list ty) : option ty :=
  match t with
  | TyConstr _ _ | TyFunc _ _ => match tys with [] => Some t | _ => None end
  | TyPi vs b =>
    if Nat.eqb (List.length tys) (List.length vs) then inst_rec (rev (combine vs tys)) b else None
  | _ => None
  end.
(** ty-syntax.go:422-439 GetArgsTy *)
Definition get_args_ty (t : ty) : option (list ty) :=
  match t with
  | TyConstr _ _ => Some []
  | TyFunc (TyBound n i) _ => Some [TyBound n i]
  | TyFunc (TyConstr s l) _ => Some [TyConstr s l]
  | TyFunc (TyProd l) _ => Some l
  | _ => None
  end.
(** ty-syntax.go:441-454 GetOutTy *)
Definition get_out_ty (t : ty) : option ty :=
  match t with
  | TyConstr _ _ => Some tType
  | TyFunc _ o => Some o
  | _ => None
  end.

(** ** Contexts: env-and-context.go *)

(** env-and-context.go:49-52 definedType, 61-66 Equals, 54-59 Less *)
Definition dty : Type := (string * ty)%type.
Definition d_eqb (a b : dty) : bool := String.eqb (fst a) (fst b) && ty_eqb (snd a) (snd b).
Definition d_ltb (a b : dty) : bool := String.ltb (fst a) (fst b).

(** env-and-context.go:104-107 Env, 135-140 unsafeQuery *)
Definition env := string -> option ty.

(** A context is a pointer into the heap of set nodes: Con.add (81-83) updates the nodes in place and every
    worker holding the same context sees it.
    env-and-context.go:89-94 addTypedVars.  The recursion bound exceeds the depth of any tree of the heap. *)
Definition add_vars (h : heap dty) (p : ptr) (vs : list tvar) : res (heap dty * ptr) :=
  hadd d_eqb d_ltb (S (List.length h + List.length vs)) h p (map (fun v => (tv_name v, tv_ty v)) vs).
(** env-and-context.go:85-87 contains *)
Definition con_contains (h : heap dty) (p : ptr) (n : string) (t : ty) : res bool :=
  hfind d_eqb d_ltb (S (List.length h)) h p (n, t).

(** ** The checker: rules.go *)

(** One goroutine of the checker: the call it has to run.  rules.go:55 typecheckForm, 104 typecheckTerm,
    147 typecheckType; the pointer is its context *)
Inductive task : Type :=
| TForm (p : ptr) (f : form)
| TTerm (p : ptr) (t : term) (T : ty)
| TTy (p : ptr) (T : ty).

Section Check.
Variable E : env.
(** rules.go:214-251 checkFunctional with 304-325 buildTermCheckList: the calls made by typecheckRec *)
Definition functional (p : ptr) (name : string) (tys : list ty) (args : list term) : option (list task) :=
  match E name with
  | None => None
  | Some U =>
    match instantiate U tys with
    | None => None
    | Some J =>
      match get_args_ty J, get_out_ty J with
      | Some As, Some o =>
        if Nat.eqb (List.length args) (List.length As)
        then Some (map (fun x => TTerm p (fst x) (snd x)) (combine args As) ++ map (TTy p) (tys ++ [o]))
        else None
      | _, _ => None
      end
    end
  end.
(** What one goroutine does before it waits for its children: it aborts the process ([None]), or updates
    the nodes of the contexts and starts its children (253-302 typecheckRec).  Its answer is the conjunction of theirs,
    and no call answers false without aborting first, so a call that ends answers true.
    Simplification: a lookup in a context, and the additions of one quantifier, are single steps. *)
Definition exec (h : heap dty) (t : task) : option (heap dty * list task) :=
  match t with
  | TForm p (Top _) | TForm p (Bot _) => Some (h, [])
  | TForm p (Pred _ q tys args) => option_map (pair h) (functional p (id_name q) tys args)
  | TForm p (Not _ f) => Some (h, [TForm p f])
  | TForm p (And _ fs) | TForm p (Or _ fs) => Some (h, map (TForm p) fs)
  | TForm p (Imp _ f g) | TForm p (Equ _ f g) => Some (h, [TForm p f; TForm p g])
  | TForm p (All _ vs f) | TForm p (Ex _ vs f) =>
    match add_vars h p vs with Ok (h', p') => Some (h', [TForm p' f]) | _ => None end
  | TTerm p (Var _ n) T =>
    match con_contains h p n T with Ok true => Some (h, [TTy p T]) | _ => None end
  | TTerm p (Fun q tys args) T => option_map (pair h) (functional p (id_name q) tys args)
  | TTerm p _ T => None
  | TTy p (TyBound n _) =>
    match con_contains h p n tType with Ok true => Some (h, []) | _ => None end
  | TTy p (TyConstr s args) =>
    match E s with
    | Some U =>
      match get_args_ty U with
      | Some As => if Nat.eqb (List.length As) (List.length args) then Some (h, map (TTy p) args) else None
      | None => None
      end
    | None => None
    end
  | TTy p _ => None
  end.
(** The state: the heap and the calls not started yet.  The scheduler runs any of them next. *)
Definition state : Type := (heap dty * list task)%type.
Inductive step : state -> state -> Prop :=
| step_run h h' l1 t ks l2 : exec h t = Some (h', ks) -> step (h, l1 ++ t :: l2) (h', l1 ++ ks ++ l2).
Inductive steps : state -> state -> Prop :=
| steps_nil s : steps s s
| steps_cons s s' s'' : step s s' -> steps s' s'' -> steps s s''.
(** runs of a given length *)
Inductive nsteps : nat -> state -> state -> Prop :=
| nsteps_nil s : nsteps 0 s s
| nsteps_cons n s s' s'' : step s s' -> nsteps n s' s'' -> nsteps (S n) s s''.
(** rules.go:49-53 TypeCheck: the initial state *)
Definition start (f : form) : state := ([], [TForm None f]).
(** TypeCheck answers true: every call has ended *)
Definition accepts (f : form) : Prop := exists h, steps (start f) (h, []).
(** TypeCheck aborts the process: some schedule runs a call that aborts *)
Definition aborts (f : form) : Prop :=
  exists h l1 t l2, steps (start f) (h, l1 ++ t :: l2) /\ exec h t = None.
End Check.

(** init.go:64-75: the types and the equality of the initial environment.  The arithmetic symbols (77-118) are left out. *)
Definition scheme_eq : ty :=
  TyPi ["a"%string] (TyFunc (TyProd [TyVar "a"; TyVar "a"]) (TyConstr "$o" [])).
Definition env0 : env := fun n =>
  if existsb (String.eqb n) ["$tType"; "$int"; "$rat"; "$real"; "$i"; "$o"]%string then Some tType
  else if String.eqb n "=" then Some scheme_eq else None.
(** env-and-context.go:126-133 AddToGlobalEnv, called by main.go:364-375 for each type declaration *)
Definition declare (E : env) (n : string) (t : ty) : env := fun m => if String.eqb m n then Some t else E m.
