(** Model of src/Mods/equality/bse/lpo.go: the comparison of terms.

    Glob.Fatal and Glob.Anomaly are [None]. *)
From Coq Require Import ZArith List Bool String.
From Verif Require Import Ast_Model.
Import ListNotations.
Open Scope Z_scope.

(** lpo.go:47-51 compareStruct.  order: 1 is "less", 0 "equal", -1 "greater" *)
Record cmp : Type := mkCmp { c_order : Z; c_ok : bool; c_new : option (term * term) }.
(** termsDef.go:85-98 CompareWith; strings.Compare is bytewise *)
Definition compare_with (p q : ident) : comparison :=
  if String.eqb (id_name p) (id_name q) then Z.compare (id_index p) (id_index q)
  else String.compare (id_name p) (id_name q).

(** the loops of caseFLessG (218-231), caseFEqualsG (281-290) and caseDefault (305-314): they end on the first argument that
    is not comparable, or on the first whose order satisfies [stop] *)
Inductive outcome : Type := Incomparable | Stopped | Done.
Definition loop (stop : Z -> bool) (c : term -> option cmp) : list term -> option outcome :=
  fix go l :=
    match l with
    | [] => Some Done
    | a :: r =>
      match c a with
      | None => None
      | Some x => if c_ok x then if stop (c_order x) then Some Stopped else go r else Some Incomparable
      end
    end.
(** 238-297 caseFEqualsG, without the test of the lengths: the first loop, then the second one on the arguments after the first
    that differ.  [c] compares two arguments, [ct] an argument and the whole right term *)
Inductive lexres : Type := AllEqual | NewPair (p : option (term * term)) | Rest (o : outcome).
Definition lex (c : term -> term -> option cmp) (ct : term -> option cmp) : list term -> list term -> option lexres :=
  fix go ss ts :=
    match ss, ts with
    | a :: ss', b :: ts' =>
      match c a b with
      | None => None
      | Some x =>
        if c_ok x then
          if c_order x =? 0 then go ss' ts'
          else if 0 <? c_order x then option_map Rest (loop (fun o => o <=? 0) ct ss')
          else Some (Rest Stopped)
        else Some (NewPair (c_new x))
      end
    | _, _ => Some AllEqual
    end.
(** 148-180 compareMetaFunInside: [Some None] is not found *)
Definition inside (code : Z) (c : term -> option cmp) : list term -> option (option cmp) :=
  fix go l :=
    match l with
    | [] => Some None
    | a :: r =>
      match c a with
      | None => None
      | Some x => if c_ok x then Some (Some (mkCmp (if c_order x =? 0 then code else c_order x) true None)) else go r
      end
    end.

(** 68-117 compareLPO, 125-146 compareMetaFun, 183-189 compareMetaMeta, 192-209 compareFunFun, 300-320 caseDefault *)
Fixpoint compare (s : term) {struct s} : term -> option cmp :=
  fix with_s (t : term) : option cmp :=
    match s with
    | Fun p _ ss =>
      match t with
      | Fun q _ ts =>
        let default :=
          match loop (fun o => 0 <=? o) with_s ts with
          | None => None
          | Some Incomparable => Some (mkCmp 0 false (Some (s, t)))
          | Some Stopped => Some (mkCmp 1 true None)
          | Some Done => Some (mkCmp (-1) true None)
          end in
        let after (o : outcome) :=
          match o with
          | Incomparable => Some (mkCmp 0 false (Some (s, t)))
          | Done => Some (mkCmp 1 true None)
          | Stopped => default
          end in
        match compare_with p q with
        | Lt => match loop (fun o => o <=? 0) (fun a => compare a t) ss with None => None | Some o => after o end
        | Eq =>
          if Nat.eqb (List.length ss) (List.length ts) then
            match lex (fun a b => compare a b) (fun a => compare a t) ss ts with
            | None => None
            | Some AllEqual => Some (mkCmp 0 true None)
            | Some (NewPair p) => Some (mkCmp 0 false p)
            | Some (Rest o) => after o
            end
          else None
        | Gt => default
        end
      | Meta _ =>
        match inside (-1) (fun a => compare a t) ss with
        | None => None
        | Some (Some x) => Some x
        | Some None => Some (mkCmp 0 false (Some (s, t)))
        end
      | _ => None
      end
    | Meta m =>
      match t with
      | Fun q _ ts =>
        match inside 1 with_s ts with
        | None => None
        | Some (Some x) => Some x
        | Some None => Some (mkCmp 0 false (Some (s, t)))
        end
      | Meta n => if meta_eqb m n then Some (mkCmp 0 true None) else Some (mkCmp 1 false (Some (s, t)))
      | _ => None
      end
    | _ => None
    end.

(** ** Constraints: constraints_type.go, constraints_list.go *)
(** constraints_type.go:50-58: PREC or EQ, and a pair of terms *)
Record constr : Type := mkConstr { k_prec : bool; k_left : term; k_right : term }.
(** constraints_type.go:100-126 checkLPO: not violated, comparable; the pair that replaces the terms of the constraint is left out:
    every caller works on a copy that it drops *)
Definition check_lpo (k : constr) : option (bool * bool) :=
  match compare (k_left k) (k_right k) with
  | None => None
  | Some x => Some (if c_ok x then ((if k_prec k then 0 <? c_order x else c_order x =? 0), true) else (true, false))
  end.
