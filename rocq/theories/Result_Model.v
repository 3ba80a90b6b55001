(** Model of the top level of the search: src/Search/search.go and Search of
    src/Search/destructive.go. *)
From Coq Require Import ZArith List Bool String.
Import ListNotations.
Open Scope Z_scope.

(** Search/search.go:87-114 PrintSearchResult *)
Definition print_result (conj_found res : bool) : string :=
  if res then if conj_found then "Theorem" else "Unsatisfiable"
  else if conj_found then "CounterSatisfiable" else "Satisfiable".

(** Search/destructive.go:98-154 doOneStep: [step k] is the verdict of the search with limit [k]
    (manageResult).  The result is the statuses printed, the verdict and the next limit. *)
Definition do_one_step (proof conj : bool) (step : Z -> bool) (limit : Z) : list string * bool * Z :=
  let res := step limit in
  ((if res then if proof then [print_result conj res] else [] else []), res, 2 * limit).
(** Search/destructive.go:87-89: the loop; [None] when [fuel] runs out (the search goes on) *)
Fixpoint search_loop (fuel : nat) (proof conj onestep : bool) (step : Z -> bool) (bound limit : Z)
  : option (list string * bool * Z) :=
  match fuel with
  | O => None
  | S n =>
    let '(out, res, limit') := do_one_step proof conj step limit in
    if negb res && (0 <? bound) && negb onestep
    then match search_loop n proof conj onestep step bound limit' with
         | Some (out', r, k) => Some (out ++ out', r, k)
         | None => None
         end
    else Some (out, res, limit)
  end.
(** Search/destructive.go:82-96 Search: everything printed, the verdict and the last limit *)
Definition search (fuel : nat) (proof conj onestep : bool) (step : Z -> bool) (bound : Z)
  : option (list string * bool * Z) :=
  match search_loop fuel proof conj onestep step bound bound with
  | Some (out, res, k) =>
    Some (out ++ (if negb res || negb proof then [print_result conj res] else []), res, k)
  | None => None
  end.

(** Search/destructive.go:173-205 chooseSubstitutionDestructive.  [mother s] tells whether [s] mentions a
    metavariable of the parents, [r] is the number drawn by rand.Intn. *)
Section Choose.
Context {A : Type}.
Variable mother : A -> bool.
(** the loop 180-187: positions i .. len-2 *)
Fixpoint pick_loop (l : list A) (i : nat) : option nat :=
  match l with
  | [] | [_] => None
  | s :: r => if mother s then pick_loop r (S i) else Some i
  end.
Fixpoint set_nth (l : list A) (i : nat) (x : A) : list A :=
  match l, i with
  | [], _ => []
  | _ :: r, O => x :: r
  | y :: r, S j => y :: set_nth r j x
  end.
Definition choose_subst (l : list A) (r : nat) : option (A * list A) :=
  match l with
  | [] => None                                             (* subst_list[0] panics *)
  | _ =>
    let k := match pick_loop l 0 with Some i => i | None => Nat.modulo r (List.length l) end in
    match nth_error l k with
    | None => None
    | Some s =>
      if (1 <? Z.of_nat (List.length l))
      then match nth_error l (List.length l - 1) with
           | Some x => Some (s, removelast (set_nth l k x))
           | None => None
           end
      else Some (s, [])
    end
  end.
End Choose.
