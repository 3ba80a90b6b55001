(** Substitutions and the unification machine of Unif. *)
From Coq Require Import ZArith List Bool String.
From Verif Require Import Ast_Model.
Import ListNotations.
Open Scope list_scope.
Open Scope Z_scope.

(** ** Substitutions: Unif/substitution.go, Unif/substitutions_type.go *)

(** substitution.go:42-45, substitutions_type.go:48 *)
Definition substs := list (meta * term).
(** termsDef.go:365-367 MakeEmptyMeta, substitutions_type.go:215-218 Failure *)
Definition empty_meta : meta := mkMeta (-1) (-1) "-1" (-1) (TyConstr "$i" []).
Definition failure : substs := [(empty_meta, Meta empty_meta)].
(** termsDef.go:59, 140, 273, 326 ToMeta; 57, 139, 272, 325 IsFun; 56, 138, 271, 324 IsMeta *)
Definition to_meta (t : term) : meta := match t with Meta m => m | _ => empty_meta end.
Definition is_fun (t : term) : bool := match t with Fun _ _ _ => true | _ => false end.
Definition is_meta (t : term) : bool := match t with Meta _ => true | _ => false end.

(** substitutions_type.go:85-112 Equals: same length and every binding of the first is in the second *)
Definition bind_eqb (p q : meta * term) : bool := meta_eqb (fst p) (fst q) && term_eqb (snd p) (snd q).
Definition substs_eqb (s1 s2 : substs) : bool :=
  Nat.eqb (List.length s1) (List.length s2) && forallb (fun p => existsb (bind_eqb p) s2) s1.
Definition is_failure (s : substs) : bool := substs_eqb s failure.

(** substitutions_type.go:222-229 HasSubst *)
Definition has_subst (s : substs) (m : meta) : bool := existsb (fun p => meta_eqb (fst p) m) s.
(** substitutions_type.go:123-134 Set: the loop assigns to a copy of the binding, so a key that is
    already there keeps its value *)
Definition sset (s : substs) (k : meta) (v : term) : substs := if has_subst s k then s else s ++ [(k, v)].
(** substitutions_type.go:136-145 Get: the value and its index, nothing for index -1 *)
Fixpoint sget_from (i : nat) (s : substs) (k : meta) : option (term * nat) :=
  match s with
  | [] => None
  | (k', v) :: r => if meta_eqb k' k then Some (v, i) else sget_from (S i) r k
  end.
Definition sget (s : substs) (k : meta) : option (term * nat) :=
  if m_index k =? -1 then None else sget_from 0 s k.
(** substitutions_type.go:147-150 Remove: the last binding takes the place of the removed one; the caller
    gives an index below the length *)
Fixpoint set_nth {A} (n : nat) (x : A) (l : list A) : list A :=
  match l, n with
  | [], _ => []
  | _ :: r, O => x :: r
  | a :: r, S n => a :: set_nth n x r
  end.
Definition sremove (s : substs) (i : nat) : substs :=
  match rev s with
  | [] => []
  | p :: _ => removelast (set_nth i p s)
  end.

(** substitutions_type.go:241-266 isRecursive, areFuncArgsRecursive *)
Fixpoint is_recursive (t : term) (m : meta) : bool :=
  match t with
  | Fun _ _ args => existsb (fun a => is_recursive a m) args
  | Meta m' => meta_eqb m' m
  | _ => false
  end.
(** substitutions_type.go:233-238 OccurCheckValid *)
Definition occur_check (k : meta) (v : term) : bool :=
  negb (is_fun v && is_recursive v k || term_eqb (Meta k) v).

(** substitutions_type.go:338-378 eliminateList: passes over the list until nothing changes.  [n] bounds
    the nesting and the passes; [None] is out of fuel (excluded in Elim_Proofs.v). *)
Fixpoint elim_list (n : nat) (k : meta) (v : term) (l : list term) : option (list term * bool) :=
  match n with
  | O => None
  | S n =>
    let pass := fix pass (l : list term) : option (list term * bool) :=
      match l with
      | [] => Some ([], false)
      | a :: r =>
        let here :=
          match a with
          | Meta m => if meta_eqb m k then Some (v, true) else Some (a, false)
          | Fun p tys args =>
            match elim_list n k v args with
            | Some (args', c) => Some (Fun p tys args', c)
            | None => None
            end
          | _ => Some (a, false)
          end in
        match here, pass r with
        | Some (a', c), Some (r', c') => Some (a' :: r', c || c')
        | _, _ => None
        end
      end in
    match pass l with
    | None => None
    | Some (l', false) => Some (l', false)
    | Some (l', true) =>
      match elim_list n k v l' with
      | Some (l'', _) => Some (l'', true)
      | None => None
      end
    end
  end.

(** substitutions_type.go:293-335 eliminateInside; the outer option is the fuel, [failure] is returned as
    in the code.  One pass over the bindings: *)
Fixpoint elim_pass (n : nat) (k : meta) (v : term) (s tmp : substs) (changed : bool) : option (substs * bool) :=
  match s with
  | [] => Some (tmp, changed)
  | (k2, v2) :: r =>
    match v2 with
    | Meta m => if meta_eqb k m then elim_pass n k v r (sset tmp k2 v) true else elim_pass n k v r (sset tmp k2 v2) changed
    | Fun p tys args =>
      match elim_list n k v args with
      | None => None
      | Some (args', c) =>
        if occur_check k2 (Fun p tys args') then elim_pass n k v r (sset tmp k2 (Fun p tys args')) (changed || c)
        else Some (failure, false)
      end
    | _ => elim_pass n k v r (sset tmp k2 v2) changed
    end
  end.
(** the loop; the flag tells whether some pass changed something (a failing pass returns at once, and the
    caller stops on a failure whatever the flag) *)
Fixpoint elim_inside (n : nat) (k : meta) (v : term) (s : substs) : option (substs * bool) :=
  match n with
  | O => None
  | S n =>
    match elim_pass n k v s [] false with
    | None => None
    | Some (s', false) => Some (s', false)
    | Some (s', true) =>
      match elim_inside n k v s' with
      | Some (s'', _) => Some (s'', true)
      | None => None
      end
    end
  end.
(** substitutions_type.go:268-290 Eliminate.  [for _, t := range *s] runs over the bindings the
    substitution had when the round began. *)
Fixpoint elim_round (n : nat) (todo s : substs) (changed : bool) : option (substs * bool) :=
  match todo with
  | [] => Some (s, changed)
  | (k, v) :: r =>
    if occur_check k v then
      match elim_inside n k v s with
      | None => None
      | Some (s', c) => if is_failure s' then Some (failure, false) else elim_round n r s' (changed || c)
      end
    else Some (failure, false)
  end.
Fixpoint elim_loop (n : nat) (s : substs) : option substs :=
  match n with
  | O => None
  | S n =>
    match elim_round n s s false with
    | None => None
    | Some (s', true) => elim_loop n s'
    | Some (s', false) => Some s'
    end
  end.
Definition eliminate (n : nat) (s : substs) : option substs := if is_failure s then Some s else elim_loop n s.

(** substitutions_type.go:381-397 EliminateMeta *)
Fixpoint elim_meta_loop (s todo res : substs) : substs :=
  match todo with
  | [] => res
  | (k, v) :: r =>
    let vm := to_meta v in
    let drop := is_meta v && has_subst s vm && has_subst res vm &&
                match sget s vm with Some (vk, _) => term_eqb vk (Meta k) | None => false end in
    elim_meta_loop s r (if drop then res else sset res k v)
  end.
Definition eliminate_meta (s : substs) : substs := elim_meta_loop s s [].
(** EliminateMeta then Eliminate, as everywhere in substitutions_tree.go *)
Definition eliminate_both (n : nat) (s : substs) : option substs := eliminate n (eliminate_meta s).

(** ** Instructions: Unif/instruction.go:46-95 *)
Inductive instr : Type :=
| Begin
| End (t : option term)
| Right
| Down
| Check (p : ident)
| Push (i : nat)
| Pop (i : nat)
| Put (i : nat)
| Compare (i j : nat).

(** ** Parsing of terms: Unif/parsing.go:185-243 parseTerms.
    [right]: there is another term on the right; [mt]: the metavariables met so far (its length is
    varCount); [pc]: postCount.  The type arguments have been turned into arguments before
    ([functional_args] below), so [getFunctionalArguments] does nothing here; substitution values that
    carry type arguments are not modelled. *)
Definition comparisons (mt : list meta) (m : meta) : list instr :=
  map (fun j => Compare j (List.length mt))
    (filter (fun j => match nth_error mt j with Some m' => meta_eqb m' m | None => false end) (seq 0 (List.length mt))).
Definition nonempty {A} (l : list A) : bool := match l with [] => false | _ => true end.
Fixpoint parse_term (right : bool) (t : term) (mt : list meta) (pc : nat) : list instr * list meta :=
  let parse_list := fix parse_list (l : list term) (mt : list meta) (pc : nat) : list instr * list meta :=
    match l with
    | [] => ([], mt)
    | a :: r =>
      let '(i1, mt1) := parse_term (nonempty r) a mt pc in
      let '(i2, mt2) := parse_list r mt1 pc in
      (i1 ++ i2, mt2)
    end in
  match t with
  | Meta m => (Put (List.length mt) :: comparisons mt m ++ (if right then [Right] else []), mt ++ [m])
  | Fun p tys args =>
    match args with
    | [] => (Begin :: Check p :: End (Some t) :: (if right then [Right] else []), mt)
    | _ =>
      let '(is, mt') := parse_list args mt (if right then S pc else pc) in
      (Begin :: Check p :: (if right then [Push pc] else []) ++ Down :: is ++ (if right then [Pop pc] else []) ++ [End (Some t)], mt')
    end
  | _ => ([], mt)
  end.
Fixpoint parse_list (l : list term) (mt : list meta) (pc : nat) : list instr * list meta :=
  match l with
  | [] => ([], mt)
  | a :: r =>
    let '(i1, mt1) := parse_term (nonempty r) a mt pc in
    let '(i2, mt2) := parse_list r mt1 pc in
    (i1 ++ i2, mt2)
  end.
(** parsing.go:245-259 ParseTerm *)
Definition parse_one (t : term) : list instr := fst (parse_term false t [] 0).
(** parsing.go:118-135, 167-184 ParseFormula and parsePred, on a predicate and its arguments *)
Definition parse_pred (p : ident) (args : list term) : list instr :=
  Begin :: Check p :: (match args with [] => [] | _ => Begin :: Down :: fst (parse_list args [] 0) ++ [End None] end) ++ [End None].
(** parsing.go:136-149 ParseFormula on a TermForm *)
Definition parse_term_form (t : term) : list instr := Begin :: parse_one t ++ [End None].

(** termsDef.go:180-193, 328 GetMetaList: all the occurrences, in order *)
Fixpoint meta_list (t : term) : list meta :=
  match t with
  | Meta m => [m]
  | Fun _ _ args => flat_map meta_list args
  | _ => []
  end.

(** ** The machine: Unif/machine.go *)
Inductive out (A : Type) : Type :=
| Ok (a : A)
| Fail        (* ERROR *)
| Crash       (* index out of range, nil dereference, failed type assertion *)
| Out.        (* out of fuel *)
Arguments Ok {A}. Arguments Fail {A}. Arguments Crash {A}. Arguments Out {A}.
Definition bind {A B} (x : out A) (f : A -> out B) : out B :=
  match x with Ok a => f a | Fail => Fail | Crash => Crash | Out => Out end.
Notation "'do' x <- a ; b" := (bind a (fun x => b)) (at level 200, x pattern, a at level 100, b at level 200).

(** machine.go:57-70; [mc_lock] is -1 when unlocked *)
Record mach : Type := mkMach {
  mc_q : nat; mc_count : Z; mc_lock : Z; mc_pushed : bool; mc_poped : bool;
  mc_post : list (nat * list term); mc_subst : list (nat * term); mc_terms : list term; mc_meta : substs;
  mc_tot : Z; mc_cnt : Z }.
(** machine.go:73-90 makeMachine *)
Definition make_machine (terms : list term) (s : substs) : mach := mkMach 0 0 (-1) false false [] [] terms s 0 0.

Definition unlocked (m : mach) : bool := mc_lock m =? -1.
Definition current (m : mach) : out term := match nth_error (mc_terms m) (mc_q m) with Some t => Ok t | None => Crash end.
Definition set_meta (m : mach) (s : substs) : mach :=
  mkMach (mc_q m) (mc_count m) (mc_lock m) (mc_pushed m) (mc_poped m) (mc_post m) (mc_subst m) (mc_terms m) s (mc_tot m) (mc_cnt m).

(** machine.go:105-116 unwrapMeta: stops on a metavariable seen twice.  At most one step per binding. *)
Fixpoint unwrap_from (n : nat) (seen : list Z) (s : substs) (t : term) : term :=
  match n with
  | O => t
  | S n =>
    match t with
    | Meta m =>
      match sget s m with
      | None => t
      | Some (v, _) => if existsb (Z.eqb (m_index m)) seen then t else unwrap_from n (m_index m :: seen) s v
      end
    | _ => t
    end
  end.
Definition unwrap (s : substs) (t : term) : term := unwrap_from (S (List.length s)) [] s t.

(** substitutions_tree.go:165-195 GetSubstAt: subst_pair.go:59-66 *)
Fixpoint subst_at (l : list (nat * term)) (i : nat) : option term :=
  match l with
  | [] => None
  | (j, t) :: r => if Nat.eqb j i then Some t else subst_at r i
  end.

Section Unif.
(** fuel for the eliminations *)
Variable fe : nat.
(** AddUnification, tied below *)
Variable add : term -> term -> substs -> out substs.

Definition elim_out (s : substs) : out substs :=
  match eliminate_both fe s with Some s' => Ok s' | None => Out end.

(** substitutions_tree.go:152-163 trySubstituteMeta *)
Definition try_substitute (i j : term) (m : mach) : out mach :=
  do s <- add i j (mc_meta m);
  if is_failure s then Fail else Ok (set_meta m s).

(** matching.go:259-270 right *)
Definition m_right (m : mach) : out mach :=
  if unlocked m then
    if Nat.leb (List.length (mc_terms m)) (S (mc_q m)) then Fail
    else Ok (mkMach (S (mc_q m)) (mc_count m) (mc_lock m) (mc_pushed m) (mc_poped m) (mc_post m) (mc_subst m) (mc_terms m)
               (mc_meta m) (mc_tot m) (mc_cnt m + 1))
  else Ok m.
(** machine.go:148-158 lockedRight *)
Definition locked_right (m : mach) : out mach :=
  if mc_pushed m && mc_poped m then
    let m := mkMach (mc_q m) (mc_count m) (mc_lock m) false false (mc_post m) (mc_subst m) (mc_terms m) (mc_meta m) (mc_tot m) (mc_cnt m) in
    if Z.of_nat (mc_q m) <? Z.of_nat (List.length (mc_terms m)) - 1 then m_right m else Ok m
  else Ok m.
(** machine.go:161-173 tryUnlock; an End without term is copied only here *)
Definition try_unlock (t : option term) (m : mach) : out mach :=
  if negb (unlocked m) && (mc_count m =? mc_lock m) then
    let m := mkMach (mc_q m) (mc_count m) (-1) (mc_pushed m) (mc_poped m) (mc_post m) (mc_subst m) (mc_terms m) (mc_meta m) (mc_tot m) (mc_cnt m) in
    do c <- current m;
    match t with
    | None => Crash
    | Some t => do m <- try_substitute (Meta (to_meta c)) t m; locked_right m
    end
  else Ok m.
(** machine.go:177-182 checkEnd *)
Definition check_end (m : mach) : out mach :=
  if (mc_count m =? 0) && negb (mc_cnt m =? mc_tot m) then Fail else Ok m.
(** machine.go:186-192 removePost *)
Definition remove_post {A} (l : list A) (i : nat) : list A :=
  match l with
  | _ :: _ :: _ => firstn i l ++ skipn (S i) l
  | _ => []
  end.
(** machine.go:201-228 matchIndexes, checkMeta *)
Definition match_indexes (t : term) (p : ident) (m : mach) : out mach :=
  match t with
  | Meta x =>
    if has_subst (mc_meta m) x then
      (* Get answers nil for index -1 only *)
      match sget (mc_meta m) x with
      | None => Crash
      | Some (v, _) => let u := unwrap (mc_meta m) v in
                       if negb (is_meta u) && negb (term_index u =? id_index p) then Fail else Ok m
      end
    else Ok m
  | _ => if term_index t =? id_index p then Ok m else Fail
  end.

(** matching.go:242-348 the instructions *)
Definition exec (i : instr) (m : mach) : out mach :=
  match i with
  | Begin =>
    do c <- current m;
    let lock := if is_meta c && unlocked m then mc_count m else mc_lock m in
    Ok (mkMach (mc_q m) (mc_count m + 1) lock (mc_pushed m) (mc_poped m) (mc_post m) (mc_subst m) (mc_terms m) (mc_meta m) (mc_tot m) (mc_cnt m))
  | End t =>
    let m := mkMach (mc_q m) (mc_count m - 1) (mc_lock m) (mc_pushed m) (mc_poped m) (mc_post m) (mc_subst m) (mc_terms m) (mc_meta m) (mc_tot m) (mc_cnt m) in
    do m <- try_unlock t m; check_end m
  | Right => m_right m
  | Down =>
    if unlocked m then
      do c <- current m;
      match c with
      | Fun _ _ args => Ok (mkMach 0 (mc_count m) (mc_lock m) (mc_pushed m) (mc_poped m) (mc_post m) (mc_subst m) args (mc_meta m)
                              (mc_tot m + Z.of_nat (List.length args)) (mc_cnt m + 1))
      | _ => Crash
      end
    else Ok m
  | Check p => if unlocked m then do c <- current m; match_indexes c p m else Ok m
  | Push _ =>
    if unlocked m then Ok (mkMach (mc_q m) (mc_count m) (mc_lock m) (mc_pushed m) (mc_poped m) (mc_post m ++ [(S (mc_q m), mc_terms m)])
                             (mc_subst m) (mc_terms m) (mc_meta m) (mc_tot m) (mc_cnt m))
    else Ok (mkMach (mc_q m) (mc_count m) (mc_lock m) true (mc_poped m) (mc_post m) (mc_subst m) (mc_terms m) (mc_meta m) (mc_tot m) (mc_cnt m))
  | Pop i =>
    if unlocked m then
      match nth_error (mc_post m) i with
      | None => Crash
      | Some (q, terms) =>
        if Nat.leb (List.length terms) q then Fail
        else Ok (mkMach q (mc_count m) (mc_lock m) (mc_pushed m) (mc_poped m) (remove_post (mc_post m) i) (mc_subst m) terms
                   (mc_meta m) (mc_tot m) (mc_cnt m + 1))
      end
    else Ok (mkMach (mc_q m) (mc_count m) (mc_lock m) (mc_pushed m) true (mc_post m) (mc_subst m) (mc_terms m) (mc_meta m) (mc_tot m) (mc_cnt m))
  | Put i =>
    if unlocked m then
      do c <- current m;
      Ok (mkMach (mc_q m) (mc_count m) (mc_lock m) (mc_pushed m) (mc_poped m) (mc_post m) (mc_subst m ++ [(i, c)]) (mc_terms m)
            (mc_meta m) (mc_tot m) (mc_cnt m))
    else Ok m
  | Compare i j =>
    if unlocked m then
      match subst_at (mc_subst m) i, subst_at (mc_subst m) j with
      | Some a, Some b =>
        let a := unwrap (mc_meta m) a in
        let b := unwrap (mc_meta m) b in
        if term_eqb a b then Ok m else try_substitute a b m
      | _, _ => Ok m
      end
    else Ok m
  end.
(** matching.go:103-180 unifyAux, the instructions of a node *)
Fixpoint exec_all (is : list instr) (m : mach) : out mach :=
  match is with
  | [] => Ok m
  | i :: r => do m <- exec i m; exec_all r m
  end.

(** substitutions_tree.go:250-287 MergeSubstitutions, the substitution only *)
Fixpoint merge_loop (s2 res : substs) : out substs :=
  match s2 with
  | [] => Ok res
  | (k, v) :: r =>
    do res <- (if has_subst res k then add (Meta k) v res else elim_out (sset res k v));
    merge_loop r res
  end.
Definition merge (s1 s2 : substs) : out substs :=
  match s1, s2 with
  | [], _ => Ok s2
  | _, [] => Ok s1
  | _, _ => merge_loop s2 (fold_left (fun r p => sset r (fst p) (snd p)) s1 [])
  end.

(** substitutions_tree.go:51-149 computeSubstitutions; [mt] are the metavariables of the indexed formula.
    The substitution [failure] is returned as [Ok failure]. *)
Fixpoint compute_loop (subs : list (nat * term)) (mt : list meta) (metas tree : substs) : out (option (substs * substs)) :=
  match subs with
  | [] => Ok (Some (metas, tree))
  | (i, v) :: r =>
    match nth_error mt i with
    | None => Crash
    | Some m =>
      if term_eqb (Meta m) v then compute_loop r mt metas tree
      else
        match (if has_subst metas m then sget metas m else None) with
        | Some (w, idx) =>
          if negb (term_eqb v w) then
            let tree := sset tree m v in
            do u <- add v w tree;
            if is_failure u then Ok None else compute_loop r mt (sremove metas idx) u
          else compute_loop r mt metas (sset tree m v)
        | None => compute_loop r mt metas (sset tree m v)
        end
    end
  end.
Definition compute (subs : list (nat * term)) (mt : list meta) (metas : substs) : out substs :=
  do r <- compute_loop subs mt metas [];
  match r with
  | None => Ok failure
  | Some (metas, tree) =>
    do metas <- elim_out metas;
    if is_failure metas then Ok failure else
    do tree <- elim_out tree;
    if is_failure tree then Ok failure else
    do res <- merge metas tree;
    if is_failure res then Ok res else elim_out res
  end.

(** substitutions_tree.go:231-248 tryUnification, with matching.go:158-176 on the single leaf: [Ok None]
    is an empty list of results *)
Definition try_unification (t1 t2 : term) (s : substs) : out (option substs) :=
  match exec_all (parse_one t1) (make_machine [t2] s) with
  | Fail => Ok None
  | Ok m => do r <- compute (mc_subst m) (meta_list t1) (mc_meta m); Ok (if is_failure r then None else Some r)
  | Crash => Crash
  | Out => Out
  end.
(** substitutions_tree.go:165-210 AddUnification with 213-229 addUnifications *)
Definition add_body (t1 t2 : term) (s : substs) : out substs :=
  let bound t u := is_meta t && has_subst s (to_meta t) &&
                   match sget s (to_meta t) with Some (v, _) => negb (term_eqb v u) | None => true end in
  if bound t1 t2 || bound t2 t1 || is_fun t1 && is_fun t2 then
    do r <- try_unification t1 t2 s;
    match r with
    | None => Ok failure
    | Some s' => elim_out s'
    end
  else
    match t1, t2 with
    | Meta m, _ => elim_out (sset s m t2)
    | _, Meta m => elim_out (sset s m t1)
    | _, _ => Ok failure
    end.
End Unif.

Fixpoint add_unif (n fe : nat) (t1 t2 : term) (s : substs) : out substs :=
  match n with
  | O => Out
  | S n => add_body fe (add_unif n fe) t1 t2 s
  end.
