(** Model of the equality reasoning by reduction to SAT: src/Mods/equality/sateq (option -sateq, options.go:333-340), and of the
    way it is called, src/Mods/equality/bse/equality_rules_reasoning.go:125-143.

    Simplifications:
    - an eqClass is named by its id: they are allocated in order, so that the heap is a list of cells;
    - representative() shortens paths: this is [find] below; as it changes no representative (C90), the other functions use
      [root], which only reads;
    - a termRecord is named by the class allocated with it, termrep.go:119-135: two records are the same pointer when these are
      equal;
    - Go maps are association lists; the order in which they are iterated only changes the order of the clauses and of the
      bindings, except in getTranslation, where it is a parameter;
    - a literal is named by its key: getIdAndRegister gives one literal to each key;
    - the solver (gini) is any function from clauses to assignments: what it should satisfy is a hypothesis of the theorems;
    - a nil dereference or an index out of range is [Crash]. *)
From Coq Require Import ZArith List Bool String.
From Verif Require Import Ast_Model Unif_Model.
Import ListNotations.
Open Scope list_scope.
Open Scope nat_scope.

(** ** Equivalence classes: termrep.go:60-117 *)
(** parent and size *)
Definition heap : Type := list (nat * nat).
Definition parent (h : heap) (x : nat) : nat := match nth_error h x with Some c => fst c | None => x end.
Definition size (h : heap) (x : nat) : nat := match nth_error h x with Some c => snd c | None => 0 end.
Definition set_cell (h : heap) (x : nat) (c : nat * nat) : heap := firstn x h ++ c :: skipn (S x) h.
(** 111-117 makeEqClass *)
Definition make_class (h : heap) : nat * heap := (List.length h, h ++ [(List.length h, 1)]).
(** 84-91 representative, path splitting included *)
Fixpoint find (fuel : nat) (h : heap) (x : nat) : out (nat * heap) :=
  match fuel with
  | O => Out
  | S fuel =>
    let p := parent h x in
    if Nat.eqb p x then Ok (x, h) else find fuel (set_cell h x (parent h p, size h x)) p
  end.
(** the same without splitting; a class is below at most all the others *)
Fixpoint root_from (fuel : nat) (h : heap) (x : nat) : nat :=
  match fuel with
  | O => x
  | S fuel => let p := parent h x in if Nat.eqb p x then x else root_from fuel h p
  end.
Definition root (h : heap) (x : nat) : nat := root_from (List.length h) h x.
(** 93-105 merge *)
Definition union (h : heap) (a b : nat) : heap :=
  let x := root h a in
  let y := root h b in
  if Nat.eqb x y then h else
  let '(x, y) := if size h x <? size h y then (y, x) else (x, y) in
  let h1 := set_cell h y (x, size h y) in
  set_cell h1 x (parent h1 x, size h1 x + size h1 y).
(** the same with the two searches of a representative *)
Definition union_full (h : heap) (a b : nat) : out heap :=
  do (x, h) <- find (S (List.length h)) h a;
  do (y, h) <- find (S (List.length h)) h b;
  if Nat.eqb x y then Ok h else
  let '(x, y) := if size h x <? size h y then (y, x) else (x, y) in
  let h1 := set_cell h y (x, size h y) in
  Ok (set_cell h1 x (parent h1 x, size h1 x + size h1 y)).
(** a sequence of calls *)
Inductive op : Type := Make | Find (x : nat) | Merge (a b : nat).
Definition run_op (o : op) (h : heap) : out heap :=
  match o with
  | Make => Ok (snd (make_class h))
  | Find x => do (_, h) <- find (S (List.length h)) h x; Ok h
  | Merge a b => union_full h a b
  end.
Fixpoint run_ops (l : list op) (h : heap) : out heap :=
  match l with
  | [] => Ok h
  | o :: r => do h <- run_op o h; run_ops r h
  end.
(** 107-109 congruent *)
Definition congruent (h : heap) (a b : nat) : bool := Nat.eqb (root h a) (root h b).

(** ** Records of terms: termrep.go:119-187 *)
Record trec : Type := mkTr { tr_index : Z; tr_class : nat; tr_meta : option meta; tr_sym : ident; tr_args : list nat }.
Definition no_id : ident := mkId 0 "".
(** 119-125 metaTermRecord, 127-135 funTermRecord: the type arguments are not recorded *)
Definition meta_rec (m : meta) (c : nat) : trec := mkTr (m_index m) c (Some m) no_id [].
Definition fun_rec (p : ident) (args : list nat) (c : nat) : trec := mkTr (id_index p) c None p args.
Definition tr_is_meta (t : trec) : bool := match tr_meta t with Some _ => true | None => false end.
(** 150-155 Equals *)
Definition tr_eqb (a b : trec) : bool := Nat.eqb (tr_class a) (tr_class b).
(** 157-170 congruent *)
Fixpoint args_congruent (h : heap) (l1 l2 : list nat) : out bool :=
  match l1, l2 with
  | [], _ => Ok true
  | _, [] => Crash
  | a :: r1, b :: r2 => if congruent h a b then args_congruent h r1 r2 else Ok false
  end.
Definition tr_congruent (h : heap) (a b : trec) : out bool :=
  if negb (tr_index a =? tr_index b)%Z || negb (Bool.eqb (tr_is_meta a) (tr_is_meta b)) then Ok false
  else if tr_is_meta a then Ok true else args_congruent h (tr_args a) (tr_args b).

(** ** Maps *)
Definition nmap (A : Type) : Type := list (nat * A).
Definition nget {A} (m : nmap A) (k : nat) : option A := option_map snd (List.find (fun e => Nat.eqb (fst e) k) m).
Definition ndel {A} (m : nmap A) (k : nat) : nmap A := filter (fun e => negb (Nat.eqb (fst e) k)) m.
Definition nset {A} (m : nmap A) (k : nat) (v : A) : nmap A := ndel m k ++ [(k, v)].
Definition zmap (A : Type) : Type := list (Z * A).
Definition zget {A} (m : zmap A) (k : Z) : option A := option_map snd (List.find (fun e => (fst e =? k)%Z) m).
Definition zset {A} (m : zmap A) (k : Z) (v : A) : zmap A := filter (fun e => negb (fst e =? k)%Z) m ++ [(k, v)].

(** ** Problems: problem.go:43-222 *)
Record problem : Type := mkPb
  { pb_goals : list (list (nat * nat)); pb_funs : zmap (list trec); pb_metas : zmap trec;
    pb_part : nmap (list trec); pb_super : nmap (list trec) }.
(** 54-65 NewProblem *)
Definition new_problem : problem := mkPb [] [] [] [] [].
(** 81-88 EquivalenceClasses, 90-92 TermsInClass, 94-96 TermsWithSymbol, 98-105 Metas *)
Definition classes (pb : problem) : list nat := map fst (pb_part pb).
Definition in_class (h : heap) (pb : problem) (c : nat) : out (list trec) :=
  match nget (pb_part pb) (root h c) with Some l => Ok l | None => Crash end.
Definition with_symbol (pb : problem) (i : Z) : out (list trec) := match zget (pb_funs pb) i with Some l => Ok l | None => Crash end.
Definition meta_recs (pb : problem) : list trec := map snd (pb_metas pb).
(** 137-153 addNewTermRecord *)
Definition add_record (h : heap) (pb : problem) (t : trec) : nat * problem :=
  let c := root h (tr_class t) in
  (c, match tr_meta t with
      | Some _ => mkPb (pb_goals pb) (pb_funs pb) (zset (pb_metas pb) (tr_index t) t) (nset (pb_part pb) c [t]) (nset (pb_super pb) c [])
      | None => mkPb (pb_goals pb)
                  (zset (pb_funs pb) (tr_index t) (match zget (pb_funs pb) (tr_index t) with Some l => l ++ [t] | None => [t] end))
                  (pb_metas pb) (nset (pb_part pb) c [t]) (nset (pb_super pb) c [t])
      end).
(** 121-127: the first congruent record *)
Fixpoint first_congruent (h : heap) (t : trec) (l : list trec) : out (option trec) :=
  match l with
  | [] => Ok None
  | u :: r => do b <- tr_congruent h t u; if b then Ok (Some u) else first_congruent h t r
  end.
(** 107-135 getEquivalenceClass; a term that is neither a metavariable nor an application has no class, which fails when it is used *)
Fixpoint get_class (t : term) (h : heap) (pb : problem) : out (nat * heap * problem) :=
  match t with
  | Meta m =>
    match zget (pb_metas pb) (m_index m) with
    | Some r => Ok (tr_class r, h, pb)
    | None =>
      let '(c, h) := make_class h in
      let '(c, pb) := add_record h pb (meta_rec m c) in
      Ok (c, h, pb)
    end
  | Fun p _ args =>
    do (l, h, pb) <-
      (fix go (args : list term) (h : heap) (pb : problem) : out (list nat * heap * problem) :=
         match args with
         | [] => Ok ([], h, pb)
         | a :: r =>
           do (c, h, pb) <- get_class a h pb;
           do (l, h, pb) <- go r h pb;
           Ok (c :: l, h, pb)
         end) args h pb;
    let '(c, h) := make_class h in
    let r := fun_rec p l c in
    do found <- first_congruent h r (match zget (pb_funs pb) (tr_index r) with Some l => l | None => [] end);
    match found with
    | Some u => Ok (tr_class u, h, pb)
    | None => let '(c, pb) := add_record h pb r in Ok (c, h, pb)
    end
  | TId _ | Var _ _ => Crash
  end.
(** Glob/list.go:265-276 AppendIfNotContains on records *)
Definition tr_add (l : list trec) (t : trec) : list trec := if existsb (fun u => tr_eqb u t) l then l else l ++ [t].
(** 155-186 mergeEquivalenceClasses *)
Fixpoint merge_classes (fuel : nat) (h : heap) (pb : problem) (c1 c2 : nat) : out (heap * problem) :=
  match fuel with
  | O => Out
  | S fuel =>
    if congruent h c1 c2 then Ok (h, pb) else
    let m := root h c1 in
    let d := root h c2 in
    let h := union h c1 c2 in
    let '(m, d) := if Nat.eqb (root h c1) m then (m, d) else (d, m) in
    match nget (pb_part pb) m, nget (pb_part pb) d, nget (pb_super pb) m, nget (pb_super pb) d with
    | Some pm, Some pd, Some sm, Some sd =>
      let pb := mkPb (pb_goals pb) (pb_funs pb) (pb_metas pb)
                  (ndel (nset (pb_part pb) m (pm ++ pd)) d) (ndel (nset (pb_super pb) m (fold_left tr_add sd sm)) d) in
      match nget (pb_super pb) m with
      | None => Crash
      | Some l3 =>
        fold_left (fun st t3 =>
          do (h, pb) <- st;
          match nget (pb_super pb) m with
          | None => Crash
          | Some l4 =>
            fold_left (fun st t4 =>
              do (h, pb) <- st;
              if congruent h (tr_class t3) (tr_class t4) then Ok (h, pb) else
              do b <- tr_congruent h t3 t4;
              if b then merge_classes fuel h pb (tr_class t3) (tr_class t4) else Ok (h, pb)) l4 (Ok (h, pb))
          end) l3 (Ok (h, pb))
      end
    | _, _, _, _ => Crash
    end
  end.
(** 188-190 AddAssumption *)
Definition add_assumption (e : term * term) (h : heap) (pb : problem) : out (heap * problem) :=
  do (c1, h, pb) <- get_class (fst e) h pb;
  do (c2, h, pb) <- get_class (snd e) h pb;
  merge_classes (S (List.length h)) h pb c1 c2.
(** 192-200 AddGoal; Glob/pair.go:80-86, termrep.go:68-74: pairs of classes are compared by the ids *)
Definition pair_eqb (a b : nat * nat) : bool := Nat.eqb (fst a) (fst b) && Nat.eqb (snd a) (snd b).
Fixpoint goal_pairs (g : list (term * term)) (acc : list (nat * nat)) (h : heap) (pb : problem) : out (list (nat * nat) * heap * problem) :=
  match g with
  | [] => Ok (acc, h, pb)
  | e :: r =>
    do (c1, h, pb) <- get_class (fst e) h pb;
    do (c2, h, pb) <- get_class (snd e) h pb;
    goal_pairs r (if existsb (pair_eqb (c1, c2)) acc then acc else acc ++ [(c1, c2)]) h pb
  end.
Definition add_goal (g : list (term * term)) (h : heap) (pb : problem) : out (heap * problem) :=
  do (l, h, pb) <- goal_pairs g [] h pb;
  Ok (h, if existsb (list_eqb pair_eqb l) (pb_goals pb) then pb
         else mkPb (pb_goals pb ++ [l]) (pb_funs pb) (pb_metas pb) (pb_part pb) (pb_super pb)).
(** equality_rules_reasoning.go:126-138: the assumptions, then the goals *)
Fixpoint add_assumptions (l : list (term * term)) (h : heap) (pb : problem) : out (heap * problem) :=
  match l with
  | [] => Ok (h, pb)
  | e :: r => do (h, pb) <- add_assumption e h pb; add_assumptions r h pb
  end.
Fixpoint add_goals (l : list (list (term * term))) (h : heap) (pb : problem) : out (heap * problem) :=
  match l with
  | [] => Ok (h, pb)
  | g :: r => do (h, pb) <- add_goal g h pb; add_goals r h pb
  end.
Definition load (es : list (term * term)) (gs : list (list (term * term))) (h : heap) (pb : problem) : out (heap * problem) :=
  do (h, pb) <- add_assumptions es h pb; add_goals gs h pb.
(** 202-218 isTrivialGoal, HasTrivialGoals *)
Definition trivial_goal (h : heap) (g : list (nat * nat)) : bool := forallb (fun p => congruent h (fst p) (snd p)) g.
Definition has_trivial (h : heap) (pb : problem) : bool := existsb (trivial_goal h) (pb_goals pb).
(** 220-222 IsGround *)
Definition is_ground (pb : problem) : bool := match pb_metas pb with [] => true | _ => false end.

(** ** The clauses: satbuilder.go, satbuilder_mappings.go *)
(** the keys of the mappings *)
Inductive var : Type :=
| VS (t c : nat) | VE (i a b : nat) | VR (c t : nat) | VO (a b : nat) | VC (i : nat) | VPhi (i a b : nat) | VPsi (i a b : nat)
| VF (i t u : nat) | VT (i a b c : nat).
Definition lit : Type := bool * var.
Definition pos (v : var) : lit := (true, v).
Definition neg (v : var) : lit := (false, v).
(** termrep.go:53-58 makeUnorderedPair, with 80-82 CompareTo of classes and 177-187 of records *)
Definition unordered (a b : nat) : nat * nat := if a <? b then (a, b) else (b, a).
Definition unordered_recs (t u : trec) : nat * nat :=
  let less := if Bool.eqb (tr_is_meta t) (tr_is_meta u) then (tr_index t <? tr_index u)%Z else tr_is_meta t in
  if less then (tr_class t, tr_class u) else (tr_class u, tr_class t).
Section Clauses.
Variable h : heap.
Variable pb : problem.
(** satbuilder_mappings.go:57-126 *)
Definition s_var (t : trec) (c : nat) : var := VS (tr_class t) (root h c).
Definition e_var (i a b : nat) : var := let '(a, b) := unordered (root h a) (root h b) in VE i a b.
Definition r_var (c : nat) (t : trec) : var := VR (root h c) (tr_class t).
Definition o_var (a b : nat) : var := VO (root h a) (root h b).
Definition phi_var (i a b : nat) : var := let '(a, b) := unordered (root h a) (root h b) in VPhi i a b.
Definition psi_var (i a b : nat) : var := let '(a, b) := unordered (root h a) (root h b) in VPsi i a b.
Definition f_var (i : nat) (t u : trec) : var := let '(a, b) := unordered_recs t u in VF i a b.
Definition t_var (i a b c : nat) : var := let '(a, b) := unordered (root h a) (root h b) in VT i a b (root h c).

(** the pairs of the loops [for i ... for j := i + 1 ...] *)
Fixpoint upairs (l : list nat) : list (nat * nat) :=
  match l with
  | [] => []
  | a :: r => map (pair a) r ++ upairs r
  end.
(** 79-80: n (n - 1) / 2 *)
Definition number_of_pairs : nat := List.length (upairs (classes pb)).
(** 88-96 addClause: a clause without literals is not added *)
Definition clause (l : list lit) : list (list lit) := match l with [] => [] | _ => [l] end.
Fixpoint concat_out {A B} (f : A -> out (list B)) (l : list A) : out (list B) :=
  match l with
  | [] => Ok []
  | a :: r => do x <- f a; do y <- concat_out f r; Ok (x ++ y)
  end.
(** 113-123 buildMappingConstraints *)
Definition mapping_clauses : list (list lit) :=
  flat_map (fun x => flat_map (fun p => clause [neg (s_var x (fst p)); neg (s_var x (snd p))]) (upairs (classes pb))) (meta_recs pb).
(** 125-151 buildSubsConstraints, subsConstraint *)
Definition subs_clause (a b : nat) : out (list (list lit)) :=
  do la <- in_class h pb a;
  do lb <- in_class h pb b;
  Ok (clause (neg (e_var 0 a b) :: map (fun t => pos (s_var t b)) (filter tr_is_meta la) ++ map (fun t => pos (s_var t a)) (filter tr_is_meta lb))).
Definition subs_clauses : out (list (list lit)) := concat_out (fun p => subs_clause (fst p) (snd p)) (upairs (classes pb)).
(** 175-193 the constraint of phi *)
Definition phi_clauses (i a b : nat) : list (list lit) :=
  let cs := filter (fun c => negb (congruent h c a) && negb (congruent h c b)) (classes pb) in
  flat_map (fun c => clause [neg (t_var i a b c); pos (e_var i a c)] ++ clause [neg (t_var i a b c); pos (e_var i c b)]) cs ++
  clause (neg (phi_var i a b) :: map (fun c => pos (t_var i a b c)) cs).
(** 195-220 the constraint of psi.  [only] is the test that the second record is in the class [b], which the code does not make *)
Fixpoint args_clauses (i : nat) (f : lit) (l1 l2 : list nat) : out (list (list lit)) :=
  match l1, l2 with
  | [], _ => Ok []
  | _, [] => Crash
  | a :: r1, b :: r2 => do r <- args_clauses i f r1 r2; Ok (clause [f; pos (e_var i a b)] ++ r)
  end.
Definition psi_pairs (only : bool) (a b : nat) : out (list (trec * trec)) :=
  do la <- in_class h pb a;
  concat_out (fun t =>
    if tr_is_meta t then Ok [] else
    match tr_args t with
    | [] => Ok []
    | _ => do us <- with_symbol pb (tr_index t);
           Ok (map (pair t) (filter (fun u => negb (congruent h (tr_class t) (tr_class u)) &&
                                              (negb only || congruent h (tr_class u) b)) us))
    end) la.
Definition psi_clauses (only : bool) (i a b : nat) : out (list (list lit)) :=
  do ps <- psi_pairs only a b;
  do cs <- concat_out (fun p => args_clauses i (neg (f_var i (fst p) (snd p))) (tr_args (fst p)) (tr_args (snd p))) ps;
  Ok (cs ++ clause (neg (psi_var i a b) :: map (fun p => pos (f_var i (fst p) (snd p))) ps)).
(** 153-173 buildEConstraints *)
Definition e_clauses (only : bool) : out (list (list lit)) :=
  concat_out (fun i =>
    concat_out (fun p =>
      let '(a, b) := p in
      if congruent h a b then Ok [] else
      do ps <- psi_clauses only i a b;
      Ok (clause [neg (e_var (S i) a b); pos (e_var i a b); pos (phi_var i a b); pos (psi_var i a b)] ++ phi_clauses i a b ++ ps))
      (upairs (classes pb))) (seq 0 number_of_pairs).
(** 222-235 buildGoalConstraints *)
Definition goal_clauses : list (list lit) :=
  let gs := combine (seq 0 (List.length (pb_goals pb))) (pb_goals pb) in
  flat_map (fun g => flat_map (fun p => clause [neg (VC (fst g)); pos (e_var number_of_pairs (fst p) (snd p))]) (snd g)) gs ++
  clause (map (fun g => pos (VC (fst g))) gs).
(** 237-247 buildRepresentedConstraint *)
Definition represented_clauses : out (list (list lit)) :=
  concat_out (fun c => do l <- in_class h pb c; Ok (clause (map (fun t => pos (r_var c t)) l))) (classes pb).
(** 249-263 buildSubtermRelationConstraints *)
Definition subterm_clauses : out (list (list lit)) :=
  concat_out (fun c =>
    do l <- in_class h pb c;
    Ok (flat_map (fun t => if tr_is_meta t then [] else
                           flat_map (fun a => clause [neg (r_var c t); pos (o_var a c)]) (tr_args t)) l)) (classes pb).
(** 265-278 buildTransitivityConstraints *)
Definition transitivity_clauses : list (list lit) :=
  flat_map (fun i => flat_map (fun j =>
    if congruent h i j then [] else
    flat_map (fun k => if congruent h j k then [] else
      clause [neg (o_var j i); neg (o_var k j); pos (o_var k i)]) (classes pb)) (classes pb)) (classes pb).
(** 280-296 buildSubstitutionConstraints *)
Definition substitution_clauses : list (list lit) :=
  flat_map (fun x => flat_map (fun i =>
    if congruent h i (tr_class x) then [] else
    flat_map (fun k =>
      let j := tr_class x in
      clause [neg (s_var x i); neg (r_var j x); neg (o_var k i); pos (o_var k j)] ++
      clause [neg (s_var x i); neg (r_var j x); neg (o_var j k); pos (o_var i k)]) (classes pb)) (classes pb)) (meta_recs pb).
(** 298-302 buildAcyclicityConstraints *)
Definition acyclicity_clauses : list (list lit) := flat_map (fun c => clause [neg (o_var c c)]) (classes pb).
(** 60-86, 98-111 buildSAT *)
Definition all_clauses (only : bool) : out (list (list lit)) :=
  do a <- subs_clauses;
  do b <- e_clauses only;
  do c <- represented_clauses;
  do d <- subterm_clauses;
  Ok (mapping_clauses ++ a ++ b ++ goal_clauses ++ c ++ d ++ transitivity_clauses ++ substitution_clauses ++ acyclicity_clauses).

(** ** The substitution: subsgatherer.go *)
Section Gather.
Variable truth : var -> bool.
(** 60-75 getTranslation: when several terms represent a class, one of them *)
Variable choice : list trec -> option trec.
(** 48-58 getSubstitution: the mapping has a key for each metavariable and class as soon as there are two classes *)
Definition bindings : list (trec * nat) :=
  match classes pb with
  | [] | [_] => []
  | _ => filter (fun b => truth (s_var (fst b) (snd b))) (flat_map (fun x => map (pair x) (classes pb)) (meta_recs pb))
  end.
Definition translation (c : nat) : out trec :=
  do l <- in_class h pb c;
  match choice (filter (fun t => truth (r_var c t)) l) with Some t => Ok t | None => Crash end.
(** 77-88 translate: the types are those of the record, which has none *)
Fixpoint translate (fuel : nat) (c : nat) : out term :=
  match fuel with
  | O => Out
  | S fuel =>
    do t <- translation c;
    match tr_meta t with
    | Some m => Ok (Meta m)
    | None =>
      do args <- (fix go (l : list nat) : out (list term) :=
                    match l with
                    | [] => Ok []
                    | a :: r => do x <- translate fuel a; do y <- go r; Ok (x :: y)
                    end) (tr_args t);
      Ok (Fun (tr_sym t) [] args)
    end
  end.
(** 90-100 translateSub *)
Fixpoint translate_sub (l : list (trec * nat)) (s : substs) : out substs :=
  match l with
  | [] => Ok s
  | (x, c) :: r =>
    do t <- translate (S (List.length (classes pb))) c;
    match tr_meta x with
    | Some m => translate_sub r (sset s m t)
    | None => Crash
    end
  end.
Definition gather : out substs := translate_sub bindings [].
End Gather.
End Clauses.
(** problem.go:224-262 Solve, findSolution, solve *)
Definition solve (sat : list (list lit) -> option (var -> bool)) (choice : list trec -> option trec) (h : heap) (pb : problem)
  : out (option (list substs)) :=
  if has_trivial h pb then Ok (Some [[]]) else
  if is_ground pb then Ok None else
  do cs <- all_clauses h pb false;
  match sat cs with
  | None => Ok None
  | Some truth => do s <- gather h pb truth choice; Ok (Some [s])
  end.
(** equality_rules_reasoning.go:125-143 RunEqualityReasoning *)
Definition reason sat choice (es : list (term * term)) (gs : list (list (term * term))) (h : heap) (pb : problem)
  : out (option (list substs) * heap * problem) :=
  do (h, pb) <- load es gs h pb;
  do r <- solve sat choice h pb;
  Ok (r, h, pb).
