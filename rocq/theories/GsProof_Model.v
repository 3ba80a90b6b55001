(** Model of the translation of a tableau proof into a GS3 sequent proof: Mods/gs3/proof.go and Mods/gs3/sequent.go.

    The tableau proof is the list of steps recorded by the search (Search/proof.go); the translation emits sequents one
    below the other, and reorders the rules when a Skolem term is used before the rule that introduces it.

    The Go code builds a tree of pointers. Here the tree under construction (subRoot, called parent in makeProofOneStep) is
    a value, and the pointer lastNode is a [cursor]: nil, a sequent of the tree given by its path, or a sequent that is not
    in the tree (makeProofOneStep:210-221 makes a weakening the last node without putting it into an empty parent; what is
    added below it is lost unless it becomes the root itself). Sequents are completed before they are put into the tree
    (Go fills formsGenerated and proof just after): nothing reads the tree in between.

    A nil term is [None]. An index out of range, a nil dereference, Glob.Anomaly and panic are [Crash]. The recursion of
    makeProof through applyRulesBack has no measure: it has fuel, and [Out] is out of fuel. Debug output, warnings and
    ToString are left out. Copies of formulas are the formulas. *)
From Coq Require Import ZArith List Bool String.
From Verif Require Import Ast_Model Unif_Model GsTerm_Model.
Import ListNotations.
Open Scope list_scope.
Open Scope Z_scope.

(** sequent.go:55-77 *)
Inductive rule : Type := AX | W | NOT | IMP | AND | OR | EQU | EX | ALL | NNOT | NIMP | NAND | NOR | NEQU | NEX | NALL | R | REWRITE.
Definition rule_eq_dec (a b : rule) : {a = b} + {a <> b}.
Proof. decide equality. Defined.
Definition rule_eqb (a b : rule) : bool := if rule_eq_dec a b then true else false.
(** sequent.go:86-100 *)
Definition is_gamma (r : rule) : bool := match r with ALL | NEX => true | _ => false end.
Definition is_delta (r : rule) : bool := match r with NALL | EX => true | _ => false end.
Definition is_beta (r : rule) : bool := match r with NAND | NEQU | IMP | EQU | OR => true | _ => false end.
Definition is_alpha (r : rule) : bool := match r with AND | NOR | NIMP | NNOT => true | _ => false end.

(** Search/proof.go:57-65 ProofStruct; the terms kept beside the formulas and the field Rule are not read here *)
Inductive pstep : Type :=
  PS (form0 : form) (dmt : Z) (node : Z) (name : string) (results : list (list form)) (children : list (list pstep)).
Definition ps_form (p : pstep) : form := let '(PS f _ _ _ _ _) := p in f.
Definition ps_dmt (p : pstep) : Z := let '(PS _ d _ _ _ _) := p in d.
Definition ps_node (p : pstep) : Z := let '(PS _ _ i _ _ _) := p in i.
Definition ps_name (p : pstep) : string := let '(PS _ _ _ s _ _) := p in s.
Definition ps_results (p : pstep) : list (list form) := let '(PS _ _ _ _ r _) := p in r.
Definition ps_children (p : pstep) : list (list pstep) := let '(PS _ _ _ _ _ c) := p in c.

(** sequent.go:259-280 proofStructRuleToGS3Rule: a name that is not in the map gives the zero value *)
Definition names : list (string * rule) :=
  [("ALPHA_NOT_NOT", NNOT); ("ALPHA_NOT_OR", NOR); ("ALPHA_NOT_IMPLY", NIMP); ("ALPHA_AND", AND); ("BETA_NOT_AND", NAND);
   ("BETA_NOT_EQUIV", NEQU); ("BETA_OR", OR); ("BETA_IMPLY", IMP); ("BETA_EQUIV", EQU); ("GAMMA_NOT_EXISTS", NEX);
   ("GAMMA_FORALL", ALL); ("DELTA_NOT_FORALL", NALL); ("DELTA_EXISTS", EX); ("CLOSURE", AX); ("WEAKEN", W);
   ("Reintroduction", R); ("Rewrite", REWRITE)]%string.
Definition rule_of_name (s : string) : rule :=
  match find (fun p => String.eqb (fst p) s) names with Some p => snd p | None => AX end.
(** sequent.go:281-301 ruleToTableauxString *)
Definition name_of_rule (r : rule) : string :=
  match r with
  | NNOT => "ALPHA_NOT_NOT" | NOR => "ALPHA_NOT_OR" | NIMP => "ALPHA_NOT_IMPLY" | AND => "ALPHA_AND" | NAND => "BETA_NOT_AND"
  | NEQU => "BETA_NOT_EQUIV" | OR => "BETA_OR" | IMP => "BETA_IMPLY" | EQU => "BETA_EQUIV" | NEX => "GAMMA_NOT_EXISTS"
  | ALL => "GAMMA_FORALL" | NALL => "DELTA_NOT_FORALL" | EX => "DELTA_EXISTS" | AX => "CLOSURE" | W => "WEAKEN"
  | REWRITE => "REWRITE" | NOT | R => ""
  end%string.
Definition ps_rule (p : pstep) : rule := rule_of_name (ps_name p).

(** proof.go:51 dependencyMap *)
Definition deps := list (option term * list form).
(** x.Equals(y) where x is known not to be nil *)
Definition eq_opt (x : term) (y : option term) : bool := match y with Some y => term_eqb x y | None => false end.
Definition key_is (t : option term) (v : option term * list form) : bool :=
  match fst v with Some k => eq_opt k t | None => false end.
(** proof.go:53-62 Copy *)
Definition deps_copy (d : deps) : deps := filter (fun v => match fst v with Some _ => true | None => false end) d.
(** proof.go:64-71 Get *)
Definition deps_get (d : deps) (t : option term) : option (list form) := option_map snd (find (key_is t) d).
(** proof.go:73-87 Add, with one formula *)
Fixpoint deps_upd (d : deps) (t : option term) (fl : list form) : deps * bool :=
  match d with
  | [] => ([], false)
  | v :: r =>
    if key_is t v then let fl := fl ++ snd v in let '(r, _) := deps_upd r t fl in ((t, fl) :: r, true)
    else let '(r, b) := deps_upd r t fl in (v :: r, b)
  end.
Definition deps_add (d : deps) (t : option term) (f : form) : deps :=
  let '(d', found) := deps_upd d t [f] in if found then d' else d' ++ [(t, [f])].
(** proof.go:89-95 Set *)
Definition deps_set (d : deps) (t : option term) (fl : list form) : deps :=
  map (fun v => if key_is t v then (t, fl) else v) d.

(** proof.go:98-105 GS3Proof without lastNode, which the copies kept in the sequents have at nil *)
Record gs : Type := mkGs {
  dep : deps; branch : list form; applied : list (rule * pstep); beta_h : list (nat * Z);
  delta_h : list (option term * (form * Z)) }.
Definition gs_zero : gs := mkGs [] [] [] [] [].
(** proof.go:129-138 Copy *)
Definition gs_copy (g : gs) : gs := mkGs (deps_copy (dep g)) (branch g) (applied g) (beta_h g) (delta_h g).

(** sequent.go:43-53 GS3Sequent *)
Inductive sequent : Type :=
  Seq (hyps : list form) (r : rule) (on : nat) (rew : nat) (gen : option term) (forms : list (list form))
      (kids : list sequent) (pf : gs) (id : Z).
Definition s_hyps (s : sequent) : list form := let '(Seq h _ _ _ _ _ _ _ _) := s in h.
Definition s_rule (s : sequent) : rule := let '(Seq _ r _ _ _ _ _ _ _) := s in r.
Definition s_on (s : sequent) : nat := let '(Seq _ _ o _ _ _ _ _ _) := s in o.
Definition s_term (s : sequent) : option term := let '(Seq _ _ _ _ t _ _ _ _) := s in t.
Definition s_forms (s : sequent) : list (list form) := let '(Seq _ _ _ _ _ f _ _ _) := s in f.
Definition s_kids (s : sequent) : list sequent := let '(Seq _ _ _ _ _ _ k _ _) := s in k.
Definition s_proof (s : sequent) : gs := let '(Seq _ _ _ _ _ _ _ p _) := s in p.
Definition s_id (s : sequent) : Z := let '(Seq _ _ _ _ _ _ _ _ i) := s in i.
(** sequent.go:79-84 MakeNewSequent; 140-142 IsEmpty *)
Definition seq_new : sequent := Seq [] AX 0 0 None [] [] gs_zero 0.
Definition is_empty (s : sequent) : bool := match s_hyps s with [] => true | _ => false end.

(** Lib/list.go:243-255 ListIndexOf *)
Fixpoint index_of (x : form) (l : list form) : option nat :=
  match l with [] => None | y :: r => if form_eqb x y then Some 0%nat else option_map S (index_of x r) end.
(** Lib/list.go:257-265 RemoveAt *)
Fixpoint remove_at {A} (i : nat) (l : list A) : list A :=
  match l, i with [], _ => [] | _ :: r, O => r | x :: r, S i => x :: remove_at i r end.
(** Lib/list.go:192-195 ListMem *)
Definition mem (x : form) (l : list form) : bool := existsb (fun y => form_eqb x y) l.

(** GetSubTerms: AST/termsDef.go:80, 238-247, 284, 351; AST/formsDef.go:231-239, 352-360, 508-512, 623-627, 686-688,
    947-956, 1020, 1048; AST/quantifiers.go:109-111. The duplicates are not removed: the list is only searched. *)
Fixpoint subs (t : term) : list term :=
  match t with Fun _ _ args => t :: flat_map subs args | _ => [t] end.
Fixpoint form_subs (f : form) : list term :=
  match f with
  | All _ _ g | Ex _ _ g | Not _ g => form_subs g
  | Or _ fs | And _ fs => flat_map form_subs fs
  | Equ _ a b | Imp _ a b => form_subs a ++ form_subs b
  | Pred _ _ _ args => flat_map subs args
  | Top _ | Bot _ => []
  end.
(** Lib/list.go:183-190 Contains with AST/term.go:84-86 TermEquals: the term searched for is the receiver of Equals *)
Definition contains (t : option term) (l : list term) : out bool :=
  match t, l with
  | Some t, _ => Ok (existsb (term_eqb t) l)
  | None, [] => Ok false
  | None, _ :: _ => Crash
  end.

(** strings.Contains *)
Fixpoint has_prefix (p s : string) : bool :=
  match p, s with
  | EmptyString, _ => true
  | String a p, String b s => Ascii.eqb a b && has_prefix p s
  | _, _ => false
  end.
Fixpoint str_contains (s p : string) : bool :=
  has_prefix p s || match s with EmptyString => false | String _ r => str_contains r p end.
(** proof.go:271-287 getDepFromTerm *)
Fixpoint dep_from (t : term) : list term :=
  match t with
  | Fun p _ args => if str_contains (id_name p) "sko" then [t] else flat_map dep_from args
  | _ => [t]
  end.
Definition dep_from_opt (t : option term) : list (option term) :=
  match t with Some t => map Some (dep_from t) | None => [None] end.

(** sequent.go:303-338 setRewrittenWith, getAtomic *)
Fixpoint strip_all (f : form) : form := match f with All _ _ g => strip_all g | _ => f end.
Definition is_pred (f : form) : bool := match f with Pred _ _ _ _ => true | _ => false end.
Definition get_atomic (f : form) : form :=
  match f with
  | Imp _ a b | Equ _ a b => if is_pred a then a else if is_pred b then b else f
  | _ => f
  end.
Fixpoint rewritten_with (id : Z) (l : list form) : out nat :=
  match l with
  | [] => Crash
  | h :: r => if form_index (get_atomic (strip_all h)) =? id then Ok 0%nat else do k <- rewritten_with id r; Ok (S k)
  end.

(** lastNode *)
Inductive cursor : Type := CNil | CAway | CAt (path : list nat).
(** sequent.go:215-217 addChild, at the end of a path *)
Fixpoint add_at (path : list nat) (c : sequent) (s : sequent) : out sequent :=
  let '(Seq h r o w t f kids p i) := s in
  match path with
  | [] => Ok (Seq h r o w t f (kids ++ [c]) p i)
  | k :: rest =>
    match nth_error kids k with
    | None => Crash
    | Some s' => do s' <- add_at rest c s'; Ok (Seq h r o w t f (firstn k kids ++ s' :: skipn (S k) kids) p i)
    end
  end.
(** the index that a sequent added at the end of a path will have *)
Fixpoint kids_at (path : list nat) (s : sequent) : nat :=
  match path with
  | [] => List.length (s_kids s)
  | k :: rest => match nth_error (s_kids s) k with Some s' => kids_at rest s' | None => 0 end
  end.
(** lastNode.addChild(c), then lastNode = c, when lastNode is not nil; just lastNode = c when it is. The tree is [parent]. *)
Definition below (c : sequent) (parent : sequent) (cur : cursor) : out (sequent * cursor) :=
  match cur with
  | CNil | CAway => Ok (parent, CAway)
  | CAt p => do s <- add_at p c parent; Ok (s, CAt (p ++ [kids_at p parent]))
  end.
(** the same after [if parent.IsEmpty() { *parent = *c; c = parent }]: proof.go:199-202, 262-265, 312-318, 341-347, 422-427.
    When parent is empty lastNode is nil or away, and nothing in the tree gets a child. *)
Definition emit (c : sequent) (parent : sequent) (cur : cursor) : out (sequent * cursor) :=
  if is_empty parent then Ok (c, CAt []) else below c parent cur.

Section Gs.
(** AST.EmptyPredEq (maker.go:64-70), an equality without arguments *)
Variable empty_eq : form.
(** Glob.IsPreInnerSko *)
Variable preinner : bool.

(** sequent.go:180-186 setHypotheses *)
Definition set_hyps (l : list form) : list form := l ++ [empty_eq].
(** sequent.go:192-209 setAppliedOn *)
Definition applied_on (f : form) (hyps : list form) : out nat :=
  match index_of f hyps with Some i => Ok i | None => Crash end.

(** proof.go:465-473 removeHypothesis *)
Definition remove_hyp (f : form) (l : list form) : list form :=
  match index_of f l with Some i => remove_at i l | None => l end.
(** proof.go:475-490 removeDependency: the result of RemoveAt is dropped, so what is written back is what was read *)
Definition remove_dependency (d : deps) : deps :=
  fold_left (fun d v =>
    match fst v with
    | Some _ => deps_set d (fst v) (match deps_get d (fst v) with Some l => l | None => [] end)
    | None => d
    end) d d.
(** proof.go:492-499 removeRuleAppliedOn *)
Fixpoint remove_rule (f : form) (l : list (rule * pstep)) : list (rule * pstep) :=
  match l with [] => [] | r :: t => if form_eqb (ps_form (snd r)) f then t else r :: remove_rule f t end.
(** proof.go:434-447 weakenForm *)
Definition weaken_form (g : gs) (f : form) : out (sequent * gs) :=
  let h := set_hyps (branch g) in
  do i <- applied_on f h;
  let g := mkGs (remove_dependency (dep g)) (remove_hyp f (branch g)) (remove_rule f (applied g)) (beta_h g) (delta_h g) in
  Ok (Seq h W i 0 None [] [] (gs_copy g) 0, g).
(** proof.go:418-432 weakenForms *)
Fixpoint weaken_forms (g : gs) (fs : list form) (parent : sequent) (cur : cursor) : out (gs * sequent * cursor) :=
  match fs with
  | [] => Ok (g, parent, cur)
  | f :: r =>
    do (s, g) <- weaken_form g f;
    do (parent, cur) <- emit s parent cur;
    weaken_forms g r parent cur
  end.
(** proof.go:693-699 removeFromDeltaHisto: the loop goes on over the array [b] and its length at the start, while the slice
    (the first [len] cells) is shortened by moving the cells of the array; [i+1:] past the end of the slice panics *)
Definition histo_is (t : option term) (p : option term * (form * Z)) : bool :=
  match fst p with Some k => eq_opt k t | None => false end.
Fixpoint remove_loop (n : nat) (i : nat) (t : option term) (b : list (option term * (form * Z))) (len : nat)
    : out (list (option term * (form * Z))) :=
  match n with
  | O => Ok (firstn len b)
  | S n =>
    match nth_error b i with
    | None => Crash
    | Some p =>
      if histo_is t p then
        if (S i <=? len)%nat then
          remove_loop n (S i) t (firstn i b ++ firstn (len - S i) (skipn (S i) b) ++ skipn (len - 1) b) (len - 1)
        else Crash
      else remove_loop n (S i) t b len
    end
  end.
Definition remove_histo (t : option term) (l : list (option term * (form * Z))) : out (list (option term * (form * Z))) :=
  remove_loop (List.length l) 0 t l (List.length l).
(** proof.go:449-463 weakenTerm, without the change of lastNode *)
Definition weaken_term (g : gs) (t : option term) : out (sequent * gs) :=
  let h := set_hyps (branch g) in
  do dh <- remove_histo t (delta_h g);
  let g := mkGs (dep g) (branch g) (applied g) (beta_h g) dh in
  Ok (Seq h W 0 0 t [] [] (gs_copy g) 0, g).
(** proof.go:376-388 makeProofStructFrom *)
Definition step_from (f nf : form) (r : rule) : pstep := PS f (-1) (-1) (name_of_rule r) [[nf]] [].
(** proof.go:501-516 applyDeltaRule *)
Definition apply_delta_rule (g : gs) (f res : form) (r : rule) (t : option term) (node : Z) : out (sequent * gs) :=
  let h := set_hyps (branch g) in
  do i <- applied_on f h;
  let g := mkGs (dep g) (branch g ++ [res]) (applied g ++ [(r, step_from f res r)]) (beta_h g) (delta_h g ++ [(t, (res, node))]) in
  Ok (Seq h r i 0 t [[res]] [] (gs_copy g) 0, g).

(** proof.go:563-570 getCurrentBranchChildId, 649-656 findInBetaHist *)
Definition in_beta (g : gs) (id : Z) : option nat := option_map fst (find (fun p => snd p =? id) (beta_h g)).
(** proof.go:611-613 equalRulePair *)
Definition pair_eqb (a b : rule * pstep) : bool := rule_eqb (fst a) (fst b) && form_eqb (ps_form (snd a)) (ps_form (snd b)).
(** proof.go:590-597 getFirstRuleAppliedAfter; [None] is the zero pair, whose formula is nil and equal to no formula *)
Fixpoint first_after (l : list (rule * pstep)) (x : rule * pstep) : out (option (rule * pstep)) :=
  match l with
  | [] => Ok None
  | y :: r => if pair_eqb y x then match r with z :: _ => Ok (Some z) | [] => Crash end else first_after r x
  end.
(** proof.go:599-609 getIntersectionBetweenResultAndBranchForms *)
Definition in_branch (g : gs) (forms : list (list form)) : list form :=
  flat_map (filter (fun f => mem f (branch g))) forms.
(** proof.go:572-588 getFormsToWeaken *)
Definition forms_to_weaken (g : gs) (x : rule * pstep) : out (list form) :=
  do first <- first_after (applied g) x;
  match first with
  | None => Ok []
  | Some y =>
    Ok ((fix go (b : bool) (l : list (rule * pstep)) : list form :=
           match l with
           | [] => []
           | z :: r =>
             let b := b || pair_eqb z y in
             (if b && (negb preinner || negb (is_delta (fst y))) then in_branch g (ps_results (snd y)) else []) ++ go b r
           end) false (applied g))
  end.
(** proof.go:615-627 makeWeakeningProofStructs *)
Definition weakening_steps (fs : list form) : list pstep := map (fun f => PS f (-1) (-1) "WEAKEN" [] []) fs.
(** proof.go:537-552: the children of a branching rule *)
Fixpoint rebuild_children (cur : option nat) (rest : list pstep) (ws : out (list form)) (j : nat) (l : list (list pstep)) : out (list (list pstep)) :=
  match l with
  | [] => Ok []
  | c :: r =>
    do c <- (if match cur with Some k => Nat.eqb j k | None => false end then Ok rest else do fs <- ws; Ok (weakening_steps fs ++ c));
    do r <- rebuild_children cur rest ws (S j) r;
    Ok (c :: r)
  end.
(** proof.go:529-561 rebuildProof *)
Fixpoint rebuild (g : gs) (rules : list (rule * pstep)) : out (list pstep * list nat) :=
  match rules with
  | [] => Ok ([], [])
  | x :: rest =>
    if is_beta (fst x) then
      let '(PS f d i n rs cs) := snd x in
      let cur := in_beta g i in
      do (below, index) <-
        (match cur with
         | Some k => if (k <? List.length cs)%nat then do (p, l) <- rebuild g rest; Ok (p, k :: l) else Ok ([], [])
         | None => Ok ([], [])
         end);
      do cs <- rebuild_children cur below (forms_to_weaken g x) 0 cs;
      Ok ([PS f d i n rs cs], index)
    else
      do (p, l) <- rebuild g rest;
      Ok (snd x :: p, l)
  end.
(** proof.go:629-647 getLastSequent: the path to the sequent and the state kept in it *)
Fixpoint last_seq (g : gs) (s : sequent) (index : list nat) : out (list nat * gs) :=
  match s_kids s with
  | [] => Ok ([], s_proof s)
  | _ =>
    let under (k : nat) (index : list nat) :=
      match nth_error (map (last_seq g) (s_kids s)) k with
      | Some next => do (p, g') <- next index; Ok (k :: p, g')
      | None => Crash
      end in
    if is_beta (s_rule s) then
      match in_beta g (s_id s) with
      | Some k => under k index
      | None => match index with k :: index => under k index | [] => Crash end
      end
    else under 0%nat index
  end.

(** proof.go:682-691 findInDeltaHisto *)
Definition in_histo (g : gs) (t : option term) : option form := option_map (fun p => fst (snd p)) (find (histo_is t) (delta_h g)).
(** proof.go:719-729 termHasBeenIntroducedByBranch; p.Fst.Equals(term) with a nil p.Fst is a nil dereference *)
Fixpoint introduced_by_branch (l : list (option term * (form * Z))) (t : option term) (node : Z) : out bool :=
  match l with
  | [] => Ok true
  | (None, _) :: _ => Crash
  | (Some k, (_, n)) :: r => if eq_opt k t then Ok (n =? node) else introduced_by_branch r t node
  end.
(** proof.go:408-416 getOffspringsOf *)
Fixpoint offsprings (t : option term) (l : list form) : out (list form) :=
  match l with
  | [] => Ok []
  | f :: r => do b <- contains t (form_subs f); do fs <- offsprings t r; Ok (if b then f :: fs else fs)
  end.
(** proof.go:395-406 getRulesAppliedInOrder *)
Definition rules_in_order (g : gs) (dependant : list form) (delta_form : form) (off : list form) : list (rule * pstep) :=
  filter (fun x => let f := ps_form (snd x) in negb (form_eqb f delta_form) && (mem f off || mem f dependant)) (applied g).
(** proof.go:701-717 weakenAllFormsRelatedToTheTerm *)
Definition rules_of_forms (g : gs) (fs : list form) : list (rule * pstep) :=
  flat_map (fun f => filter (fun x => form_eqb (ps_form (snd x)) f) (applied g)) fs.

(** the first formula of the first list of results: index out of range otherwise *)
Definition first_result (p : pstep) : out form :=
  match ps_results p with (f :: _) :: _ => Ok f | _ => Crash end.

Section Step.
(** makeProof, one level of fuel down *)
Variable make : gs -> list pstep -> out sequent.

(** proof.go:518-527 applyRulesBack *)
Definition rules_back (g : gs) (rules : list (rule * pstep)) : out (sequent * list nat) :=
  do (p, index) <- rebuild g rules;
  do s <- make g p;
  Ok (s, index).
(** proof.go:323-326, 350-353: the rebuilt proof goes below the delta rule, and the rest goes below its last sequent *)
Definition go_back (g : gs) (rules : list (rule * pstep)) (parent : sequent) (cur : cursor) : out (gs * sequent * cursor) :=
  do (sub, index) <- rules_back g rules;
  do (parent, cur) <- match cur with CNil => Crash | _ => below sub parent cur end;
  do (p, g) <- last_seq g sub index;
  Ok (g, parent, match cur with CAt q => CAt (q ++ p) | c => c end).

(** proof.go:290-359 manageDeltaStep *)
Definition manage_delta (g : gs) (p : pstep) (r : rule) (parent : sequent) (cur : cursor) : out (gs * sequent * cursor) :=
  let origin := ps_form p in
  do result <- first_result p;
  do t <- delta_term origin result;
  do skip <- (if preinner then do b <- introduced_by_branch (delta_h g) t (ps_node p); Ok (negb b) else Ok false);
  if skip : bool then Ok (g, parent, cur)
  else
    let previous := applied g in
    let dependant := deps_get (dep g) t in
    do off <- offsprings t (branch g);
    let rules := rules_in_order g (match dependant with Some l => l | None => [] end) result off in
    do (previous, (g, parent, cur)) <-
      (match dependant, rules with
       | Some _, _ :: _ =>
         let again := in_histo g t in
         do (g, parent, cur) <- weaken_forms g (off ++ match again with Some f => [f] | None => [] end) parent cur;
         do (g, parent, cur) <-
           (match again with
            | Some _ => do (s, g) <- weaken_term g t; do (parent, cur) <- below s parent cur; Ok (g, parent, cur)
            | None => Ok (g, parent, cur)
            end);
         do (s, g) <- apply_delta_rule g origin result r t (ps_node p);
         do (parent, cur) <- match is_empty parent, cur with false, CNil => Crash | _, _ => emit s parent cur end;
         let g := mkGs (dep g) (branch g ++ [result]) (applied g) (beta_h g) (delta_h g) in
         do x <- go_back g rules parent cur;
         Ok (previous ++ [(r, step_from origin result r)], x)
       | _, _ =>
         let back := rules_of_forms g off in
         do (g, parent, cur) <- weaken_forms g off parent cur;
         do (g, parent, cur) <-
           (match in_histo g t with
            | Some _ => do (s, g) <- weaken_term g t; do (parent, cur) <- emit s parent cur; Ok (g, parent, cur)
            | None => Ok (g, parent, cur)
            end);
         do (s, g) <- apply_delta_rule g origin result r t (ps_node p);
         do (parent, cur) <- emit s parent cur;
         do x <- (match back with [] => Ok (g, parent, cur) | _ => go_back g back parent cur end);
         Ok (previous, x)
       end);
    Ok (mkGs (dep g) (branch g) previous (beta_h g) (delta_h g), parent, cur).

(** proof.go:361-374 postTreatment *)
Definition doubles (r : rule) : bool := match r with NOR | NIMP | AND | EQU => true | _ => false end.
Definition post_forms (r : rule) (results : list (list form)) : list (list form) :=
  map (fun fs => match fs with [f] => if doubles r then [f; f] else fs | _ => fs end) results.
(** proof.go:223-236 *)
Definition post (g : gs) (p : pstep) (r : rule) (forms : list (list form)) : out gs :=
  let g := mkGs (dep g) (branch g) (applied g ++ [(r, p)]) (beta_h g) (delta_h g) in
  if is_alpha r || is_gamma r || is_delta r || rule_eqb r REWRITE then
    match forms with
    | fs :: _ => Ok (mkGs (dep g) (branch g ++ fs) (applied g) (beta_h g) (delta_h g))
    | [] => Crash
    end
  else Ok g.

(** proof.go:182-241 makeProofOneStep, with 243-269 manageGammaStep *)
Definition one_step (g : gs) (p : pstep) (parent : sequent) (cur : cursor) : out (gs * sequent * cursor * list (list form)) :=
  let r := ps_rule p in
  let f := ps_form p in
  let forms := post_forms r (ps_results p) in
  let h := set_hyps (branch g) in
  match r with
  | NNOT | NOR | NIMP | AND | NAND | NEQU | OR | IMP | EQU | AX | REWRITE =>
    do i <- applied_on f h;
    do w <- (if rule_eqb r REWRITE then rewritten_with (ps_dmt p) h else Ok 0%nat);
    do g <- post g p r forms;
    do (parent, cur) <- emit (Seq h r i w None forms [] (gs_copy g) (ps_node p)) parent cur;
    Ok (g, parent, cur, forms)
  | ALL | NEX =>
    do result <- first_result p;
    do t <- gamma_term f result;
    let g := mkGs (fold_left (fun d k => deps_add d k f) (dep_from_opt t) (dep g)) (branch g) (applied g) (beta_h g) (delta_h g) in
    do i <- applied_on f h;
    do g <- post g p r forms;
    do (parent, cur) <- emit (Seq h r i 0 t forms [] (gs_copy g) 0) parent cur;
    Ok (g, parent, cur, forms)
  | NALL | EX =>
    do (g, parent, cur) <- manage_delta g p r parent cur;
    do g <- post g p r forms;
    Ok (g, parent, cur, forms)
  | W =>
    do (s, g) <- weaken_form g f;
    do g <- post g p r forms;
    let '(Seq h r i w t _ k _ n) := s in
    do (parent, cur) <- below (Seq h r i w t forms k (gs_copy g) n) parent cur;
    Ok (g, parent, cur, forms)
  | R | NOT =>
    (* NOT has no case and its sequent, which has hypotheses, would be added; no name is mapped to it *)
    do g <- post g p r forms;
    Ok (g, parent, cur, forms)
  end.

(** proof.go:157-160 *)
Fixpoint steps (g : gs) (ps : list pstep) (parent : sequent) (cur : cursor) (last : list (list form)) : out (gs * sequent * cursor * list (list form)) :=
  match ps with
  | [] => Ok (g, parent, cur, last)
  | p :: r =>
    do (g, parent, cur, forms) <- one_step g p parent cur;
    steps g r parent cur forms
  end.
(** proof.go:162-176; addChild without the change of lastNode *)
Fixpoint kids (g : gs) (node : Z) (i : nat) (cs : list (list pstep)) (forms : list (list form)) (parent : sequent) (cur : cursor) : out sequent :=
  match cs with
  | [] => Ok parent
  | c :: r =>
    match nth_error forms i with
    | None => Crash
    | Some fs =>
      let child := mkGs (deps_copy (dep g)) (branch g ++ fs) (applied g) (beta_h g ++ [(i, node)]) (delta_h g) in
      do s <- make child c;
      do parent <- (match cur with CNil => Crash | CAway => Ok parent | CAt p => add_at p s parent end);
      kids g node (S i) r forms parent cur
    end
  end.
End Step.

(** proof.go:145-179 makeProof *)
Fixpoint make_proof (n : nat) (g : gs) (proof : list pstep) : out sequent :=
  match n with
  | O => Out
  | S n =>
    match proof with
    | [] => Ok (Seq [] AX 0 0 None [] [] (gs_copy g) 0)
    | first :: _ =>
      let g := match branch g with [] => mkGs (dep g) [ps_form first] (applied g) (beta_h g) (delta_h g) | _ => g end in
      do (g, parent, cur, forms) <- steps (make_proof n) g proof seq_new CNil [];
      let final := List.last proof first in
      kids (make_proof n) g (ps_node final) 0 (ps_children final) forms parent cur
    end
  end.

(** proof.go:113-127 MakeGS3Proof; [axioms] are the registered axioms when dmt is loaded *)
Definition make_gs3 (n : nat) (axioms : option (list form)) (proof : list pstep) : out sequent :=
  match axioms with
  | None => make_proof n gs_zero proof
  | Some l =>
    match proof with
    | [] => Crash
    | p :: _ => make_proof n (mkGs [] (l ++ [ps_form p]) [] [] []) proof
    end
  end.
End Gs.
