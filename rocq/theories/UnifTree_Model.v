(** Model of the code trees: Unif/code-trees.go, Unif/parsing.go, Unif/matching.go.

    A tree is a value: the pointers between nodes are not modelled (Copy is deep, and the trees are handed over to
    InsertFormulaListToDataStructure, whose result replaces the tree).  Mutexes, debug messages and the indices given to
    the formulas are left out. *)
From Coq Require Import ZArith List Bool String Permutation.
From Verif Require Import Ast_Model Unif_Model.
Import ListNotations.
Open Scope list_scope.
Open Scope Z_scope.

(** ** What is indexed: AST.Pred and Unif.TermForm (parsing.go:40-43) *)
Inductive item : Type :=
| IPred (ix : Z) (p : ident) (tys : list ty) (args : list term)
| ITerm (ix : Z) (t : term).
(** formsDef.go:872-880, parsing.go:62-69 Equals *)
Definition item_eqb (a b : item) : bool :=
  match a, b with
  | IPred _ p1 t1 l1, IPred _ p2 t2 l2 => id_eqb p1 p2 && list_eqb ty_eqb t1 t2 && list_eqb term_eqb l1 l2
  | ITerm _ t1, ITerm _ t2 => term_eqb t1 t2
  | _, _ => false
  end.

(** ** Types as terms *)
Section Ids.
(** maker.go:90-99 MakerId: the identifier of a name *)
Variable name_id : string -> ident.
(** ty-syntax.go:134 ToTermMeta; MakeMeta(index, -1, name, formula, tType) *)
Definition term_meta (name : string) (index formula : Z) : meta := mkMeta index (-1) name formula tType.
(** ty-syntax.go:456-473 TyToTerm; [None] is the Anomaly *)
Fixpoint ty_to_term (t : ty) : option term :=
  match t with
  | TyMeta name index formula => Some (Meta (term_meta name index formula))
  | TyConstr s args =>
    option_map (Fun (name_id s) [])
      ((fix go (l : list ty) : option (list term) :=
          match l with
          | [] => Some []
          | a :: r => match ty_to_term a, go r with Some x, Some y => Some (x :: y) | _, _ => None end
          end) args)
  | _ => None
  end.
Fixpoint all_some {A} (l : list (option A)) : option (list A) :=
  match l with
  | [] => Some []
  | a :: r => match a, all_some r with Some x, Some y => Some (x :: y) | _, _ => None end
  end.
(** parsing.go:152-165 getFunctionalArguments; one argument gives none when it is neither a metavariable nor an application *)
Fixpoint fun_arg (t : term) : option (list term) :=
  match t with
  | Meta m => Some [t]
  | Fun p tys args =>
    match all_some (map ty_to_term tys), all_some (map fun_arg args) with
    | Some a, Some b => Some [Fun p [] (a ++ List.concat b)]
    | _, _ => None
    end
  | _ => Some []
  end.
Definition functional_args (tys : list ty) (args : list term) : option (list term) :=
  match all_some (map ty_to_term tys), all_some (map fun_arg args) with
  | Some a, Some b => Some (a ++ List.concat b)
  | _, _ => None
  end.

(** parsing.go:118-135, 167-184 on a predicate, 136-149 on a term *)
Definition parse_item (f : item) : option (list instr) :=
  match f with
  | IPred _ p tys args =>
    option_map (fun l => Begin :: Check p ::
        (if nonempty tys || nonempty args then Begin :: Down :: fst (parse_list l [] 0) ++ [End None] else []) ++ [End None])
      (functional_args tys args)
  | ITerm _ t => Some (parse_term_form t)
  end.
(** substitutions_tree.go:62-75 the metavariables of the indexed formula *)
Definition item_metas (f : item) : option (list meta) :=
  match f with
  | IPred _ p tys args => option_map (flat_map meta_list) (functional_args tys args)
  | ITerm _ t => Some (meta_list t)
  end.
(** matching.go:70-94 the term run against the tree *)
Definition query_term (f : item) : option term :=
  match f with
  | IPred _ p tys args => option_map (Fun p []) (functional_args tys args)
  | ITerm _ t => Some t
  end.
End Ids.

(** ** Trees: code-trees.go:56-61 *)
Inductive node : Type := Node (value : list instr) (children : list node) (forms : list item).

(** instruction.go:98-125 IsEquivalent.  End is compared by reflect.DeepEqual: a Fun holds a cache with a function
    (termsDef.go:113-118, Lib/cache.go), and DeepEqual of two non-nil functions is false, so only End without term is
    equivalent to something. *)
Definition iequiv (i j : instr) : bool :=
  match i, j with
  | Begin, Begin | Right, Right | Down, Down | End None, End None => true
  | Check p, Check q => String.eqb (id_name p) (id_name q) && (id_index p =? id_index q)
  | Push i, Push j | Pop i, Pop j | Put i, Put j => Nat.eqb i j
  | Compare i j, Compare i' j' => Nat.eqb i i' && Nat.eqb j j'
  | _, _ => false
  end.

(** the instructions that the sequence and the code block have in common, what is left of the sequence, and of the block *)
Fixpoint walk (is value : list instr) : list instr * list instr * list instr :=
  match is, value with
  | i :: r, v :: w => if iequiv i v then let '(a, x, y) := walk r w in (v :: a, x, y) else ([], is, value)
  | _, _ => ([], is, value)
  end.
Definition starts_with (i : instr) (n : node) : bool :=
  match n with Node (v :: _) _ _ => iequiv i v | _ => false end.

(** code-trees.go:213-285 followInstructions.  The loop over the instructions of the sequence is [walk]; the loop over the
    children keeps the last one that starts with the next instruction, as there is no break.  An empty code block at a
    child would be an index out of range; it is never built. *)
Fixpoint follow (n : node) (is : list instr) (f : item) {struct n} : node :=
  match n with
  | Node value children forms =>
    match walk is value with
    | (a, [], []) => Node value children (if existsb (item_eqb f) forms then forms else forms ++ [f])
    | (a, i :: r, []) =>
      (* the children, the last match replaced *)
      let go := fix go (l : list node) : list node * bool :=
        match l with
        | [] => ([], false)
        | c :: l =>
          let '(l', found) := go l in
          if found then (c :: l', true)
          else if starts_with i c then (follow c (i :: r) f :: l', true) else (c :: l', false)
        end in
      let '(children', found) := go children in
      if found then Node value children' forms else Node value (children ++ [Node (i :: r) [] [f]]) forms
    | (a, i :: r, v :: w) => Node a [Node (v :: w) children forms; Node (i :: r) [] [f]] []
    | (a, [], [v]) => Node value children forms
    | (a, [], v :: w) => Node a [Node (v :: w) children []] [f]
    end
  end.
(** code-trees.go:203-210 insert *)
Definition insert (n : node) (is : list instr) (f : item) : node :=
  match n with
  | Node [] children forms => Node is children [f]
  | _ => follow n is f
  end.
(** code-trees.go:63-65, 148-155 *)
Definition empty_node : node := Node [] [] [].
Section Trees.
Variable name_id : string -> ident.
(** code-trees.go:127-138 makeCodeTree and 158-173; [None] is the Anomaly of TyToTerm *)
Fixpoint insert_all (fs : list item) (n : node) : option node :=
  match fs with
  | [] => Some n
  | f :: r => match parse_item name_id f with Some is => insert_all r (insert n is f) | None => None end
  end.
Definition make_tree (fs : list item) : option node := insert_all fs empty_node.
(** code-trees.go:100-125 makeCodeTreeFromAtomic on the formulas of the tableau *)
Definition atoms (is_pos : bool) (fs : list form) : list item :=
  flat_map (fun f => match f with
                     | Pred ix p tys args => if is_pos then [IPred ix p tys args] else []
                     | Not _ (Pred ix p tys args) => if is_pos then [] else [IPred ix p tys args]
                     | _ => []
                     end) fs.
(** code-trees.go:158-173 InsertFormulaListToDataStructure: positive and negative literals alike *)
Definition atoms_any (fs : list form) : list item :=
  flat_map (fun f => match f with
                     | Pred ix p tys args | Not _ (Pred ix p tys args) => [IPred ix p tys args]
                     | _ => []
                     end) fs.

(** ** Search: matching.go:103-240.  [add] is AddUnification, [comp] computeSubstitutions. *)
Variable add : term -> term -> substs -> out substs.
Variable comp : list (nat * term) -> list meta -> substs -> out substs.

(** matching.go:164-176 the formulas of a leaf *)
Fixpoint leaf_results (m : mach) (fs : list item) : out (list (item * substs)) :=
  match fs with
  | [] => Ok []
  | f :: r =>
    match item_metas name_id f with
    | None => Crash
    | Some mt =>
      do s <- comp (mc_subst m) mt (mc_meta m);
      do l <- leaf_results m r;
      Ok (if is_failure s then l else (f, s) :: l)
    end
  end.
(** matching.go:103-176 unifyAux.  The children are searched by goroutines that share nothing and send one answer each;
    here their answers are put together in the order of the children (see [found] below for the other orders). *)
Fixpoint search (n : node) (m : mach) {struct n} : out (list (item * substs)) :=
  match n with
  | Node value children forms =>
    match exec_all add value m with
    | Fail => Ok []
    | Crash => Crash
    | Out => Out
    | Ok m' =>
      do l1 <- leaf_results m' forms;
      do l2 <- (fix go (l : list node) : out (list (item * substs)) :=
                  match l with
                  | [] => Ok []
                  | c :: r => do x <- search c m'; do y <- go r; Ok (x ++ y)
                  end) children;
      Ok (l1 ++ l2)
    end
  end.
(** matching.go:195-240 launchChildrenSearch: the answers in their order of arrival, which is any order *)
Inductive found : node -> mach -> list (item * substs) -> Prop :=
| found_fail value children forms m : exec_all add value m = Fail -> found (Node value children forms) m []
| found_ok value children forms m m' l1 cs l2 : exec_all add value m = Ok m' ->
    leaf_results m' forms = Ok l1 ->
    Permutation children cs -> found_list cs m' l2 ->
    found (Node value children forms) m (l1 ++ l2)
with found_list : list node -> mach -> list (item * substs) -> Prop :=
| found_nil m : found_list [] m []
| found_cons c r m x y : found c m x -> found_list r m y -> found_list (c :: r) m (x ++ y).

(** matching.go:55-101 Unify, before the conversion into mixed substitutions *)
Definition unify_tree (n : node) (q : item) : out (list (item * substs)) :=
  match query_term name_id q with
  | None => Crash
  | Some t => search n (make_machine [t] [])
  end.
End Trees.
