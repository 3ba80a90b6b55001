(** The containers of src/Glob and the literals of the SAT solver: C111 to C117. *)
From Coq Require Import ZArith String List Bool Lia.
From Verif Require Import Ast_Model SatEq_Model SatEq_Spec SatLit_Model SatLit_Spec SatLit_Proofs Glob_Model Glob_Spec Glob_Proofs.
Import ListNotations.
Open Scope list_scope.
Open Scope nat_scope.

(** Equalities used in the examples: numbers, and numbers up to their last bit. *)
Lemma nat_equivalence : equivalence Nat.eqb.
Proof. split; intros *; rewrite ?PeanoNat.Nat.eqb_eq; congruence. Qed.
Definition half_eqb (x y : nat) : bool := Nat.eqb (Nat.div2 x) (Nat.div2 y).
Lemma half_equivalence : equivalence half_eqb.
Proof. split; unfold half_eqb; intros *; rewrite ?PeanoNat.Nat.eqb_eq; congruence. Qed.

(** C111: a map answers, for each key, the last value set; its keys are those that have one, each once *)
Theorem C111_map A B (eA : A -> A -> bool) (calls : list (map_call A B)) : equivalence eA -> let m := run_map eA calls in
  (forall k, m_get eA m k = expected eA calls k) /\
  distinct eA (fst m) /\ length (fst m) = length (snd m) /\ (forall k, appears eA k (fst m) <-> expected eA calls k <> None).
Proof. exact (fun H => map_spec eA H calls). Qed.
Print Assumptions C111_map.
(** Set answers the value it replaces *)
Theorem C111_old A B (eA : A -> A -> bool) (calls : list (map_call A B)) k v : equivalence eA ->
  snd (m_set eA (run_map eA calls) k v) = expected eA calls k.
Proof. exact (fun H => set_old eA H calls k v). Qed.
Print Assumptions C111_old.
(** CopyInto puts every value of the first map in the second *)
Theorem C111_copy A B (eA : A -> A -> bool) (calls calls' : list (map_call A B)) k : equivalence eA ->
  m_get eA (m_copy_into eA (run_map eA calls) (run_map eA calls')) k =
  match expected eA calls k with Some v => Some v | None => expected eA calls' k end.
Proof. exact (fun H => copy_into_spec eA H calls calls' k). Qed.
Print Assumptions C111_copy.
(** GetKey finds a key of the value when there is one *)
Theorem C111_key A B (eA : A -> A -> bool) (eB : B -> B -> bool) (calls : list (map_call A B)) v : equivalence eA ->
  match m_key eB (run_map eA calls) v with
  | Some k => exists w, expected eA calls k = Some w /\ eB w v = true
  | None => forall k w, expected eA calls k = Some w -> eB w v = false
  end.
Proof. exact (fun H => key_spec eA eB H calls v). Qed.
Print Assumptions C111_key.
Definition some_calls : list (map_call nat nat) := [CSet 2 10; CSet 4 11; CSet 3 12; CUnset 7; CSet 6 13; CUnset 4; CSet 8 13].
Example C111_case : equivalence half_eqb /\ run_map half_eqb some_calls = ([2; 6; 8], [12; 13; 13]) /\
  map (m_get half_eqb (run_map half_eqb some_calls)) [2; 3; 5; 9] = [Some 12; Some 12; None; Some 13] /\
  expected half_eqb some_calls 3 = Some 12 /\
  m_copy_into half_eqb (run_map half_eqb some_calls) ([9; 0], [1; 2]) = ([9; 0; 2; 6], [13; 2; 12; 13]) /\
  m_key Nat.eqb (run_map half_eqb some_calls) 13 = Some 6.
Proof. split; [exact half_equivalence|]. vm_compute. repeat split. Qed.

(** C112 is false: RemoveAll panics on two equal elements, and leaves one of two neighbours *)
Theorem C112_panic_refuted : exists x l, remove_all Nat.eqb x (new_list l) = None.
Proof. exists 1, [1; 1]. vm_compute. reflexivity. Qed.
Print Assumptions C112_panic_refuted.
Theorem C112_refuted : exists x l l', remove_all Nat.eqb x (new_list l) = Some l' /\ In x (l_vals l').
Proof. exists 1, [1; 1; 2]. eexists. vm_compute. split; [reflexivity | left; reflexivity]. Qed.
Print Assumptions C112_refuted.
(** it removes every occurrence when there is at most one, or when none are neighbours and the last element is not one *)
Theorem C112_partial A (e : A -> A -> bool) x s :
  occurrences e x s <= 1 \/ (apart e x s /\ forall d, s <> [] -> e (last s d) x = false) ->
  exists l', remove_all e x (new_list s) = Some l' /\ l_vals l' = others e x s.
Proof. exact (remove_all_right e x s). Qed.
Print Assumptions C112_partial.
(** whenever it ends, the other elements stay, in order *)
Theorem C112_others_partial A (e : A -> A -> bool) x s l' : remove_all e x (new_list s) = Some l' -> others e x (l_vals l') = others e x s.
Proof. exact (remove_all_others e x s l'). Qed.
Print Assumptions C112_others_partial.
Example C112_case : apart Nat.eqb 1 [1; 2; 1; 3; 4; 1; 5] /\ (forall d, [1; 2; 1; 3; 4; 1; 5] <> [] -> Nat.eqb (last [1; 2; 1; 3; 4; 1; 5] d) 1 = false) /\
  option_map l_vals (remove_all Nat.eqb 1 (new_list [1; 2; 1; 3; 4; 1; 5])) = Some [2; 3; 4; 5] /\
  occurrences Nat.eqb 1 [2; 3; 1] = 1 /\ option_map l_vals (remove_all Nat.eqb 1 (new_list [2; 3; 1])) = Some [2; 3] /\
  option_map l_vals (remove_all Nat.eqb 1 (new_list [1; 1; 2; 1; 3; 4])) = Some [1; 2; 3; 4].
Proof. cbn. repeat split; intros; try discriminate; reflexivity. Qed.

(** C113 is false: NewSet keeps the elements given twice *)
Theorem C113_refuted : exists s, ~ distinct Nat.eqb (new_set s).
Proof. exists [1; 1]. intros [H _]. discriminate (H 1 (or_introl eq_refl)). Qed.
Print Assumptions C113_refuted.
(** adding keeps elements distinct, loses none, and adds those given *)
Theorem C113_partial A (e : A -> A -> bool) l xs : equivalence e ->
  (distinct e l -> distinct e (set_append e l xs)) /\ (forall x, appears e x (set_append e l xs) <-> appears e x l \/ appears e x xs) /\
  (exists r, set_append e l xs = l ++ r).
Proof. exact (fun H => conj (append_new_distinct e xs l) (conj (append_new_appears e H xs l) (append_new_prefix e xs l))). Qed.
Print Assumptions C113_partial.
Theorem C113_contains A (e : A -> A -> bool) l xs : contains_all e l xs = true <-> forall x, In x xs -> appears e x l.
Proof. exact (contains_all_spec e l xs). Qed.
Print Assumptions C113_contains.
Example C113_case : distinct half_eqb [2; 5] /\ set_append half_eqb [2; 5] [3; 6; 4; 7; 8] = [2; 5; 6; 8] /\ contains_all half_eqb [2; 5] [4; 3; 2] = true /\
  contains_all half_eqb [2; 5] [4; 6] = false.
Proof. vm_compute. repeat split. intros y [<- | []]. reflexivity. intros y []. Qed.

(** C114 is false: a triplet may differ from itself and equal others, and unordered triplets forget how many times an element appears *)
Theorem C114_self_refuted : exists t, triplet_equals Nat.eqb t t = false.
Proof. exists (1, 2, 3). reflexivity. Qed.
Print Assumptions C114_self_refuted.
Theorem C114_refuted : exists a b c c', triplet_equals Nat.eqb (a, b, c) (a, b, c') = true /\ c <> c'.
Proof. exists 1, 2, 3, 2. split; [reflexivity | discriminate]. Qed.
Print Assumptions C114_refuted.
Theorem C114_unordered_refuted : exists p q, utriplet_equals Nat.eqb p q = true /\ ~ arranged Nat.eqb p q.
Proof. exists (1, 1, 2), (1, 2, 2). split; [reflexivity|]. cbn. intuition discriminate. Qed.
Print Assumptions C114_unordered_refuted.
(** pairs are right *)
Theorem C114_pair A B (eA : A -> A -> bool) (eB : B -> B -> bool) p q :
  pair_equals eA eB p q = true <-> eA (fst p) (fst q) = true /\ eB (snd p) (snd q) = true.
Proof. exact (pair_spec A B eA eB p q). Qed.
Print Assumptions C114_pair.
Theorem C114_upair A (e : A -> A -> bool) a b c d :
  upair_equals e (a, b) (c, d) = true <-> (e a c = true /\ e b d = true) \/ (e a d = true /\ e b c = true).
Proof. exact (upair_spec A e a b c d). Qed.
Print Assumptions C114_upair.
(** lists are equal element by element *)
Theorem C114_list A (e : A -> A -> bool) l l' : list_equals e l l' = true <-> Forall2 (fun x y => e x y = true) l l'.
Proof. exact (list_equals_spec A e l l'). Qed.
Print Assumptions C114_list.
(** triplets are right when the second and third components are equal, unordered ones when the three components of one are distinct *)
Theorem C114_partial A (e : A -> A -> bool) a b c a' b' c' : equivalence e -> e b c = true ->
  (triplet_equals e (a, b, c) (a', b', c') = true <-> e a a' = true /\ e b b' = true /\ e c c' = true).
Proof. exact (fun H => triplet_half e H a b c a' b' c'). Qed.
Print Assumptions C114_partial.
Theorem C114_unordered_partial A (e : A -> A -> bool) p x y z : equivalence e -> e x y = false -> e x z = false -> e y z = false ->
  (utriplet_equals e p (x, y, z) = true <-> arranged e p (x, y, z)).
Proof. exact (fun H H1 H2 H3 => conj (equals_arranged e H p x y z H1 H2 H3) (arranged_equals e H p (x, y, z))). Qed.
Print Assumptions C114_unordered_partial.
Example C114_case : triplet_equals half_eqb (1, 4, 5) (0, 5, 4) = true /\ triplet_equals half_eqb (1, 4, 5) (0, 5, 6) = false /\
  utriplet_equals half_eqb (4, 9, 1) (0, 5, 8) = true /\ utriplet_equals half_eqb (4, 9, 9) (0, 5, 8) = false /\
  upair_equals half_eqb (4, 9) (8, 5) = true /\ pair_equals half_eqb Nat.eqb (4, 9) (5, 9) = true /\
  list_equals half_eqb [4; 9] [5; 8] = true /\ list_equals half_eqb [4; 9] [5; 8; 1] = false.
Proof. vm_compute. repeat split. Qed.

(** C115 is false: two unions from the same list share its array, and the second overwrites the result of the first *)
Theorem C115_refuted : exists h s1 s2 s3 grow, valid h s1 /\ valid h s2 /\ valid h s3 /\
  let '(h1, r) := union_int grow h s1 s2 in let '(h2, _) := union_int grow h1 s1 s3 in s_vals h1 r = [1; 2]%Z /\ s_vals h2 r = [1; 3]%Z.
Proof. exists [[1; 0]; [2]; [3]]%Z, (mkS 0 1), (mkS 1 1), (mkS 2 1), (fun n => n). vm_compute. repeat split; repeat constructor. Qed.
Print Assumptions C115_refuted.
(** the result of a union is right, and the slices that read nothing beyond the elements of the first list do not change *)
Theorem C115_union_partial grow h s1 s2 t : valid h s1 -> valid h s2 -> valid h t -> clear_of s1 s2 -> clear_of s1 t ->
  let '(h', s') := union_int grow h s1 s2 in
  (forall y, In y (s_vals h' s') <-> In y (s_vals h s1) \/ In y (s_vals h s2)) /\ (NoDup (s_vals h s1) -> NoDup (s_vals h' s')) /\ s_vals h' t = s_vals h t.
Proof. exact (union_spec grow h s1 s2 t). Qed.
Print Assumptions C115_union_partial.
(** an intersection is in an array of its own: it is right and changes nothing *)
Theorem C115_inter grow h s1 s2 t : valid h s1 -> valid h s2 -> valid h t ->
  let '(h', s') := inter_int grow h s1 s2 in
  (forall y, In y (s_vals h' s') <-> In y (s_vals h s1) /\ In y (s_vals h s2)) /\ NoDup (s_vals h' s') /\ s_vals h' t = s_vals h t.
Proof. exact (inter_spec grow h s1 s2 t). Qed.
Print Assumptions C115_inter.
Example C115_case : let h := [[5; 2; 0; 0]; [2; 7; 5; 9; 7]; [1]]%Z in
  valid h (mkS 0 2) /\ valid h (mkS 1 5) /\ valid h (mkS 2 1) /\ clear_of (mkS 0 2) (mkS 1 5) /\ clear_of (mkS 0 2) (mkS 0 1) /\
  (let '(h', s') := union_int (fun n => n) h (mkS 0 2) (mkS 1 5) in s_vals h' s' = [5; 2; 7; 9]%Z /\ nth 0 h' [] = [5; 2; 7; 9]%Z) /\
  (let '(h', s') := inter_int (fun n => n) h (mkS 1 5) (mkS 0 2) in s_vals h' s' = [2; 5]%Z).
Proof. unfold valid, clear_of. cbn. repeat split; lia. Qed.

(** C116: each key has one literal, of its own, that does not change; every literal is in lits once *)
Theorem C116_ids before : let b := ask new_builder before in
  (forall v, In v before -> exists k, lookup b v = Some (2 * k) /\ 1 <= k) /\
  (forall v w n, lookup b v = Some n -> lookup b w = Some n -> v = w) /\
  NoDup (b_lits b) /\ (forall n, In n (b_lits b) <-> exists v, lookup b v = Some n) /\
  (forall v after, In v before -> lookup (ask b after) v = lookup b v).
Proof. exact (ids_spec before). Qed.
Print Assumptions C116_ids.
(** a solver that is right on literals is right on keys, and one that fails only on unsatisfiable clauses does so on keys *)
Theorem C116_sound solver before : sound_on_literals solver -> sound_solver (through solver before).
Proof. exact (through_sound solver before). Qed.
Print Assumptions C116_sound.
Theorem C116_complete solver before cs : complete_on_literals solver -> through solver before cs = None -> forall truth, ~ sat_all truth cs.
Proof. exact (through_complete solver before cs). Qed.
Print Assumptions C116_complete.
Definition some_clauses : list (list lit) := [[neg (VE 1 0 3); pos (VPhi 1 0 3)]; [pos (VE 1 0 3)]; [neg (VPhi 1 0 3); pos (VE 0 0 3); neg (VS 0 3)]].
Definition one_assignment (ns : list (list nat)) : option (nat -> bool) :=
  let g := fun k => k <=? 2 in if forallb (existsb (value g)) ns then Some g else None.
Lemma one_assignment_sound : sound_on_literals one_assignment.
Proof.
  intros ns g H. unfold one_assignment in H. destruct (forallb (existsb (value (fun k => k <=? 2))) ns) eqn:E; [|discriminate]. injection H as <-.
  intros c Hc. rewrite forallb_forall in E. specialize (E c Hc). apply existsb_exists in E. exact E.
Qed.
Example C116_case : sound_on_literals one_assignment /\
  fst (get_clauses new_builder some_clauses) = [[3; 4]; [2]; [5; 6; 9]] /\ fst (get_clauses (ask new_builder [VS 0 3; VE 0 0 3]) some_clauses) = [[7; 8]; [6]; [9; 4; 3]] /\
  match through one_assignment [] some_clauses with Some f => map f [VE 1 0 3; VPhi 1 0 3; VE 0 0 3; VS 0 3; VS 1 3] = [true; true; false; false; false] | None => False end.
Proof. split; [exact one_assignment_sound|]. vm_compute. repeat split. Qed.

(** C117 is false: two records of the same function symbol are not ordered, so that the pair asked in the other order has another literal *)
Theorem C117_refuted : exists i t u, f_var i t u <> f_var i u t /\
  let b := ask new_builder [f_var i t u; f_var i u t] in lookup b (f_var i t u) <> lookup b (f_var i u t).
Proof. exists 0, (fun_rec (mkId 5 "f") [0] 1), (fun_rec (mkId 5 "f") [2] 3). vm_compute. split; discriminate. Qed.
Print Assumptions C117_refuted.
(** for classes, and for records of different indices, the order does not matter *)
Theorem C117_partial h i a b c : e_var h i a b = e_var h i b a /\ phi_var h i a b = phi_var h i b a /\ psi_var h i a b = psi_var h i b a /\
  t_var h i a b c = t_var h i b a c.
Proof.
  unfold e_var, phi_var, psi_var, t_var, unordered.
  destruct (PeanoNat.Nat.ltb_spec (root h a) (root h b)), (PeanoNat.Nat.ltb_spec (root h b) (root h a)); try (exfalso; lia); repeat split; f_equal; lia.
Qed.
Print Assumptions C117_partial.
Theorem C117_records_partial i t u : tr_index t <> tr_index u -> f_var i t u = f_var i u t.
Proof.
  intros H. unfold f_var, unordered_recs. destruct (tr_is_meta t), (tr_is_meta u); cbn; try reflexivity;
  destruct (Z.ltb_spec (tr_index t) (tr_index u)), (Z.ltb_spec (tr_index u) (tr_index t)); try reflexivity; exfalso; lia.
Qed.
Print Assumptions C117_records_partial.
Example C117_case : let t := fun_rec (mkId 5 "f") [0] 1 in let u := fun_rec (mkId 6 "g") [2] 3 in
  tr_index t <> tr_index u /\ f_var 2 t u = VF 2 1 3 /\ f_var 2 u t = VF 2 1 3 /\ e_var [(0, 1); (1, 1); (2, 1)] 4 2 1 = VE 4 1 2.
Proof. vm_compute. repeat split. discriminate. Qed.
