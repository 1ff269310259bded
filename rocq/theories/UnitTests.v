(** * UnitTests: the unit tests of src/lr1.rs, src/lr0.rs and src/test_grammars.rs, replayed on the model

    Tests, not proofs: they check that the model computes what the code computes.  (The tests of tests/tests.rs
    are in Grammars.v and Findings.v, those of src/ast.rs in PropertiesDsl.v.) *)
From Verif Require Import Base Grammar Items First Lr1 Codegen Follow Lr0 Simulate.
Local Open Scope string_scope. Local Open Scope list_scope.

(** src/test_grammars.rs:25-47: terminals, non-terminals with their productions; entry point first *)
Definition test_grammar (ts : list string) (nts : list (string * list (list symbol))) : grammar unit :=
  {| g_terminals := ts;
     g_nts := map (fun '(i, (n, ps)) => {| nt_name := n; nt_return_ty := "()"; nt_public := Nat.eqb i 0;
       nt_productions := map (fun l => {| p_symbols := map (fun X => {| bs_binder := None; bs_symbol := X |}) l; p_action := tt |}) ps |})
       (enumerate nts) |}.
(** src/test_grammars.rs:64-432 *)
Definition grammar1 := test_grammar ["+"; "n"] [("E0", [[NT 1]]); ("E", [[NT 1; T 0; NT 1]; [T 1]])].
Definition grammar2 := test_grammar ["a"] [("S0", [[NT 1]]); ("S", [[NT 2; NT 2; NT 2; NT 2]]); ("A", [[T 0]; [NT 3]]); ("E", [[]])].
Definition grammar3 := test_grammar ["a"; "b"; "d"]
  [("S", [[NT 1]]); ("A", [[NT 2; T 0]; [NT 2; T 1]; [NT 3; T 0; T 1]; [NT 1; T 2]]); ("B", [[T 0]]); ("C", [[T 0]])].
Definition grammar4 := test_grammar ["a"] [("S0", [[NT 1]]); ("S", [[NT 1; NT 3]; [T 0]]); ("B", [[]]); ("T", [[T 0; NT 2]; [T 0]])].
Definition grammar5 := test_grammar ["+"; "*"; "("; ")"; "n"]
  [("E0", [[NT 1]]); ("E", [[NT 3; NT 2]]); ("E'", [[T 0; NT 3; NT 2]; []]); ("T", [[NT 5; NT 4]]); ("T'", [[T 1; NT 5; NT 4]; []]);
   ("F", [[T 2; NT 1; T 3]; [T 4]])].
Definition grammar6 := test_grammar ["+"; "*"; "("; ")"; "id"]
  [("E0", [[NT 1]]); ("E", [[NT 1; T 0; NT 2]; [NT 2]]); ("T", [[NT 2; T 1; NT 3]; [NT 3]]); ("F", [[T 2; NT 1; T 3]; [T 4]])].
Definition grammar7 := test_grammar ["="; "*"; "id"]
  [("S0", [[NT 1]]); ("S", [[NT 2; T 0; NT 3]; [NT 3]]); ("R", [[T 1; NT 3]; [T 2]]); ("R", [[NT 2]])].
Definition grammar8 := test_grammar ["c"; "d"] [("S0", [[NT 1]]); ("S", [[NT 2; NT 2]]); ("C", [[T 0; NT 2]; [T 1]])].
Definition grammar9 := test_grammar ["("; ")"] [("S0", [[NT 1]]); ("S", [[T 0; NT 1; T 1]; []])].
Definition hidden_left_recursion := test_grammar ["b"; "c"] [("S0", [[NT 1]]); ("S1", [[NT 2; NT 1; T 1]; [T 0]]); ("A", [[]])].

(** The stages the tests run. *)
Definition automaton_of (g : grammar unit) : res (list lr1_state) :=
  let* tbl := generate_first_table ho_id 200 g in
  let* (states, _) := generate_lr1_automaton ho_id 200 g tbl in Ok states.
Definition table_of (g : grammar unit) : res (lr_table unit) :=
  let* states := automaton_of g in build_lr1_table ho_id g states.

Definition simulates_ok (g : grammar unit) (input : list nat) : bool :=
  match table_of g with
  | Ok tb => match simulates 100 tb g input with Done _ [] => true | _ => false end
  | _ => false
  end.
Notation accepts g l := (simulates_ok g l = true).
Ltac simulates_it := vm_compute; reflexivity.

(** src/lr1.rs:493-595 *)
Definition lr1_item (nt p cur : nat) (la : option nat) : item := {| it_nt := nt; it_prod := p; it_cursor := cur; it_la := la |}.
Definition states8 : list lr1_state := Eval vm_compute in match automaton_of grammar8 with Ok l => l | _ => [] end.
Definition state8 (i : nat) (l : list item) : Prop := option_map st_items (nth_error states8 i) = Some (btree_of_list l).
Notation c := 0. Notation d := 1.
Example test_grammar8_lr1_states :
  automaton_of grammar8 = Ok states8 /\ List.length states8 = 10 /\
  state8 0 [lr1_item 0 0 0 None; lr1_item 1 0 0 None; lr1_item 2 0 0 (Some c); lr1_item 2 0 0 (Some d); lr1_item 2 1 0 (Some c); lr1_item 2 1 0 (Some d)] /\
  state8 1 [lr1_item 0 0 1 None] /\
  state8 2 [lr1_item 1 0 1 None; lr1_item 2 0 0 None; lr1_item 2 1 0 None] /\
  state8 3 [lr1_item 2 0 1 (Some c); lr1_item 2 0 1 (Some d); lr1_item 2 0 0 (Some c); lr1_item 2 0 0 (Some d); lr1_item 2 1 0 (Some c); lr1_item 2 1 0 (Some d)] /\
  state8 4 [lr1_item 2 1 1 (Some c); lr1_item 2 1 1 (Some d)] /\
  state8 5 [lr1_item 1 0 2 None] /\
  state8 8 [lr1_item 2 0 2 (Some c); lr1_item 2 0 2 (Some d)] /\
  state8 9 [lr1_item 2 0 2 None].
Proof. repeat (split; [vm_compute; reflexivity|]). vm_compute. reflexivity. Qed.

(** src/lr1.rs:597-640 [simulate1]: id + id; id + id * id; ( id + id ) * id *)
Example test_simulate1 : accepts grammar6 [4; 0; 4] /\ accepts grammar6 [4; 0; 4; 1; 4] /\ accepts grammar6 [2; 4; 0; 4; 3; 1; 4].
Proof. split; [|split]; simulates_it. Qed.
(** src/lr1.rs:642-669 [simulate2]: empty; ( ) *)
Example test_simulate2 : accepts grammar9 [] /\ accepts grammar9 [0; 1].
Proof. split; simulates_it. Qed.
(** src/lr1.rs:671-693 [simulate3] *)
Example test_simulate3 : accepts grammar7 [1; 2] /\ accepts grammar7 [2; 0; 2] /\ accepts grammar7 [2; 0; 1; 2] /\
  accepts grammar7 [1; 2; 0; 2] /\ accepts grammar7 [1; 2; 0; 1; 2].
Proof. repeat split; simulates_it. Qed.
(** src/lr1.rs:695-729 [simulate4] *)
Example test_simulate4 : accepts grammar5 [4] /\ accepts grammar5 [4; 0; 4] /\ accepts grammar5 [4; 0; 4; 1; 4].
Proof. split; [|split]; simulates_it. Qed.
(** src/test_grammars.rs:64-203, 401-407: grammars said to be ambiguous or not LR(1), none of which a test uses: table
    construction reports a conflict for each of them. *)
Definition conflict_of (g : grammar unit) : option panic := match table_of g with Panic p => Some p | _ => None end.
Example test_ambiguous : conflict_of grammar1 = Some (PShiftReduce 4 (Some 0) 3 1 0) /\ conflict_of grammar2 = Some (PShiftReduce 0 (Some 0) 4 3 0) /\
  conflict_of grammar3 = Some (PReduceReduce 4 (Some 0) 2 0 3 0) /\ conflict_of grammar4 = Some (PReduceReduce 4 None 2 0 3 1) /\
  conflict_of hidden_left_recursion = Some (PShiftReduce 0 (Some 0) 3 2 0).
Proof. repeat (split; [vm_compute; reflexivity|]). vm_compute. reflexivity. Qed.

(** src/lr0.rs:369-573 [closure_1], [goto_1], [automaton_1] *)
Definition lr0_it (nt p cur : nat) : item := {| it_nt := nt; it_prod := p; it_cursor := cur; it_la := None |}.
Definition hs_id' (l : list symbol) : list symbol := l.
Example test_closure_1 : compute_lr0_closure ho_id 100 grammar6 [lr0_it 0 0 0] =
  Ok (btree_of_list [lr0_it 0 0 0; lr0_it 1 0 0; lr0_it 1 1 0; lr0_it 2 0 0; lr0_it 2 1 0; lr0_it 3 0 0; lr0_it 3 1 0]).
Proof. vm_compute. reflexivity. Qed.
Example test_goto_1 : compute_lr0_goto ho_id 100 grammar6 [lr0_it 0 0 1; lr0_it 1 0 1] (T 0) =
  Ok (btree_of_list [lr0_it 1 0 2; lr0_it 2 0 0; lr0_it 2 1 0; lr0_it 3 0 0; lr0_it 3 1 0]).
Proof. vm_compute. reflexivity. Qed.
Definition states6 : list lr1_state := Eval vm_compute in match compute_lr0_automaton ho_id hs_id' 200 grammar6 with Ok l => l | _ => [] end.
(** The state after the symbols [path], from state 0. *)
Fixpoint state6_at (s : nat) (path : list symbol) : option lr1_state :=
  match path with
  | [] => nth_error states6 s
  | X :: r => match nth_error states6 s with
              | Some st => match map_get symbol_eqb X (st_goto st) with Some s' => state6_at s' r | None => None end
              | None => None
              end
  end.
Definition state6 (path : list symbol) (l : list item) : Prop := option_map st_items (state6_at 0 path) = Some (btree_of_list l).
Example test_automaton_1 :
  compute_lr0_automaton ho_id hs_id' 200 grammar6 = Ok states6 /\ List.length states6 = 12 /\
  state6 [] [lr0_it 0 0 0; lr0_it 1 0 0; lr0_it 1 1 0; lr0_it 2 0 0; lr0_it 2 1 0; lr0_it 3 0 0; lr0_it 3 1 0] /\
  state6 [NT 1] [lr0_it 0 0 1; lr0_it 1 0 1] /\
  state6 [NT 2] [lr0_it 1 1 1; lr0_it 2 0 1] /\
  state6 [NT 3] [lr0_it 2 1 1] /\
  state6 [T 2] [lr0_it 3 0 1; lr0_it 1 0 0; lr0_it 1 1 0; lr0_it 2 0 0; lr0_it 2 1 0; lr0_it 3 0 0; lr0_it 3 1 0] /\
  state6 [T 4] [lr0_it 3 1 1] /\
  state6 [NT 1; T 0] [lr0_it 1 0 2; lr0_it 2 0 0; lr0_it 2 1 0; lr0_it 3 0 0; lr0_it 3 1 0] /\
  state6 [NT 2; T 1] [lr0_it 2 0 2; lr0_it 3 0 0; lr0_it 3 1 0] /\
  state6 [T 2; NT 1] [lr0_it 3 0 2; lr0_it 1 0 1] /\
  state6 [NT 1; T 0; NT 2] [lr0_it 1 0 3; lr0_it 2 0 1] /\
  state6 [NT 2; T 1; NT 3] [lr0_it 2 0 3] /\
  state6 [T 2; NT 1; T 3] [lr0_it 3 0 3].
Proof. repeat (split; [vm_compute; reflexivity|]). vm_compute. reflexivity. Qed.
(** src/lr0.rs:576-603 [simulate1]: id + id with the SLR(1) table *)
Definition slr_of (g : grammar unit) : res (lr_table unit) :=
  let* first := generate_first_table ho_id 200 g in
  let* follow := generate_follow_table ho_id first 200 g in
  let* states := compute_lr0_automaton ho_id hs_id' 200 g in
  build_slr_table ho_id follow g states.
Example test_slr_simulate1 : match slr_of grammar6 with Ok tb => simulates 100 tb grammar6 [4; 0; 4] = Done [1; 0] [] | _ => False end.
Proof. vm_compute. reflexivity. Qed.
(** src/test_grammars.rs:312: "Not ambiguous, but not SLR(1)!" *)
Example test_grammar7_not_slr : match slr_of grammar7 with Panic (PShiftReduce _ (Some 0) _ 3 0) => True | _ => False end.
Proof. vm_compute. exact I. Qed.
