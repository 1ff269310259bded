(** * Follow: model of src/follow.rs

    The file is in the repository but [mod follow] is commented out (src/lib.rs:14), so nothing the macro does depends on it.
    It is generic in the type [T] of terminals, of which it needs equality only; here terminals are indices, as in First.v. *)
From Verif Require Export First.

(** src/follow.rs:14-18 [FollowSet] *)
Record follow_set : Type := { fo_end : bool; fo_terminals : list nat }.

(** src/follow.rs:20-27 derive(Default) *)
Definition follow_set_default : follow_set := {| fo_end := false; fo_terminals := [] |}.

(** src/follow.rs:12 [FollowTable] *)
Definition follow_table : Type := list follow_set.

(** src/follow.rs:40-46 [FollowTable::new] *)
Definition follow_table_new (n : nat) : follow_table := repeat follow_set_default n.

(** src/follow.rs:63-65 [get_follow].  Out of range the Rust code panics; the model returns the default. *)
Definition get_follow (tbl : follow_table) (nt : nat) : follow_set := nth nt tbl follow_set_default.

(** src/follow.rs:49-53 [add_follow]: also returns whether the terminal is new *)
Definition add_follow (tbl : follow_table) (nt t : nat) : follow_table * bool :=
  (update_nth nt (fun fs => {| fo_end := fo_end fs; fo_terminals := set_add Nat.eqb t (fo_terminals fs) |}) tbl,
   negb (set_mem Nat.eqb t (fo_terminals (get_follow tbl nt)))).

(** src/follow.rs:56-61 [set_end]: also returns whether the flag changed *)
Definition set_end (tbl : follow_table) (nt : nat) : follow_table * bool :=
  (update_nth nt (fun fs => {| fo_end := true; fo_terminals := fo_terminals fs |}) tbl,
   negb (fo_end (get_follow tbl nt))).

Section Follow.
Context {A : Type}.
Variable ho : hash_order.
Variable first : first_table.

(** src/follow.rs:111-113, 133-135: [updated |= table.add_follow(..)] for each element *)
Fixpoint follow_add_all (nt : nat) (ts : list nat) (st : follow_table * bool) : follow_table * bool :=
  match ts with
  | [] => st
  | t :: ts' =>
      let (tbl, upd) := st in
      let (tbl', b) := add_follow tbl nt t in
      follow_add_all nt ts' (tbl', upd || b)
  end.

(** src/follow.rs:126-135: [nt] is at the end of a right-hand side of [lhs] *)
Definition follow_from (lhs nt : nat) (st : follow_table * bool) : follow_table * bool :=
  let (tbl, upd) := st in
  let fs := get_follow tbl lhs in
  let (tbl1, upd1) := if fo_end fs then let (tbl', b) := set_end tbl nt in (tbl', upd || b) else (tbl, upd) in
  follow_add_all nt (ho_terms ho (fo_terminals fs)) (tbl1, upd1).

(** src/follow.rs:88-136: the loops over the symbols of one production of [lhs].  [after = false]: ['symbol_loop_0], which
    looks for [nt]; [after = true]: ['symbol_loop_1], which looks at what is on its right.  Where the code goes back to
    ['symbol_loop_0] with the symbol it has just seen (lines 120-121), that loop's test (line 90) is done at once. *)
Fixpoint follow_symbols (lhs nt : nat) (after : bool) (syms : list symbol) (st : follow_table * bool) : follow_table * bool :=
  match syms with
  | [] => if after then follow_from lhs nt st else st
  | s :: rest =>
      if after then
        match s with
        | T t => let (tbl, upd) := st in
                 let (tbl', b) := add_follow tbl nt t in
                 follow_symbols lhs nt false rest (tbl', upd || b)
        | NT y =>
            let fs := get_first first y in
            let st' := follow_add_all nt (ho_terms ho (fs_terminals fs)) st in
            if fs_empty fs then follow_symbols lhs nt true rest st'
            else follow_symbols lhs nt (symbol_eqb s (NT nt)) rest st'
        end
      else follow_symbols lhs nt (symbol_eqb s (NT nt)) rest st
  end.

(** src/follow.rs:86 and src/grammar.rs:229-253 [production_indices]: every production with its left-hand side *)
Definition all_productions (g : grammar A) : list (nat * production A) :=
  flat_map (fun '(lhs, n) => map (pair lhs) (nt_productions n)) (non_terminal_indices g).

(** src/follow.rs:83-138: body of the outer [while] *)
Definition follow_pass (g : grammar A) (tbl : follow_table) : follow_table * bool :=
  fold_left (fun st '(nt, _) => fold_left (fun st' '(lhs, p) => follow_symbols lhs nt false (rhs p) st') (all_productions g) st)
            (non_terminal_indices g) (tbl, false).

(** src/follow.rs:80-139: [while updated] *)
Fixpoint follow_loop (fuel : nat) (g : grammar A) (tbl : follow_table) : res follow_table :=
  match fuel with
  | 0 => OutOfFuel
  | S f => let (tbl', upd) := follow_pass g tbl in
           if upd then follow_loop f g tbl' else Ok tbl'
  end.

(** src/follow.rs:68-142 [generate_follow_table] *)
Definition generate_follow_table (fuel : nat) (g : grammar A) : res follow_table :=
  let tbl := follow_table_new (n_non_terminals g) in
  if Nat.eqb (n_non_terminals g) 0 then Ok tbl
  else follow_loop fuel g (fst (set_end tbl 0)).

End Follow.
