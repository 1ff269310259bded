(** * First: model of src/first.rs *)
From Verif Require Export Items.

(** src/first.rs:11-15 [FirstSet] *)
Record first_set : Type := { fs_empty : bool; fs_terminals : list nat }.

(** src/first.rs:11 derive(Default) *)
Definition first_set_default : first_set := {| fs_empty := false; fs_terminals := [] |}.

(** src/first.rs:7-9 [FirstTable] *)
Definition first_table : Type := list first_set.

(** src/first.rs:36-42 [FirstTable::new] *)
Definition first_table_new (n : nat) : first_table := repeat first_set_default n.

(** src/first.rs:59-61 [get_first].  Out of range the Rust code panics; the model returns the default,
    and every index used is in range for well-formed grammars. *)
Definition get_first (tbl : first_table) (nt : nat) : first_set := nth nt tbl first_set_default.

(** src/first.rs:45-49 [add_first]: also returns whether the terminal is new *)
Definition add_first (tbl : first_table) (nt t : nat) : first_table * bool :=
  (update_nth nt (fun fs => {| fs_empty := fs_empty fs;
                               fs_terminals := set_add Nat.eqb t (fs_terminals fs) |}) tbl,
   negb (set_mem Nat.eqb t (fs_terminals (get_first tbl nt)))).

(** src/first.rs:52-57 [set_empty]: also returns whether the flag changed *)
Definition set_empty (tbl : first_table) (nt : nat) : first_table * bool :=
  (update_nth nt (fun fs => {| fs_empty := true; fs_terminals := fs_terminals fs |}) tbl,
   negb (fs_empty (get_first tbl nt))).

Section First.
Context {A : Type}.
Variable ho : hash_order.

(** src/first.rs:84-86: [for terminal in terminals.clone() { updated |= table.add_first(..) }] *)
Fixpoint add_all (nt : nat) (ts : list nat) (st : first_table * bool) : first_table * bool :=
  match ts with
  | [] => st
  | t :: ts' =>
      let (tbl, upd) := st in
      let (tbl', b) := add_first tbl nt t in
      add_all nt ts' (tbl', upd || b)
  end.

(** src/first.rs:75-97: the symbol loop of one production followed by the fall-through
    [table.set_empty(..)], whose result is *not* folded into [updated] (line 97). *)
Fixpoint first_symbols (nt : nat) (syms : list symbol) (st : first_table * bool)
  : first_table * bool :=
  match syms with
  | [] => let (tbl, upd) := st in (fst (set_empty tbl nt), upd)
  | T t :: _ =>
      let (tbl, upd) := st in
      let (tbl', b) := add_first tbl nt t in (tbl', upd || b)
  | NT y :: rest =>
      let (tbl, upd) := st in
      let fs := get_first tbl y in
      if fs_empty fs then first_symbols nt rest st     (* [continue]: terminals of y are not added *)
      else add_all nt (ho_terms ho (fs_terminals fs)) st
  end.

(** src/first.rs:71-98: one iteration of ['production_loop] *)
Definition first_production (nt : nat) (st : first_table * bool) (p : production A)
  : first_table * bool :=
  let st1 := match rhs p with
             | [] => let (tbl, upd) := st in
                     let (tbl', b) := set_empty tbl nt in (tbl', upd || b)
             | _ => st
             end in
  first_symbols nt (rhs p) st1.

(** src/first.rs:69-99: body of the outer [while] *)
Definition first_pass (g : grammar A) (tbl : first_table) : first_table * bool :=
  fold_left (fun st '(nt, n) => fold_left (first_production nt) (nt_productions n) st)
            (non_terminal_indices g) (tbl, false).

(** src/first.rs:67-100: [while updated] *)
Fixpoint first_loop (fuel : nat) (g : grammar A) (tbl : first_table) : res first_table :=
  match fuel with
  | 0 => OutOfFuel
  | S f => let (tbl', upd) := first_pass g tbl in
           if upd then first_loop f g tbl' else Ok tbl'
  end.

(** src/first.rs:64-103 [generate_first_table] *)
Definition generate_first_table (fuel : nat) (g : grammar A) : res first_table :=
  first_loop fuel g (first_table_new (n_non_terminals g)).

End First.
