(** * Lr1: model of src/lr1.rs and of the table builder in src/lr_common.rs *)
From Verif Require Export First.

Section Lr1.
Context {A : Type}.
Variable ho : hash_order.

(** src/lr1.rs:57-62 [LR1Item::get_production], symbols only; [[]] stands for the index panic, which
    no item of a generated automaton causes (theorem [state_items_in_range]). *)
Definition item_rhs (g : grammar A) (it : item) : list symbol :=
  match get_production g (it_nt it) (it_prod it) with Some p => rhs p | None => [] end.

(** src/lr1.rs:34-37 [next_symbol] *)
Definition next_symbol (g : grammar A) (it : item) : option symbol :=
  nth_error (item_rhs g it) (it_cursor it).

(** src/lr1.rs:41-46 [next_non_terminal] *)
Definition next_non_terminal (g : grammar A) (it : item) : option nat :=
  match next_symbol g it with Some (NT n) => Some n | _ => None end.

(** src/lr1.rs:50-55 [next_terminal] *)
Definition next_terminal (g : grammar A) (it : item) : option nat :=
  match next_symbol g it with Some (T t) => Some t | _ => None end.

(** src/lr1.rs:64-68 [advance] *)
Definition advance (it : item) : item :=
  {| it_nt := it_nt it; it_prod := it_prod it; it_cursor := S (it_cursor it); it_la := it_la it |}.

(** src/lr1.rs:70-73 [is_complete] *)
Definition is_complete (g : grammar A) (it : item) : bool :=
  Nat.eqb (it_cursor it) (List.length (item_rhs g it)).

(** src/lr1.rs:95-122: first terminals of the symbols after the cursor's successor; the boolean is
    [end_allowed] *)
Fixpoint cf_loop (tbl : first_table) (syms : list symbol) (acc : list nat) : list nat * bool :=
  match syms with
  | [] => (acc, true)
  | T t :: _ => (set_add Nat.eqb t acc, false)
  | NT n :: rest =>
      let fs := get_first tbl n in
      let acc' := fold_left (fun a t => set_add Nat.eqb t a) (ho_terms ho (fs_terminals fs)) acc in
      if fs_empty fs then cf_loop tbl rest acc' else (acc', false)
  end.

(** src/lr1.rs:93-130 *)
Definition closure_first (tbl : first_table) (syms : list symbol) (la : option nat) : first_set :=
  let (ts, end_allowed) := cf_loop tbl syms [] in
  if end_allowed then
    match la with
    | Some l => {| fs_empty := false; fs_terminals := set_add Nat.eqb l ts |}
    | None => {| fs_empty := true; fs_terminals := ts |}
    end
  else {| fs_empty := false; fs_terminals := ts |}.

(** src/lr1.rs:147-149, 158-160: [if closure.insert(item.clone()) { work_list.push(item) }].
    The work list is a stack; its top is the head of the list. *)
Definition closure_insert (st : list item * list item) (it : item) : list item * list item :=
  let (cl, wl) := st in
  if set_mem item_eqb it cl then st else (cl ++ [it], it :: wl).

(** src/lr1.rs:141-146, 152-157 *)
Definition start_item (nt p : nat) (la : option nat) : item :=
  {| it_nt := nt; it_prod := p; it_cursor := 0; it_la := la |}.

(** src/lr1.rs:139-162 *)
Definition closure_add_production (nt : nat) (first : first_set) (st : list item * list item) (p : nat)
  : list item * list item :=
  let st1 := fold_left (fun s t => closure_insert s (start_item nt p (Some t)))
                       (ho_terms ho (fs_terminals first)) st in
  if fs_empty first then closure_insert st1 (start_item nt p None) else st1.

(** src/lr1.rs:85-163: processing one popped item *)
Definition closure_step (g : grammar A) (tbl : first_table) (it : item) (st : list item * list item)
  : list item * list item :=
  match next_non_terminal g it with
  | None => st
  | Some nt =>
      let first := closure_first tbl (skipn (S (it_cursor it)) (item_rhs g it)) (it_la it) in
      fold_left (closure_add_production nt first) (non_terminal_production_indices g nt) st
  end.

(** src/lr1.rs:84-164: [while let Some(item) = work_list.pop()] *)
Fixpoint closure_loop (fuel : nat) (g : grammar A) (tbl : first_table) (cl wl : list item)
  : res (list item) :=
  match wl with
  | [] => Ok cl
  | it :: wl' =>
      match fuel with
      | 0 => OutOfFuel
      | S f => let (cl', wl'') := closure_step g tbl it (cl, wl') in closure_loop f g tbl cl' wl''
      end
  end.

(** src/lr1.rs:76-167 [compute_lr1_closure] *)
Definition compute_lr1_closure (fuel : nat) (g : grammar A) (tbl : first_table) (items : list item)
  : res (list item) :=
  let* cl := closure_loop fuel g tbl items (rev (ho_items ho items)) in
  Ok (btree_of_list (ho_items ho cl)).

(** src/lr1.rs:175-183: the kernel of the goto set *)
Definition goto_kernel (g : grammar A) (state : list item) (X : symbol) : list item :=
  fold_left (fun acc it =>
               match next_symbol g it with
               | Some Y => if symbol_eqb Y X then set_add item_eqb (advance it) acc else acc
               | None => acc
               end) state [].

(** src/lr1.rs:169-186 [compute_lr1_goto] *)
Definition compute_lr1_goto (fuel : nat) (state : list item) (X : symbol) (g : grammar A)
  (tbl : first_table) : res (list item) :=
  compute_lr1_closure fuel g tbl (goto_kernel g state X).

(** src/lr1.rs:188-192 [LR1State] *)
Record lr1_state : Type := { st_items : list item; st_goto : list (symbol * nat) }.

(** src/lr1.rs:251-277: states, state_indices, non_terminal_state_indices *)
Record entry_acc : Type := {
  ea_states : list lr1_state;
  ea_indices : list (list item * nat);
  ea_entries : list (nat * nat)
}.

(** src/lr1.rs:252-276 *)
Definition add_entry (fuel : nat) (g : grammar A) (tbl : first_table) (acc : entry_acc)
  (x : nat * non_terminal A) : res entry_acc :=
  let (nt, n) := x in
  if nt_public n then
    if Nat.eqb (List.length (nt_productions n)) 1 then
      let* i0 := compute_lr1_closure fuel g tbl [start_item nt 0 None] in
      let idx := List.length (ea_states acc) in
      Ok {| ea_states := ea_states acc ++ [{| st_items := i0; st_goto := [] |}];
            ea_indices := map_insert items_eqb i0 idx (ea_indices acc);
            ea_entries := map_insert Nat.eqb nt idx (ea_entries acc) |}
    else Panic PAssertOneProduction
  else Ok acc.

(** src/lr1.rs:283-289: per-round accumulators *)
Record round_acc : Type := {
  ra_new : list lr1_state;
  ra_indices : list (list item * nat);
  ra_gotos : list (nat * symbol * nat);
  ra_next : nat
}.

(** src/lr1.rs:297-317: one (state, symbol) pair *)
Definition round_symbol (fuel : nat) (g : grammar A) (tbl : first_table) (i : nat) (items : list item)
  (acc : round_acc) (X : symbol) : res round_acc :=
  let* gt := compute_lr1_goto fuel items X g tbl in
  match gt with
  | [] => Ok acc
  | _ :: _ =>
      match map_get items_eqb gt (ra_indices acc) with
      | Some j => Ok {| ra_new := ra_new acc; ra_indices := ra_indices acc;
                        ra_gotos := ra_gotos acc ++ [(i, X, j)]; ra_next := ra_next acc |}
      | None => Ok {| ra_new := ra_new acc ++ [{| st_items := gt; st_goto := [] |}];
                      ra_indices := map_insert items_eqb gt (ra_next acc) (ra_indices acc);
                      ra_gotos := ra_gotos acc ++ [(i, X, ra_next acc)];
                      ra_next := S (ra_next acc) |}
      end
  end.

(** src/lr1.rs:292-295: non-terminals, then terminals *)
Definition all_symbols (g : grammar A) : list symbol :=
  map NT (seq 0 (n_non_terminals g)) ++ map T (terminal_indices g).

(** src/lr1.rs:291-319 *)
Definition round_state (fuel : nat) (g : grammar A) (tbl : first_table) (acc : round_acc)
  (x : nat * lr1_state) : res round_acc :=
  foldM (round_symbol fuel g tbl (fst x) (st_items (snd x))) (all_symbols g) acc.

(** src/lr1.rs:335-340 *)
Fixpoint apply_gotos (gs : list (nat * symbol * nat)) (states : list lr1_state) (updated : bool)
  : list lr1_state * bool :=
  match gs with
  | [] => (states, updated)
  | (i, X, j) :: gs' =>
      let old := match nth_error states i with
                 | Some s => map_get symbol_eqb X (st_goto s)
                 | None => None
                 end in
      apply_gotos gs'
        (update_nth i (fun s => {| st_items := st_items s;
                                   st_goto := map_insert symbol_eqb X j (st_goto s) |}) states)
        (updated || match old with None => true | Some _ => false end)
  end.

(** src/lr1.rs:281-341: one iteration of [while updated] *)
Definition automaton_round (fuel : nat) (g : grammar A) (tbl : first_table)
  (states : list lr1_state) (indices : list (list item * nat))
  : res (list lr1_state * list (list item * nat) * bool) :=
  let* r := foldM (round_state fuel g tbl) (enumerate states)
                  {| ra_new := []; ra_indices := indices; ra_gotos := [];
                     ra_next := List.length states |} in
  let upd := match ra_new r with [] => false | _ => true end in
  let (states', upd') := apply_gotos (ra_gotos r) (states ++ ra_new r) upd in
  Ok (states', ra_indices r, upd').

(** src/lr1.rs:279-341 *)
Fixpoint automaton_loop (n fuel : nat) (g : grammar A) (tbl : first_table)
  (states : list lr1_state) (indices : list (list item * nat)) : res (list lr1_state) :=
  match n with
  | 0 => OutOfFuel
  | S n' =>
      let* (states', indices', upd) := automaton_round fuel g tbl states indices in
      if upd then automaton_loop n' fuel g tbl states' indices' else Ok states'
  end.

(** src/lr1.rs:239-344 [generate_lr1_automaton]: states and entry points *)
Definition generate_lr1_automaton (fuel : nat) (g : grammar A) (tbl : first_table)
  : res (list lr1_state * list (nat * nat)) :=
  let* e := foldM (add_entry fuel g tbl) (non_terminal_indices g)
                  {| ea_states := []; ea_indices := []; ea_entries := [] |} in
  let* states := automaton_loop fuel fuel g tbl (ea_states e) (ea_indices e) in
  Ok (states, ea_entries e).

End Lr1.

(** ** Table builder: src/lr_common.rs *)

(** src/lr_common.rs:13-23 [LRAction] *)
Inductive lr_action (A : Type) : Type :=
| Shift (s : nat)
| Reduce (nt p : nat) (a : A)
| Accept.
Arguments Shift {A} s. Arguments Reduce {A} nt p a. Arguments Accept {A}.

(** src/lr_common.rs:25-29 [LRTable].  The nested maps [Map<StateIdx, Map<K, V>>] are flattened to maps
    keyed by pairs; [entry(state).or_default()] creating an empty inner map is not observable. *)
Record lr_table (A : Type) : Type := {
  tb_action : list ((nat * option nat) * lr_action A);
  tb_goto : list ((nat * nat) * nat);
  tb_n_states : nat
}.
Arguments tb_action {A}. Arguments tb_goto {A}. Arguments tb_n_states {A}.

(** Equality of the keys of the two flattened maps (src/lr_common.rs:25-29) *)
Definition akey_eqb (a b : nat * option nat) : bool :=
  Nat.eqb (fst a) (fst b) && opt_nat_eqb (snd a) (snd b).
(** src/lr_common.rs:25-29 *)
Definition gkey_eqb (a b : nat * nat) : bool :=
  Nat.eqb (fst a) (fst b) && Nat.eqb (snd a) (snd b).

Section Table.
Context {A : Type}.

(** src/lr_common.rs:36-44 [LRTableBuilder::new] *)
Definition table_new (n : nat) : lr_table A := {| tb_action := []; tb_goto := []; tb_n_states := n |}.

(** src/lr_common.rs:173-181 [get_action] *)
Definition get_action (tb : lr_table A) (s : nat) (la : option nat) : option (lr_action A) :=
  map_get akey_eqb (s, la) (tb_action tb).

(** src/lr_common.rs:183-189 [get_goto] *)
Definition get_goto (tb : lr_table A) (s nt : nat) : option nat :=
  map_get gkey_eqb (s, nt) (tb_goto tb).

(** The [insert] of [add_shift], [add_reduce] and [add_accept] (src/lr_common.rs:50-160) *)
Definition insert_action (tb : lr_table A) (s : nat) (la : option nat) (a : lr_action A) : lr_table A :=
  {| tb_action := map_insert akey_eqb (s, la) a (tb_action tb);
     tb_goto := tb_goto tb; tb_n_states := tb_n_states tb |}.

(** src/lr_common.rs:50-96 [add_shift]: overriding a Reduce is allowed (lines 74-85) *)
Definition add_shift (tb : lr_table A) (s t next : nat) : res (lr_table A) :=
  let tb' := insert_action tb s (Some t) (Shift next) in
  match get_action tb s (Some t) with
  | None => Ok tb'
  | Some (Shift s') => if Nat.eqb s' next then Ok tb' else Panic (PShiftShift s t s' next)
  | Some (Reduce _ _ _) => Ok tb'
  | Some Accept => Panic (PAcceptShift s t next)
  end.

(** src/lr_common.rs:98-148 [add_reduce] *)
Definition add_reduce (tb : lr_table A) (s : nat) (la : option nat) (nt p : nat) (a : A)
  : res (lr_table A) :=
  match get_action tb s la with
  | None => Ok (insert_action tb s la (Reduce nt p a))
  | Some (Shift s') => Panic (PShiftReduce s la s' nt p)
  | Some (Reduce nt' p' _) => Panic (PReduceReduce s la nt' p' nt p)
  | Some Accept => Panic (PAcceptReduce s la nt p)
  end.

(** src/lr_common.rs:150-158 [add_accept]: silently replaces whatever was there *)
Definition add_accept (tb : lr_table A) (s : nat) : lr_table A := insert_action tb s None Accept.

(** src/lr_common.rs:160-169 [add_goto] *)
Definition add_goto (tb : lr_table A) (s nt next : nat) : lr_table A :=
  {| tb_action := tb_action tb;
     tb_goto := map_insert gkey_eqb (s, nt) next (tb_goto tb);
     tb_n_states := tb_n_states tb |}.

Variable ho : hash_order.

(** src/lr1.rs:385-389 *)
Definition add_gotos (s : nat) (gotos : list (symbol * nat)) (tb : lr_table A) : lr_table A :=
  fold_left (fun tb '(X, next) => match X with NT nt => add_goto tb s nt next | T _ => tb end) gotos tb.

(** src/lr1.rs:353-390: one item of one state *)
Definition table_item (g : grammar A) (s : nat) (st : lr1_state) (tb : lr_table A) (it : item)
  : res (lr_table A) :=
  (* Rule 2.a, lines 355-359 *)
  let* tb1 := match next_terminal g it with
              | Some t => match map_get symbol_eqb (T t) (st_goto st) with
                          | Some next => add_shift tb s t next
                          | None => Ok tb
                          end
              | None => Ok tb
              end in
  match get_non_terminal g (it_nt it) with                      (* line 361 *)
  | None => Panic PIndex
  | Some n =>
      (* Rule 2.b, lines 364-374 *)
      let* tb2 := if is_complete g it && negb (nt_public n) then
                    match get_production g (it_nt it) (it_prod it) with
                    | Some p => add_reduce tb1 s (it_la it) (it_nt it) (it_prod it) (p_action p)
                    | None => Panic PIndex
                    end
                  else Ok tb1 in
      (* Rule 2.c, lines 377-382 *)
      let* tb3 := if nt_public n && Nat.eqb (it_cursor it) 1 &&
                     match it_la it with None => true | Some _ => false end then
                    if Nat.eqb (List.length (nt_productions n)) 1 then Ok (add_accept tb2 s)
                    else Panic PAssertOneProduction
                  else Ok tb2 in
      Ok (add_gotos s (ho_gotos ho (st_goto st)) tb3)
  end.

(** src/lr1.rs:352-391 *)
Definition table_state (g : grammar A) (tb : lr_table A) (x : nat * lr1_state) : res (lr_table A) :=
  foldM (table_item g (fst x) (snd x)) (st_items (snd x)) tb.

(** src/lr1.rs:346-394 [build_lr1_table] *)
Definition build_lr1_table (g : grammar A) (states : list lr1_state) : res (lr_table A) :=
  foldM (table_state g) (enumerate states) (table_new (List.length states)).

End Table.
