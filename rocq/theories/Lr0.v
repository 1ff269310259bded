(** * Lr0: model of src/lr0.rs

    The file is in the repository but [mod lr0] is commented out (src/lib.rs:15), so nothing the macro does depends on it.
    An [LR0Item] is an [item] (Items.v) without lookahead: [it_la = None]; [BTreeSet<LR0Item>] has the same order then.
    The [Display] implementations are in Display.v; not modelled are the tests and [symbols_eq] (lr0.rs:209-211), which has no caller. *)
From Verif Require Export Follow Lr1.

Section Lr0.
Context {A : Type}.
Variable ho : hash_order.
(** Iteration order of [Set<SymbolKind<T>>] (src/lr0.rs:196) *)
Variable hs : list symbol -> list symbol.

(** src/lr0.rs:17-23 [LR0Item::new] *)
Definition lr0_item (nt p : nat) : item := start_item nt p None.

(** src/lr0.rs:78-88: [for item in &closure] *)
Definition lr0_predict (g : grammar A) (cl : list item) (st : list item * bool) (it : item) : list item * bool :=
  match next_non_terminal g it with
  | None => st
  | Some nt =>
      fold_left (fun '(new, upd) p =>
                   let it' := lr0_item nt p in
                   if set_mem item_eqb it' cl then (new, upd)
                   else (set_add item_eqb it' new, upd || negb (set_mem item_eqb it' new)))
                (non_terminal_production_indices g nt) st
  end.

(** src/lr0.rs:73-91: [while updated] *)
Fixpoint lr0_closure_loop (fuel : nat) (g : grammar A) (cl : list item) : res (list item) :=
  match fuel with
  | 0 => OutOfFuel
  | S f =>
      let (new, upd) := fold_left (lr0_predict g cl) cl ([], false) in
      let cl' := fold_left (fun s x => btree_insert x s) (ho_items ho new) cl in
      if upd then lr0_closure_loop f g cl' else Ok cl'
  end.

(** src/lr0.rs:66-94 [compute_lr0_closure] *)
Definition compute_lr0_closure (fuel : nat) (g : grammar A) (items : list item) : res (list item) :=
  lr0_closure_loop fuel g items.

(** src/lr0.rs:101-109 *)
Definition lr0_kernel (g : grammar A) (items : list item) (X : symbol) : list item :=
  fold_left (fun acc it =>
               match next_symbol g it with
               | Some Y => if symbol_eqb Y X then btree_insert (advance it) acc else acc
               | None => acc
               end) items [].

(** src/lr0.rs:96-112 [compute_lr0_goto] *)
Definition compute_lr0_goto (fuel : nat) (g : grammar A) (items : list item) (X : symbol) : res (list item) :=
  compute_lr0_closure fuel g (lr0_kernel g items X).

(** src/lr0.rs:114-119 [LR0Automaton]; [LR0State] (lines 139-143) is [lr1_state] *)
Record lr0_automaton : Type := { la_states : list lr1_state; la_indices : list (list item * nat) }.

(** src/lr0.rs:146-159 [add_state_or_get_idx] *)
Definition add_state_or_get_idx (a : lr0_automaton) (S : list item) : lr0_automaton * nat * bool :=
  match map_get items_eqb S (la_indices a) with
  | Some i => (a, i, false)
  | None =>
      let idx := List.length (la_states a) in
      ({| la_states := la_states a ++ [{| st_items := S; st_goto := [] |}];
          la_indices := map_insert items_eqb S idx (la_indices a) |}, idx, true)
  end.

(** src/lr0.rs:169-171 [add_goto] *)
Definition lr0_add_goto (a : lr0_automaton) (from to : nat) (X : symbol) : lr0_automaton :=
  {| la_states := update_nth from (fun s => {| st_items := st_items s; st_goto := map_insert symbol_eqb X to (st_goto s) |}) (la_states a);
     la_indices := la_indices a |}.

(** src/lr0.rs:196-203: the body of the loop over the symbols.  The work list is a stack; its top is the head of the list. *)
Definition lr0_symbol (fuel : nat) (g : grammar A) (from : nat) (items : list item) (st : lr0_automaton * list nat) (X : symbol)
  : res (lr0_automaton * list nat) :=
  let (a, wl) := st in
  let* gt := compute_lr0_goto fuel g items X in
  let '(a', to, added) := add_state_or_get_idx a gt in
  Ok (lr0_add_goto a' from to X, if added then to :: wl else wl).

(** src/lr0.rs:188-194: the symbols after the cursors *)
Definition lr0_next_symbols (g : grammar A) (items : list item) : list symbol :=
  fold_left (fun acc it => match next_symbol g it with Some X => set_add symbol_eqb X acc | None => acc end) items [].

(** src/lr0.rs:185-204: [while let Some(state_idx) = work_list.pop()] *)
Fixpoint lr0_loop (n fuel : nat) (g : grammar A) (a : lr0_automaton) (wl : list nat) : res lr0_automaton :=
  match wl with
  | [] => Ok a
  | i :: wl' =>
      match n with
      | 0 => OutOfFuel
      | S n' =>
          match nth_error (la_states a) i with
          | None => Panic PIndex                                  (* lines 161-167 *)
          | Some s =>
              let* (a', wl'') := foldM (lr0_symbol fuel g i (st_items s)) (hs (lr0_next_symbols g (st_items s))) (a, wl') in
              lr0_loop n' fuel g a' wl''
          end
      end
  end.

(** src/lr0.rs:174-207 [compute_lr0_automaton].  The start item is production 0 of the first non-terminal; if there is none,
    looking at its next symbol is an index panic (src/lr0.rs:41). *)
Definition compute_lr0_automaton (fuel : nat) (g : grammar A) : res (list lr1_state) :=
  match get_production g 0 0 with
  | None => Panic PIndex
  | Some _ =>
      let* init := compute_lr0_closure fuel g [lr0_item 0 0] in
      let '(a, i, _) := add_state_or_get_idx {| la_states := []; la_indices := [] |} init in
      let* a' := lr0_loop fuel fuel g a [i] in
      Ok (la_states a')
  end.

(** ** The SLR(1) table *)
Variable follow : follow_table.

(** src/lr0.rs:237-261, rule 2.b: a reduction for every terminal in FOLLOW, and for the end of the input *)
Definition slr_reductions (nt p s : nat) (act : A) (tb : lr_table A) : res (lr_table A) :=
  let fs := get_follow follow nt in
  let* tb' := foldM (fun tb t => add_reduce tb s (Some t) nt p act) (ho_terms ho (fo_terminals fs)) tb in
  if fo_end fs then add_reduce tb' s None nt p act else Ok tb'.

(** src/lr0.rs:226-271: one item of one state *)
Definition slr_item (g : grammar A) (s : nat) (st : lr1_state) (tb : lr_table A) (it : item) : res (lr_table A) :=
  (* Rule 2.a, lines 229-234 *)
  let* tb1 := match next_symbol g it with
              | Some (T t) => match map_get symbol_eqb (T t) (st_goto st) with
                              | Some next => add_shift tb s t next
                              | None => Ok tb
                              end
              | _ => Ok tb
              end in
  (* Rule 2.b, lines 236-261 *)
  let* tb2 := match next_symbol g it with
              | None => match get_production g (it_nt it) (it_prod it) with
                        | Some p => slr_reductions (it_nt it) (it_prod it) s (p_action p) tb1
                        | None => Panic PIndex
                        end
              | Some _ => Ok tb1
              end in
  (* Rule 2.c, lines 263-270 *)
  Ok (if Nat.eqb (it_nt it) 0 && Nat.eqb (it_prod it) 0 && Nat.eqb (it_cursor it) 1 then add_accept tb2 s else tb2).

(** src/lr0.rs:225-278: one state; the gotos come after the items (lines 273-277) *)
Definition slr_state (g : grammar A) (tb : lr_table A) (x : nat * lr1_state) : res (lr_table A) :=
  let* tb' := foldM (slr_item g (fst x) (snd x)) (st_items (snd x)) tb in
  Ok (add_gotos (fst x) (ho_gotos ho (st_goto (snd x))) tb').

(** src/lr0.rs:213-281 [build_slr_table] *)
Definition build_slr_table (g : grammar A) (states : list lr1_state) : res (lr_table A) :=
  foldM (slr_state g) (enumerate states) (table_new (List.length states)).

End Lr0.
