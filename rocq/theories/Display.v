(** * Display: model of the [Display] implementations

    They print grammars, FIRST tables, automata and tables; the macro itself prints nothing (its calls are commented out, e.g.
    src/lib.rs:56-57, src/lr_codegen.rs:38-52), the repository's unit tests do.  [{:?}] of a terminal is [debug_str] (Message.v),
    with the simplification stated there.  A printer is a [res string]: an index out of range is [Panic PIndex]; writing to the
    formatter itself never fails in the model, and what had been written before a panic is not kept.
    The truncating cast of src/grammar.rs:195, on the index of a production printed by [Display for Grammar], is the identity here: it makes a
    difference from 2^32 productions of one non-terminal on. *)
From Coq Require Import Ascii.
From Verif Require Export Lr0 Message.
Local Open Scope string_scope.

(** Indexing of a vector, e.g. src/grammar.rs:131-137, 177-183 *)
Definition at_index {X} (o : option X) : res X := match o with Some x => Ok x | None => Panic PIndex end.
(** [writeln!] (e.g. src/grammar.rs:343) ends the line *)
Definition newline : string := String (ascii_of_nat 10) "".
(** Writes one after the other (e.g. the [for] loop of src/grammar.rs:350-360) *)
Definition prints {X} (f : X -> res string) (l : list X) : res string := let* l' := mapM f l in Ok (concat "" l').

Section Display.
Context {A : Type}.
Variable ho : hash_order.
Variable g : grammar A.

(** [get_non_terminal(nt).non_terminal], e.g. src/grammar.rs:375-376 *)
Definition show_nt (nt : nat) : res string := let* N := at_index (get_non_terminal g nt) in Ok (nt_name N).
(** [{:?}] of [get_terminal(t)], e.g. src/grammar.rs:379-380 *)
Definition show_t (t : nat) : res string := let* s := at_index (get_terminal g t) in Ok (debug_str s).
(** src/grammar.rs:391-404 [SymbolKindDisplay] *)
Definition show_symbol (X : symbol) : res string := match X with NT nt => show_nt nt | T t => show_t t end.

(** src/grammar.rs:371-387: [for (symbol_idx, symbol) in ..] *)
Definition show_production (p : production A) : res string :=
  prints (fun x => let* s := show_symbol (snd x) in
                   Ok (s ++ if negb (Nat.eqb (fst x) (List.length (p_symbols p) - 1)) then " " else ""))
         (enumerate (rhs p)).

(** src/grammar.rs:340-368 [Display for Grammar] *)
Definition show_grammar : res string :=
  prints (fun x => let* ps := prints (fun y => let* s := show_production (snd y) in Ok ("  " ++ decimal (fst y) ++ ": " ++ s ++ newline))
                                     (enumerate (nt_productions (snd x))) in
                   Ok (decimal (fst x) ++ ": " ++ (if nt_public (snd x) then "pub" else "") ++ " " ++ nt_name (snd x) ++ " = {" ++ newline ++
                       ps ++ "}" ++ newline))
         (enumerate (g_nts g)).

(** src/first.rs:140-157 [FirstSetDisplay] *)
Definition show_first_set (fs : first_set) : res string :=
  let* ts := prints (fun x => let* s := show_t (snd x) in
                              Ok (s ++ if negb (Nat.eqb (fst x) (List.length (fs_terminals fs) - 1)) then ", " else ""))
                    (enumerate (ho_terms ho (fs_terminals fs))) in
  Ok ("{" ++ ts ++ "}" ++ if fs_empty fs then " (+ empty)" else "").
(** src/first.rs:117-138 [FirstTableDisplay] *)
Definition show_first_table (tbl : first_table) : res string :=
  let* rows := prints (fun x => let* n := show_nt (fst x) in let* s := show_first_set (snd x) in
                                Ok ("    " ++ n ++ ": " ++ s ++ newline)) (enumerate tbl) in
  Ok ("{" ++ newline ++ rows ++ "}" ++ newline).

(** The symbols of an item with the cursor among them: src/lr1.rs:423-438; src/lr0.rs:306-327 *)
Definition show_cursor (l : list symbol) (cursor : nat) : res string :=
  let* ss := prints (fun x => let* s := show_symbol (snd x) in
                              Ok ((if Nat.eqb (fst x) cursor then "|" else "") ++ s ++
                                  if negb (Nat.eqb (fst x) (List.length l - 1)) then " " else ""))
                    (enumerate l) in
  Ok (ss ++ if Nat.eqb cursor (List.length l) then "|" else "").
(** src/lr1.rs:416-445 [LR1ItemDisplay] *)
Definition show_item (it : item) : res string :=
  let* N := at_index (get_non_terminal g (it_nt it)) in
  let* pr := at_index (nth_error (nt_productions N) (it_prod it)) in
  let* body := show_cursor (rhs pr) (it_cursor it) in
  let* la := match it_la it with Some t => show_t t | None => Ok "$" end in
  Ok ("[" ++ nt_name N ++ " -> " ++ body ++ ", " ++ la ++ "]").
(** src/lr1.rs:448-472 [LR1StateDisplay]; the items are a [BTreeSet], the transitions a hash map *)
Definition show_state (st : lr1_state) : res string :=
  let* items := prints (fun it => let* s := show_item it in Ok ("  " ++ s ++ newline)) (st_items st) in
  let* gotos := prints (fun x => let* s := show_symbol (fst x) in Ok ("  GOTO " ++ s ++ " -> " ++ decimal (snd x) ++ newline))
                       (ho_gotos ho (st_goto st)) in
  Ok (items ++ gotos).
(** src/lr1.rs:474-491 [LR1AutomatonDisplay] *)
Definition show_automaton (states : list lr1_state) : res string :=
  prints (fun x => let* s := show_state (snd x) in Ok (decimal (fst x) ++ ": {" ++ newline ++ s ++ "}" ++ newline)) (enumerate states).

(** src/lr_common.rs:324-343 [LRActionDisplay] *)
Definition show_action (a : lr_action A) : res string :=
  match a with
  | Shift s => Ok ("Shift " ++ decimal s)
  | Reduce nt p _ =>
      let* pr := at_index (get_production g nt p) in
      let* n := show_nt nt in
      let* s := show_production pr in
      Ok ("Reduce (" ++ n ++ " -> " ++ s ++ ") (nt_idx=" ++ decimal nt ++ ", p_idx=" ++ decimal p ++ ")")
  | Accept => Ok "Accept"
  end.
(** Iteration orders of the inner maps of the table (src/lr_common.rs:291-292, 312-313) *)
Variable order_actions : list (option nat * lr_action A) -> list (option nat * lr_action A).
(** src/lr_common.rs:312-313 *)
Variable order_gotos : list (nat * nat) -> list (nat * nat).
(** [self.table.action.get(&state_idx)] (src/lr_common.rs:286); the inner map of the flattened one, see [lr_table] *)
Definition actions_of (tb : lr_table A) (s : nat) : list (option nat * lr_action A) :=
  map (fun e => (snd (fst e), snd e)) (filter (fun e => Nat.eqb (fst (fst e)) s) (tb_action tb)).
(** [self.table.goto.get(&state_idx)] (src/lr_common.rs:288) *)
Definition gotos_of (tb : lr_table A) (s : nat) : list (nat * nat) :=
  map (fun e => (snd (fst e), snd e)) (filter (fun e => Nat.eqb (fst (fst e)) s) (tb_goto tb)).
(** src/lr_common.rs:280-322 [LRTableDisplay] *)
Definition show_table (tb : lr_table A) : res string :=
  prints (fun s =>
            let* acts := prints (fun x => let* la := match fst x with Some t => show_t t | None => Ok "EOF" end in
                                          let* a := show_action (snd x) in
                                          Ok ("  " ++ la ++ " -> " ++ a ++ newline)) (order_actions (actions_of tb s)) in
            let* gotos := prints (fun x => let* n := show_nt (fst x) in Ok ("  " ++ n ++ " -> " ++ decimal (snd x) ++ newline))
                                 (order_gotos (gotos_of tb s)) in
            Ok (decimal s ++ ": {" ++ newline ++ acts ++ gotos ++ "}" ++ newline))
         (seq 0 (tb_n_states tb)).

(** src/lr0.rs:298-330 [ItemDisplay] *)
Definition show_lr0_item (it : item) : res string :=
  let* n := show_nt (it_nt it) in
  let* pr := at_index (get_production g (it_nt it) (it_prod it)) in
  let* body := show_cursor (rhs pr) (it_cursor it) in
  Ok ("[" ++ n ++ " -> " ++ body ++ "]").
(** src/lr0.rs:332-366 [LR0AutomatonDisplay] *)
Definition show_lr0_automaton (states : list lr1_state) : res string :=
  prints (fun x =>
            let* items := prints (fun it => let* s := show_lr0_item it in Ok ("  " ++ s ++ newline)) (st_items (snd x)) in
            let* gotos := prints (fun y => let* s := show_symbol (fst y) in Ok ("  " ++ s ++ " -> " ++ decimal (snd y) ++ newline))
                                 (ho_gotos ho (st_goto (snd x))) in
            Ok (decimal (fst x) ++ ": {" ++ newline ++ items ++ gotos ++ "}" ++ newline))
         (enumerate states).

End Display.
