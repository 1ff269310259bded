(** * Codegen: model of src/codegen.rs and of the table emission in src/lr_codegen.rs.

    Emitted Rust code is represented as data: static arrays as lists, generated functions as small
    programs interpreted in Runtime.v / Pattern.v. *)
From Verif Require Export Lr1 Ast.

(** ** Semantic actions *)

(** Name of an extraction method: [non_terminal_N] or [token_N] (src/codegen.rs:65-74) *)
Inductive extract_method : Type := ExNonTerminal (variant : nat) | ExToken (terminal : nat).

(** src/codegen.rs:55-80: [value_stack.pop();] or
    [let (mut)? name = value_stack.pop().unwrap().extract();] *)
Inductive pop_stmt : Type :=
| PopIgnore
| PopBind (mutable : bool) (nm : string) (m : extract_method).

(** src/codegen.rs:93-100: [fn ntNpM_action(value_stack) { pops; value_stack.push(variant(action)) }] *)
Record sem_fn (A : Type) : Type := { sf_pops : list pop_stmt; sf_variant : nat; sf_action : A }.
Arguments sf_pops {A}. Arguments sf_variant {A}. Arguments sf_action {A}.

(** src/codegen.rs:303-339: variant numbers of the non-terminals, one per distinct type *)
Definition variant_step {A} (st : list nat * list (ty * nat) * nat) (n : non_terminal A)
  : list nat * list (ty * nat) * nat :=
  let '(names, tys, i) := st in
  match map_get String.eqb (nt_return_ty n) tys with
  | Some j => (names ++ [j], tys, i)
  | None => (names ++ [i], map_insert String.eqb (nt_return_ty n) i tys, S i)
  end.
(** src/codegen.rs:304, 355: the [Vec] that is returned *)
Definition variant_names {A} (g : grammar A) : list nat :=
  fst (fst (fold_left variant_step (g_nts g) ([], [], 0))).

(** [non_terminal_action_variant_name[nt_idx]] (src/codegen.rs:67, 89; src/lr_codegen.rs:96);
    [None] is the index panic *)
Definition variant_of (variants : list nat) (nt : nat) : option nat := nth_error variants nt.

Section SemanticActions.
Context {A : Type}.

(** src/codegen.rs:55-80, one symbol *)
Definition pop_code (variants : list nat) (bs : bound_symbol) : res pop_stmt :=
  match bs_binder bs with
  | None => Ok PopIgnore
  | Some n =>
      match bs_symbol bs with
      | NT nt => match variant_of variants nt with
                 | Some v => Ok (PopBind (nm_mutable n) (nm_name n) (ExNonTerminal v))
                 | None => Panic PIndex
                 end
      | T t => Ok (PopBind (nm_mutable n) (nm_name n) (ExToken t))
      end
  end.

(** src/codegen.rs:50-108, one production.  [decls] and [fn_names] have one entry per production
    processed so far. *)
Definition gen_production (variants : list nat) (nt : nat) (fns : list (sem_fn A)) (p : production A)
  : res (list (sem_fn A) * production nat) :=
  let* pops := mapM (pop_code variants) (rev (p_symbols p)) in
  match variant_of variants nt with
  | None => Panic PIndex
  | Some v =>
      let* idx := u16_try_from (List.length fns) in
      Ok (fns ++ [{| sf_pops := pops; sf_variant := v; sf_action := p_action p |}],
          {| p_symbols := p_symbols p; p_action := idx |})
  end.

(** src/codegen.rs:47-109 *)
Fixpoint gen_productions (variants : list nat) (nt : nat) (fns : list (sem_fn A))
  (ps : list (production A)) : res (list (sem_fn A) * list (production nat)) :=
  match ps with
  | [] => Ok (fns, [])
  | p :: ps' =>
      let* (fns1, p') := gen_production variants nt fns p in
      let* (fns2, ps'') := gen_productions variants nt fns1 ps' in
      Ok (fns2, p' :: ps'')
  end.

(** src/codegen.rs:34-119 *)
Fixpoint gen_non_terminals (variants : list nat) (nt : nat) (fns : list (sem_fn A))
  (nts : list (non_terminal A)) : res (list (sem_fn A) * list (non_terminal nat)) :=
  match nts with
  | [] => Ok (fns, [])
  | n :: nts' =>
      let* (fns1, ps) := gen_productions variants nt fns (nt_productions n) in
      let* (fns2, nts'') := gen_non_terminals variants (S nt) fns1 nts' in
      Ok (fns2, {| nt_name := nt_name n; nt_productions := ps;
                   nt_return_ty := nt_return_ty n; nt_public := nt_public n |} :: nts'')
  end.

(** src/codegen.rs:20-135 [generate_semantic_action_table]: SEMANTIC_ACTIONS and the grammar with
    actions replaced by indices *)
Definition generate_semantic_action_table (g : grammar A) (variants : list nat)
  : res (list (sem_fn A) * grammar nat) :=
  let* (fns, nts) := gen_non_terminals variants 0 [] (g_nts g) in
  Ok (fns, {| g_nts := nts; g_terminals := g_terminals g |}).
End SemanticActions.

(** ** Arrays *)

(** src/lr_codegen.rs:125-136: the [LRAction] enum of the generated code *)
Inductive rt_action : Type :=
| RShift (next_state : nat)
| RReduce (non_terminal_idx n_symbols semantic_action_idx : nat)
| RAccept.

(** src/lr_codegen.rs:235-266 [action_table_vec] *)
Definition action_table_vec (g : grammar nat) (tb : lr_table nat) : list (list (option (lr_action nat))) :=
  map (fun s => map (fun t => get_action tb s (Some t)) (terminal_indices g) ++ [get_action tb s None])
      (seq 0 (tb_n_states tb)).

(** src/lr_codegen.rs:269-291 [generate_goto_vec] *)
Definition generate_goto_vec (tb : lr_table nat) (n_nts : nat) : res (list (list (option nat))) :=
  mapM (fun s => mapM (fun nt => let* nt' := u32_try_from nt in Ok (get_goto tb s nt')) (seq 0 n_nts))
       (seq 0 (tb_n_states tb)).

(** src/lr_codegen.rs:308-337: one entry of ACTION *)
Definition emit_action (g : grammar nat) (a : option (lr_action nat)) : res (option rt_action) :=
  match a with
  | None => Ok None
  | Some (Shift next) => let* n := u32_try_from next in Ok (Some (RShift n))
  | Some (Reduce nt p act) =>
      match get_production g nt p with
      | None => Panic PIndex
      | Some pr =>
          let* n_symbols := u16_try_from (List.length (p_symbols pr)) in
          let* nt' := u16_try_from nt in
          Ok (Some (RReduce nt' n_symbols act))
      end
  | Some Accept => Ok (Some RAccept)
  end.

(** src/lr_codegen.rs:293-351 [generate_action_array] *)
Definition generate_action_array (g : grammar nat) (table : list (list (option (lr_action nat))))
  (n_states n_terminals : nat) : res (list (list (option rt_action))) :=
  if Nat.eqb (List.length table) n_states then
    mapM (fun row => if Nat.eqb (List.length row) (n_terminals + 1) then mapM (emit_action g) row
                     else Panic PAssertTable) table
  else Panic PAssertTable.

(** src/lr_codegen.rs:353-381 [generate_goto_array] *)
Definition generate_goto_array (table : list (list (option nat))) : res (list (list (option nat))) :=
  mapM (mapM (fun o => match o with
                       | None => Ok None
                       | Some s => let* s' := u32_try_from s in Ok (Some s')
                       end)) table.

(** [strs.join(", ")] (src/codegen.rs:481) *)
Definition join (l : list string) : string := String.concat ", " l.

(** src/codegen.rs:459-489 [generate_expected_state_tokens] *)
Definition expected_state_tokens (g : grammar nat) (tb : lr_table nat) : list string :=
  map (fun s => join (flat_map (fun '(t, str) => match get_action tb s (Some t) with
                                                 | Some _ => [str]
                                                 | None => []
                                                 end) (enumerate (g_terminals g))))
      (seq 0 (tb_n_states tb)).

(** src/codegen.rs:498-511 [generate_token_to_text] *)
Definition token_to_text {A} (g : grammar A) : list string := g_terminals g ++ ["end-of-input"%string].

(** src/lr_codegen.rs:79-119: [pub struct NonTerminal; impl NonTerminal { pub fn parse .. }] *)
Record parser_struct : Type := {
  pr_name : string;
  pr_return_ty : ty;
  pr_extract_variant : nat;
  pr_init_state : nat;
  pr_action_idx : nat
}.

(** Everything the generated module contains. [gp_conversions] stands for the two generated
    token functions (src/codegen.rs:142-213), see Pattern.v. *)
Record generated (A : Type) : Type := {
  gp_action : list (list (option rt_action));
  gp_goto : list (list (option nat));
  gp_sem_actions : list (sem_fn A);
  gp_expected : list string;
  gp_terminal_strs : list string;
  gp_n_terminals : nat;
  gp_parsers : list parser_struct;
  gp_conversions : list conversion
}.
Arguments gp_action {A}. Arguments gp_goto {A}. Arguments gp_sem_actions {A}.
Arguments gp_expected {A}. Arguments gp_terminal_strs {A}. Arguments gp_n_terminals {A}.
Arguments gp_parsers {A}. Arguments gp_conversions {A}.

(** [Ident::to_string] of a raw identifier starts with [r#]; [syn::Ident::new] panics on such a string
    (src/lr_codegen.rs:85: the name of a [pub] non-terminal, as text; src/codegen.rs:149-152: the lowercased name of
    the token type followed by [_terminal_idx]).  Every other [Ident::new] of the crate is given a fixed string or a
    fixed prefix followed by a decimal number. *)
Definition is_raw (s : string) : bool := String.prefix "r#" s.

(** src/lr_codegen.rs:81-118 *)
Definition gen_parser (g : grammar nat) (variants : list nat) (e : nat * nat) : res parser_struct :=
  let (nt, state) := e in
  let* st := u32_try_from state in
  match get_non_terminal g nt with
  | None => Panic PIndex
  | Some n =>
      if is_raw (nt_name n) then Panic PRawName else
      match get_production g nt 0, variant_of variants nt with
      | Some p, Some v =>
          Ok {| pr_name := nt_name n; pr_return_ty := nt_return_ty n; pr_extract_variant := v;
                pr_init_state := st; pr_action_idx := p_action p |}
      | _, _ => Panic PIndex
      end
  end.

(** src/codegen.rs:149-152 [token_terminal_idx_fn], the name of the function.  Lowercasing and appending
    [_terminal_idx] keep a name raw or not raw: [r#] is lowercase, and [#] occurs in no other identifier.  The text of
    the name is in Names.v. *)
Definition token_terminal_idx_fn_name (te : token_enum) : res unit :=
  if is_raw (te_type_name te) then Panic PRawName else Ok tt.

(** src/lr_codegen.rs:15-232 [generate_lr1_parser] *)
Definition generate_lr1_parser {A} (ho : hash_order) (fuel : nat) (g : grammar A)
  (te : token_enum) : res (generated A) :=
  let* tbl := generate_first_table ho fuel g in
  let* (states, entries) := generate_lr1_automaton ho fuel g tbl in
  let variants := variant_names g in
  let* (fns, g') := generate_semantic_action_table g variants in
  let* tb := build_lr1_table ho g' states in
  let* act := generate_action_array g' (action_table_vec g' tb) (tb_n_states tb) (n_terminals g) in
  let* gv := generate_goto_vec tb (n_non_terminals g') in
  let* gt := generate_goto_array gv in
  let* _ := token_terminal_idx_fn_name te in
  let* parsers := mapM (gen_parser g' variants) (ho_entries ho entries) in
  Ok {| gp_action := act; gp_goto := gt; gp_sem_actions := fns;
        gp_expected := expected_state_tokens g' tb;
        gp_terminal_strs := token_to_text g';
        gp_n_terminals := n_terminals g;
        gp_parsers := parsers; gp_conversions := te_conversions te |}.
