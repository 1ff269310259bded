(** * AlikeSpec: two [parser! { .. }] blocks that differ in names, types, binders and actions only *)
From Verif Require Export Spec Codegen Lower.

Section AlikeSpec.
Context {A B : Type}.
Variables (rho tau : string -> string).       (* renaming of non-terminals, of token entries *)
Variable RA : A -> B -> Prop.                 (* how actions may differ *)
Variable RB : option name -> option name -> Prop.   (* how binders may differ *)
Variable RT : ty -> ty -> Prop.               (* how return types may differ *)

(** The same symbol under another name, with another binder. *)
Definition symbol_alike (s s' : ast_symbol) : Prop :=
  RB (binder_of s) (binder_of s') /\
  match unnamed s, unnamed s' with
  | ASTerminal t, ASTerminal t' => t' = tau t
  | ASNonTerminal n, ASNonTerminal n' => n' = rho n
  | ASRepeat _ _, ASRepeat _ _ => True
  | _, _ => False
  end.
Definition action_alike (a : ast_action A) (b : ast_action B) : Prop :=
  match a, b with
  | Infallible e, Infallible e' => RA e e'
  | Fallible e, Fallible e' => RA e e'
  | _, _ => False
  end.
Definition production_alike (p : ast_production A) (q : ast_production B) : Prop :=
  Forall2 symbol_alike (ap_symbols p) (ap_symbols q) /\ action_alike (ap_action p) (ap_action q).
Definition declaration_alike (N : ast_non_terminal A) (M : ast_non_terminal B) : Prop :=
  an_pub N = an_pub M /\ an_name M = rho (an_name N) /\ RT (an_type N) (an_type M) /\
  Forall2 production_alike (an_productions N) (an_productions M).
Definition token_enum_alike (te te' : token_enum) : Prop :=
  is_raw (te_type_name te') = is_raw (te_type_name te) /\
  Forall2 (fun c c' => cv_from c' = tau (cv_from c)) (te_conversions te) (te_conversions te').
Definition items_alike (items : list (grammar_item A)) (items' : list (grammar_item B)) : Prop :=
  Forall2 declaration_alike (declared_nts items) (declared_nts items') /\
  Forall2 token_enum_alike (declared_tokens items) (declared_tokens items') /\
  List.length (declared_states items) = List.length (declared_states items').

(** The names in the diagnostics of lowering. *)
Definition rename_panic (p : panic) : panic :=
  match p with
  | PDupTerminal s => PDupTerminal (tau s)
  | PUnknownNonTerminal s => PUnknownNonTerminal (rho s)
  | PUnknownTerminal s => PUnknownTerminal (tau s)
  | _ => p
  end.
End AlikeSpec.

(** No two names become equal. *)
Definition injective (f : string -> string) : Prop := forall a b, f a = f b -> a = b.
(** Raw identifiers ([r#type]) stay raw, others do not become raw. *)
Definition keeps_raw (f : string -> string) : Prop := forall a, is_raw (f a) = is_raw a.

(** ** Modules that differ in names and actions only *)

Section SameCode.
Context {A B : Type}.
Variable f : A -> B.
(** [gp'] is [gp] with every action expression replaced by its image under [f] (names of parsers aside). *)
Definition map_sem_fn (x : sem_fn A) : sem_fn B :=
  {| sf_pops := sf_pops x; sf_variant := sf_variant x; sf_action := f (sf_action x) |}.
Record same_code (gp : generated A) (gp' : generated B) : Prop := {
  sc_action : gp_action gp' = gp_action gp;
  sc_goto : gp_goto gp' = gp_goto gp;
  sc_sem : gp_sem_actions gp' = map map_sem_fn (gp_sem_actions gp);
  sc_expected : gp_expected gp' = gp_expected gp;
  sc_strs : gp_terminal_strs gp' = gp_terminal_strs gp;
  sc_n : gp_n_terminals gp' = gp_n_terminals gp;
  sc_conv : gp_conversions gp' = gp_conversions gp
}.
End SameCode.
(** Two parser structs that differ in their names only. *)
Definition same_entry (pr pr' : parser_struct) : Prop :=
  pr_return_ty pr' = pr_return_ty pr /\ pr_extract_variant pr' = pr_extract_variant pr /\
  pr_init_state pr' = pr_init_state pr /\ pr_action_idx pr' = pr_action_idx pr.

(** ** Repeated declarations (C33)

    What a block with repeated declarations means: the last declaration of a name holds the productions of
    all declarations of that name, in order; an earlier declaration keeps its visibility and type but has no
    productions, and nothing refers to it (its name is a fresh one). *)
Section Merge.
Context {A : Type}.
Variable fresh : nat -> string.
Definition named (x : string) (N : ast_non_terminal A) : bool := String.eqb (an_name N) x.
Fixpoint merge_from (all : list (ast_non_terminal A)) (i : nat) (l : list (ast_non_terminal A)) : list (ast_non_terminal A) :=
  match l with
  | [] => []
  | N :: r =>
      (if existsb (named (an_name N)) r
       then {| an_pub := an_pub N; an_name := fresh i; an_type := an_type N; an_productions := [] |}
       else {| an_pub := an_pub N; an_name := an_name N; an_type := an_type N;
               an_productions := flat_map an_productions (filter (named (an_name N)) all) |})
      :: merge_from all (S i) r
  end.
Definition merge (nts : list (ast_non_terminal A)) : list (ast_non_terminal A) := merge_from nts 0 nts.
Definition merged (items : list (grammar_item A)) : list (grammar_item A) :=
  map GITokenEnum (declared_tokens items) ++ map GITypeDefState (declared_states items) ++ map GINonTerminal (merge (declared_nts items)).
(** The fresh names occur nowhere (and are raw identifiers where the names they replace are). *)
Definition fresh_for (nts : list (ast_non_terminal A)) : Prop :=
  (forall i j, fresh i = fresh j -> i = j) /\ (forall i, ~ In (fresh i) (map an_name nts)) /\
  (forall i, ~ used nts (ASNonTerminal (fresh i))) /\
  (forall i N, nth_error nts i = Some N -> is_raw (fresh i) = is_raw (an_name N)).
(** The module [gp'] of the merged block is the module [gp] of [items], with parser structs under their new names. *)
Definition merged_module (items : list (grammar_item A)) (gp gp' : generated (lexpr A)) : Prop :=
  same_code (fun a => a) gp gp' /\
  Forall2 (fun pr pr' => same_entry pr pr' /\
     exists D D', In (D, D') (combine (declared_nts items) (merge (declared_nts items))) /\
       an_pub D = true /\ pr_name pr = an_name D /\ pr_name pr' = an_name D') (gp_parsers gp) (gp_parsers gp').
End Merge.

(** ** Renaming non-terminals and replacing actions *)
Section MapItems.
Context {A B : Type}.
Variable rho : string -> string.
Variable f : A -> B.
Fixpoint map_symbol (s : ast_symbol) : ast_symbol :=
  match s with
  | ASTerminal t => ASTerminal t
  | ASNonTerminal n => ASNonTerminal (rho n)
  | ASRepeat op s' => ASRepeat op (map_symbol s')
  | ASNamed b s' => ASNamed b (map_symbol s')
  end.
Definition map_action (a : ast_action A) : ast_action B :=
  match a with Infallible e => Infallible (f e) | Fallible e => Fallible (f e) end.
Definition map_production (p : ast_production A) : ast_production B :=
  {| ap_symbols := map map_symbol (ap_symbols p); ap_action := map_action (ap_action p) |}.
Definition map_declaration (N : ast_non_terminal A) : ast_non_terminal B :=
  {| an_pub := an_pub N; an_name := rho (an_name N); an_type := an_type N; an_productions := map map_production (an_productions N) |}.
Definition map_items (items : list (grammar_item A)) : list (grammar_item B) :=
  map (fun gi => match gi with
                 | GITypeDefState t => GITypeDefState t
                 | GITokenEnum te => GITokenEnum te
                 | GINonTerminal n => GINonTerminal (map_declaration n)
                 end) items.
Definition rename_parser (pr : parser_struct) : parser_struct :=
  {| pr_name := rho (pr_name pr); pr_return_ty := pr_return_ty pr; pr_extract_variant := pr_extract_variant pr;
     pr_init_state := pr_init_state pr; pr_action_idx := pr_action_idx pr |}.
Definition map_lexpr (a : lexpr A) : lexpr B := match a with EUser e => EUser (f e) | EVar x => EVar x end.
Definition map_module (gp : generated (lexpr A)) : generated (lexpr B) :=
  {| gp_action := gp_action gp; gp_goto := gp_goto gp; gp_sem_actions := map (map_sem_fn map_lexpr) (gp_sem_actions gp);
     gp_expected := gp_expected gp; gp_terminal_strs := gp_terminal_strs gp; gp_n_terminals := gp_n_terminals gp;
     gp_parsers := map rename_parser (gp_parsers gp); gp_conversions := gp_conversions gp |}.
End MapItems.

(** Two modules with the same tables: entry points have the same states, the expected strings list
    corresponding tokens. *)
Record same_tables {A B} (rho tau : string -> string) (gp : generated A) (gp' : generated B) : Prop := {
  st_action : gp_action gp' = gp_action gp;
  st_gotos : gp_goto gp' = gp_goto gp;
  st_n : gp_n_terminals gp' = gp_n_terminals gp;
  st_sem : List.length (gp_sem_actions gp') = List.length (gp_sem_actions gp);
  st_expected : exists ls : list (list string), gp_expected gp = map (String.concat ", "%string) ls /\
    gp_expected gp' = map (fun l => String.concat ", "%string (map tau l)) ls;
  st_strs : exists l : list string, gp_terminal_strs gp = l ++ ["end-of-input"%string] /\
    gp_terminal_strs gp' = map tau l ++ ["end-of-input"%string];
  st_parsers : Forall2 (fun pr pr' => pr_name pr' = rho (pr_name pr) /\ pr_init_state pr' = pr_init_state pr /\
    pr_action_idx pr' = pr_action_idx pr) (gp_parsers gp) (gp_parsers gp')
}.
