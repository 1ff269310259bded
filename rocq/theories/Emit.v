(** * Emit: the [quote!] templates of src/lr_codegen.rs and src/codegen.rs

    The module the macro emits, as a list of Rust items (Rust.v), from the data of Codegen.v: the token enum [te], the
    lowered grammar [g] and the computed tables [gp].  Types, attributes, visibility and generic parameters are left
    out, except for the variants of enums and the lengths of arrays. *)
From Verif Require Export Rust.
Local Open Scope string_scope. Local Open Scope list_scope.

Section Emit.
Context {A : Type}.
Variable te : token_enum.
Variable g : grammar (lexpr A).
Variable gp : generated (lexpr A).
Notation expr := (expr A). Notation item := (item A).

(** src/lr_codegen.rs:125-136 *)
Definition e_lr_action : item :=
  IEnum "LRAction" []
    [("Shift", ShFields [("next_state", "u32")]);
     ("Reduce", ShFields [("non_terminal_idx", "u16"); ("n_symbols", "u16"); ("semantic_action_idx", "u16")]);
     ("Accept", ShUnit)].

(** src/lr_codegen.rs:310-337 *)
Definition e_action (a : rt_action) : expr :=
  match a with
  | RShift s => XStruct "LRAction" "Shift" [("next_state", XInt U32 s)]
  | RReduce nt n act => XStruct "LRAction" "Reduce" [("non_terminal_idx", XInt U16 nt); ("n_symbols", XInt U16 n); ("semantic_action_idx", XInt U16 act)]
  | RAccept => XPath "LRAction" "Accept"
  end.
(** [Some(..)] or [None]. src/lr_codegen.rs:338-341, 362-368. *)
Definition e_option {X} (f : X -> expr) (o : option X) : expr := match o with Some x => XCall (XId "Some") [f x] | None => XId "None" end.
(** src/lr_codegen.rs:342-350 *)
Definition e_action_array : item :=
  IStatic "ACTION" [List.length (gp_action gp); gp_n_terminals gp + 1]
    (XArray (map (fun row => XArray (map (e_option e_action) row)) (gp_action gp))).
(** src/lr_codegen.rs:353-381 *)
Definition e_goto_array : item :=
  IStatic "GOTO" [List.length (gp_goto gp); List.length (g_nts g)]
    (XArray (map (fun row => XArray (map (e_option (XInt U32)) row)) (gp_goto gp))).

(** src/lr_codegen.rs:144-151 *)
Definition e_parse_error : item :=
  IEnum "ParseError" [] [("LexerError", ShTuple ["E"]); ("ParserError", ShFields [("found", "&'static str"); ("expected", "&'static str")])].

(** src/codegen.rs:154-173 *)
Definition e_token_terminal_idx : item :=
  IFn (token_terminal_idx_name te)
    {| fd_params := ["token"];
       fd_body := XMatch (XId "token") (map (fun '(i, c) => (PUser (pattern_ignore (cv_to c)), XInt Usize i)) (enumerate (te_conversions te))) |}.

(** src/codegen.rs:188-210 *)
Definition e_token_value : item :=
  IFn "token_value"
    {| fd_params := ["token"];
       fd_body := XMatch (XId "token")
         (map (fun '(i, c) => let (r, xs) := generate_pattern_syn_with_idents (cv_to c) in
                              (PUser r, XCall (XPath "SemanticActionResult" (token_variant_name i)) (map XId xs)))
              (enumerate (te_conversions te))) |}.

(** src/codegen.rs:284, 321, 342-345 *)
Definition e_result_type : item :=
  IEnum "SemanticActionResult" (te_lifetimes te) (map (fun '(x, tys) => (x, ShTuple tys)) (result_enum te g)).

(** The tuple of the fields: one element is just parenthesised. src/codegen.rs:296. *)
Definition e_tuple (es : list expr) : expr := match es with [e] => e | _ => XTuple es end.
(** src/codegen.rs:286-300 *)
Definition e_token_method (i : nat) (c : conversion) : string * fn_def A :=
  let fields := map field_ident (seq 0 (List.length (pattern_types (cv_to c)))) in
  (token_method_name i,
   {| fd_params := ["self"];
      fd_body := XMatch (XId "self") [(PTuple "Self" (token_variant_name i) (map PBind fields), e_tuple (map XId fields)); (PWild, XUnreachable)] |}).
(** src/codegen.rs:323-331 *)
Definition e_non_terminal_method (v : nat) : string * fn_def A :=
  (non_terminal_method_name v,
   {| fd_params := ["self"];
      fd_body := XMatch (XId "self") [(PTuple "Self" (non_terminal_variant_name v) [PBind "f"], XId "f"); (PWild, XUnreachable)] |}).
(** src/codegen.rs:347-349 *)
Definition e_result_impl : item :=
  IImpl "SemanticActionResult"
    (map (fun '(i, c) => e_token_method i c) (enumerate (te_conversions te)) ++ map e_non_terminal_method (seq 0 (n_variants g))).

(** src/codegen.rs:55-80, 93-100: the body of an action function; [value_stack.pop();] or
    [let mut? name = value_stack.pop().unwrap().extract_method();], and the final push.  The action of an entry point is
    the expression [x] (src/lower.rs:58-68). *)
Fixpoint e_body (pops : list pop_stmt) (variant : nat) (action : lexpr A) : expr :=
  match pops with
  | [] => XMethod (XId "value_stack") "push"
            [XCall (XPath "SemanticActionResult" (non_terminal_variant_name variant))
                   [match action with EUser a => XUser a | EVar x => XId x end]]
  | PopIgnore :: pops' => XSeq (XMethod (XId "value_stack") "pop" []) (e_body pops' variant action)
  | PopBind _ x m :: pops' =>
      XLet x (XMethod (XMethod (XMethod (XId "value_stack") "pop" []) "unwrap" []) (method_name m) []) (e_body pops' variant action)
  end.
(** src/codegen.rs:93-100 *)
Definition e_action_fn (d : string * sem_fn (lexpr A)) : item :=
  IFn (fst d) {| fd_params := ["value_stack"]; fd_body := e_body (sf_pops (snd d)) (sf_variant (snd d)) (sf_action (snd d)) |}.
(** src/codegen.rs:121-126 *)
Definition e_semantic_actions : item := IStatic "SEMANTIC_ACTIONS" [List.length (fn_names g)] (XArray (map XId (fn_names g))).

(** src/codegen.rs:484-488 *)
Definition e_expected : item := IStatic "EXPECTED_TERMINALS" [List.length (gp_action gp)] (XArray (map XStr (gp_expected gp))).
(** src/codegen.rs:500, 506-510 *)
Definition e_terminal_strs : item := IStatic "TERMINAL_STRS" [gp_n_terminals gp + 1] (XArray (map XStr (gp_terminal_strs gp))).

(** [*state_stack.last().unwrap() as usize] (src/lr_codegen.rs:187, 213) *)
Definition e_top : expr := XAsUsize (XDeref (XMethod (XMethod (XId "state_stack") "last" []) "unwrap" [])).

(** src/lr_codegen.rs:188-192 *)
Definition e_terminal : expr :=
  XMatch (XRef (XId "token"))
    [(PUnit "" "None", XInt Usize (gp_n_terminals gp));
     (PTuple "" "Some" [PTuple "" "Err" [PBind "err"]],
      XReturn (XCall (XId "Err") [XCall (XPath "ParseError" "LexerError") [XMethod (XId "err") "clone" []]]));
     (PTuple "" "Some" [PTuple "" "Ok" [PBind "token"]], XCall (XId (token_terminal_idx_name te)) [XRef (XId "token")])].
(** src/lr_codegen.rs:194-200 *)
Definition e_error : expr :=
  XLet "found" (XIndex (XId "TERMINAL_STRS") (XId "terminal_idx"))
    (XLet "expected" (XIndex (XId "EXPECTED_TERMINALS") (XId "state"))
      (XReturn (XCall (XId "Err") [XStruct "ParseError" "ParserError" [("found", XId "found"); ("expected", XId "expected")]]))).
(** src/lr_codegen.rs:201-207 *)
Definition e_shift : expr :=
  XSeq (XMethod (XId "state_stack") "push" [XId "next_state"])
    (XLet "token_" (XCall (XPath "::std::mem" "replace") [XMutRef "token"; XMethod (XId "input") "next" []])
      (XIfLet (PTuple "" "Some" [PTuple "" "Ok" [PBind "token"]]) (XId "token_")
        (XMethod (XId "value_stack") "push" [XCall (XId "token_value") [XId "token"]]))).
(** src/lr_codegen.rs:208-218 *)
Definition e_reduce : expr :=
  XSeq (XCall (XIndex (XId "SEMANTIC_ACTIONS") (XAsUsize (XId "semantic_action_idx"))) [XMutRef "value_stack"])
    (XSeq (XFor (XId "n_symbols") (XMethod (XMethod (XId "state_stack") "pop" []) "unwrap" []))
      (XLet "state" e_top
        (XMatch (XIndex (XIndex (XId "GOTO") (XId "state")) (XAsUsize (XId "non_terminal_idx")))
          [(PUnit "" "None", XPanic "Stuck! (2)");
           (PTuple "" "Some" [PBind "next_state"], XMethod (XId "state_stack") "push" [XId "next_state"])]))).
(** src/lr_codegen.rs:186-221 *)
Definition e_loop_body : expr :=
  XLet "state" e_top
    (XLet "terminal_idx" e_terminal
      (XMatch (XIndex (XIndex (XId "ACTION") (XId "state")) (XId "terminal_idx"))
        [(PUnit "" "None", e_error);
         (PTuple "" "Some" [PFields "LRAction" "Shift" ["next_state"]], e_shift);
         (PTuple "" "Some" [PFields "LRAction" "Reduce" ["non_terminal_idx"; "n_symbols"; "semantic_action_idx"]], e_reduce);
         (PTuple "" "Some" [PUnit "LRAction" "Accept"], XBreak)])).
(** src/lr_codegen.rs:223-227 *)
Definition e_after_loop : expr :=
  XSeq (XCall (XIndex (XId "SEMANTIC_ACTIONS") (XId "action_idx")) [XMutRef "value_stack"])
    (XCall (XId "Ok") [XCall (XId "extract_value") [XMethod (XMethod (XId "value_stack") "pop" []) "unwrap" []]]).
(** src/lr_codegen.rs:174-228 *)
Definition e_parse_generic : item :=
  IFn "parse_generic"
    {| fd_params := ["input"; "extract_value"; "init_state"; "action_idx"];
       fd_body :=
         XLet "state_stack" (XVec [XId "init_state"])
           (XLet "value_stack" (XVec [])
             (XLet "token" (XMethod (XId "input") "next" [])
               (XSeq (XLoop e_loop_body) e_after_loop))) |}.

(** src/lr_codegen.rs:101-117 *)
Definition e_parser (pr : parser_struct) : list item :=
  [IStruct (pr_name pr);
   IImpl (pr_name pr)
     [("parse",
       {| fd_params := ["input"];
          fd_body := XCall (XId "parse_generic")
                       [XId "input"; XPath "SemanticActionResult" (non_terminal_method_name (pr_extract_variant pr));
                        XInt U32 (pr_init_state pr); XInt Usize (pr_action_idx pr)] |})]].

(** src/lr_codegen.rs:124-231: the whole expansion *)
Definition emit : list item :=
  [e_lr_action; e_action_array; e_goto_array; e_parse_error; e_token_terminal_idx; e_token_value; e_result_type; e_result_impl] ++
  map e_action_fn (fn_decls g gp) ++ [e_semantic_actions; e_expected; e_terminal_strs; e_parse_generic] ++
  flat_map e_parser (gp_parsers gp).
End Emit.
