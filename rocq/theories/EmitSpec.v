(** * EmitSpec: what the emitted module should do, and which names are in its way *)
From Verif Require Import PropertiesHygiene.
From Verif Require Export Spec Emit.
Local Open Scope string_scope. Local Open Scope list_scope.

(** ** Rust values of the values of the runtime model (Runtime.v, Effects.v) *)
Section Encode.
Context {A E V St : Type}.
Notation val := (val E V). Notation user := (user A E V St). Notation cout := (cout E V St).

(** A binding is the value of a non-terminal, the single part of a token or the tuple of its parts. *)
Definition bval_val (b : bval V) : val :=
  match b with
  | BVal v | BTok [v] => VUser v
  | BTok fs => VTup (map VUser fs)
  end.
(** The user's action expressions, as Effects.v has them. *)
Definition action_sem (U : user) (a : A) (b : list (string * bval V)) (u : St) : completion V * St :=
  us_action U a (map (fun '(x, w) => (x, bval_val w)) b) u.
(** The module of Effects.v with the user's code [U]. *)
Definition module_env (gp : generated (lexpr A)) (U : user) : xenv (lexpr A) rval E V St :=
  user_xenv gp (us_part U) (action_sem U) (us_next U) (us_clone U).

(** Panics. *)
Definition panic_of (p : rt_panic) : panic_kind :=
  match p with
  | Stuck => KMessage "Stuck! (2)"
  | EmptyStateStack | EmptyValueStack => KUnwrap
  | OutOfBounds => KIndex
  | WrongVariant => KUnreachable
  | NoTokenMatch => KNoArm
  | UserPanic => KUser
  end.
(** What [parse] returns, as a Rust value; or how it panics. *)
Definition result_val (r : presult V E) : val + panic_kind :=
  match r with
  | POk v => inl (VCon "Result" "Ok" [VUser v])
  | PLexerError e => inl (VCon "Result" "Err" [VCon "ParseError" "LexerError" [VErr e]])
  | PParserError found expected => inl (VCon "Result" "Err" [VRec "ParseError" "ParserError" [("found", VStr found); ("expected", VStr expected)]])
  | PPanic p => inr (panic_of p)
  end.
(** A call of [parse] that ends as the model's run does; a run that goes on is out of fuel. *)
Definition call_of (c : xpstate rval E V St + xoutcome E V St) : cout :=
  match c with
  | inl _ => CFuel
  | inr o => match result_val (xo_result o) with
             | inl v => CVal v [VIter] (xo_user o)
             | inr k => CPanic k (xo_user o)
             end
  end.
End Encode.

(** ** Names

    The variables of the templates, and their statics. *)
Definition template_locals : list string :=
  ["input"; "extract_value"; "init_state"; "action_idx"; "state_stack"; "value_stack"; "token"; "state"; "terminal_idx"; "err";
   "found"; "expected"; "next_state"; "token_"; "non_terminal_idx"; "n_symbols"; "semantic_action_idx"; "self"; "f"; "x"].
Definition template_statics : list string := ["ACTION"; "GOTO"; "SEMANTIC_ACTIONS"; "EXPECTED_TERMINALS"; "TERMINAL_STRS"].

(** [x] is a binder of a production. *)
Definition binder_in {A} (nts : list (ast_non_terminal A)) (x : string) : Prop :=
  exists N pr s n, In N nts /\ In pr (an_productions N) /\ In s (ap_symbols pr) /\ binder_of s = Some n /\ nm_name n = x.
(** [x] is [f0], [f1], .., as far as the token patterns extract parts. *)
Definition part_name (te : token_enum) (x : string) : Prop :=
  exists c i, In c (te_conversions te) /\ i < List.length (pattern_types (cv_to c)) /\ x = ("f" ++ decimal i)%string.

(** No entry point is called like a variable of the module, and no binder like a constant. *)
Definition bindable {A} (nts : list (ast_non_terminal A)) (te : token_enum) : Prop :=
  (forall N, In N nts -> an_pub N = true -> ~ In (an_name N) template_locals /\ ~ binder_in nts (an_name N) /\ ~ part_name te (an_name N)) /\
  (forall x, binder_in nts x -> ~ In x template_statics /\ x <> "None").

(** The names a user has to keep to: entry points are called neither like an item of the module nor like a constructor of
    the prelude nor like a variable, and binders neither like a constant nor [value_stack]. *)
Definition usable_names {A} (items : list (grammar_item A)) (te : token_enum) (g : grammar (lexpr A)) : Prop :=
  (forall N, In N (declared_nts items) -> an_pub N = true ->
     an_name N <> "" /\ ~ taken te g (an_name N) /\ ~ In (an_name N) ["Some"; "None"; "Ok"; "Err"]) /\
  bindable (declared_nts items) te /\
  (forall x, binder_in (declared_nts items) x -> x <> "value_stack").
