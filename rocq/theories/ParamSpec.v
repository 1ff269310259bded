(** * ParamSpec: vocabulary of the theorems relating two runs of one generated parser (PropertiesParam.v).

    The same generated module is compiled together with two versions of the user's code (action
    expressions, token type, lexer), whose value types [V], [V'], error types, worlds and iterators may
    differ.  [R T] relates values of the Rust type [T], [RF s] the selected fields of tokens of entry [s],
    [RW] worlds and [RE] lexer errors. *)
From Verif Require Export PropSpec.

(** The responses [l] of successive calls of [next()] from [it]; [it'] is the iterator afterwards. *)
Inductive answers {Tok E I} (next : I -> option (Tok + E) * I) : I -> list (option (Tok + E)) -> I -> Prop :=
| an_nil : forall it, answers next it [] it
| an_cons : forall it r it1 l it', next it = (r, it1) -> answers next it1 l it' -> answers next it (r :: l) it'.

(** Both absent, or both present and related. *)
Definition option_related {X Y} (P : X -> Y -> Prop) (x : option X) (y : option Y) : Prop :=
  match x, y with
  | None, None => True
  | Some a, Some b => P a b
  | _, _ => False
  end.

(** Responses of [next()] *)
Definition response_related {Tok Tok' E E'} (RT : Tok -> Tok' -> Prop) (RE : E -> E' -> Prop) : option (Tok + E) -> option (Tok' + E') -> Prop :=
  option_related (fun r r' => match r, r' with
    | inl tok, inl tok' => RT tok tok'
    | inr e, inr e' => RE e e'
    | _, _ => False
    end).

(** Results of [parse]: the same kind of result, related values or errors, the same error strings and the
    same panic. *)
Definition result_related {V V' E E'} (RV : V -> V' -> Prop) (RE : E -> E' -> Prop) (r : presult V E) (r' : presult V' E') : Prop :=
  match r, r' with
  | POk v, POk v' => RV v v'
  | PLexerError e, PLexerError e' => RE e e'
  | PParserError f x, PParserError f' x' => f = f' /\ x = x'
  | PPanic q, PPanic q' => q = q'
  | _, _ => False
  end.

(** Calls: the same calls of semantic actions in the same order, and related responses of [next()]. *)
Definition call_related {Tok Tok' E E'} (RT : Tok -> Tok' -> Prop) (RE : E -> E' -> Prop) (e : event Tok E) (e' : event Tok' E') : Prop :=
  match e, e' with
  | EvNext r, EvNext r' => response_related RT RE r r'
  | EvCall a, EvCall a' => a = a'
  | _, _ => False
  end.

Section Related.
Context {A V V' W W' : Type}.
Variable items : list (grammar_item A).
Variable R : ty -> V -> V' -> Prop.
Variable RF : string -> list V -> list V' -> Prop.
Variable RW : W -> W' -> Prop.

(** Values of a symbol of a right-hand side: by the type of the non-terminal, or the token entry. *)
Inductive symbol_related : ast_symbol -> bval V -> bval V' -> Prop :=
| sr_named : forall x s b b', symbol_related s b b' -> symbol_related (ASNamed x s) b b'
| sr_terminal : forall t fs fs', RF t fs fs' -> symbol_related (ASTerminal t) (BTok fs) (BTok fs')
| sr_non_terminal : forall N x x', In N (declared_nts items) -> R (an_type N) x x' ->
    symbol_related (ASNonTerminal (an_name N)) (BVal x) (BVal x').

(** Variables in scope of the action of a production with right-hand side [ss]: one for each bound symbol,
    in order, under the same name, with related values. *)
Inductive scope_related : list ast_symbol -> list (string * bval V) -> list (string * bval V') -> Prop :=
| sc_nil : scope_related [] [] []
| sc_unbound : forall s ss vs vs', binder_of s = None -> scope_related ss vs vs' -> scope_related (s :: ss) vs vs'
| sc_bound : forall s x b b' ss vs vs', binder_of s = Some x -> symbol_related s b b' -> scope_related ss vs vs' ->
    scope_related (s :: ss) ((nm_name x, b) :: vs) ((nm_name x, b') :: vs').

(** Each action takes related variables and worlds to related values (of the type declared for the
    non-terminal) and worlds, or panics in both versions. *)
Definition actions_related (usem : A -> list (string * bval V) -> W -> option (V * W))
  (usem' : A -> list (string * bval V') -> W' -> option (V' * W')) : Prop :=
  forall N q vs vs' w w', In N (declared_nts items) -> In q (an_productions N) ->
    scope_related (ap_symbols q) vs vs' -> RW w w' ->
    option_related (fun x x' => R (an_type N) (fst x) (fst x') /\ RW (snd x) (snd x'))
      (usem (action_expr (ap_action q)) vs w) (usem' (action_expr (ap_action q)) vs' w').

(** Tokens: of the same entry, with related fields. *)
Definition token_related (inj : rval -> V) (inj' : rval -> V') (tok tok' : rval) : Prop :=
  token_class (token_entries items) tok = token_class (token_entries items) tok' /\
  forall s, token_class (token_entries items) tok = Some s ->
    RF s (map inj (token_fields (token_entries items) tok)) (map inj' (token_fields (token_entries items) tok')).
End Related.

(** ** Types

    [T t v]: [v] is a value of the Rust type [t]; [TF s fs]: [fs] are values of the types of the fields
    selected by the pattern of token entry [s]. *)
Section Typed.
Context {A V W : Type}.
Variable items : list (grammar_item A).
Variable T : ty -> V -> Prop.
Variable TF : string -> list V -> Prop.

Inductive symbol_typed : ast_symbol -> bval V -> Prop :=
| st_named : forall x s b, symbol_typed s b -> symbol_typed (ASNamed x s) b
| st_terminal : forall t fs, TF t fs -> symbol_typed (ASTerminal t) (BTok fs)
| st_non_terminal : forall N x, In N (declared_nts items) -> T (an_type N) x -> symbol_typed (ASNonTerminal (an_name N)) (BVal x).
(** The variables in scope of an action: one for each bound symbol, of the type of that symbol. *)
Inductive scope_typed : list ast_symbol -> list (string * bval V) -> Prop :=
| ss_nil : scope_typed [] []
| ss_unbound : forall s ss vs, binder_of s = None -> scope_typed ss vs -> scope_typed (s :: ss) vs
| ss_bound : forall s x b ss vs, binder_of s = Some x -> symbol_typed s b -> scope_typed ss vs ->
    scope_typed (s :: ss) ((nm_name x, b) :: vs).
(** Actions compute values of the declared types from well-typed variables (what rustc checks). *)
Definition actions_typed (usem : A -> list (string * bval V) -> W -> option (V * W)) : Prop :=
  forall N q vs w v w', In N (declared_nts items) -> In q (an_productions N) -> scope_typed (ap_symbols q) vs ->
    usem (action_expr (ap_action q)) vs w = Some (v, w') -> T (an_type N) v.
(** The two versions of the actions agree on well-typed variables. *)
Definition agree_on_typed (usem usem' : A -> list (string * bval V) -> W -> option (V * W)) : Prop :=
  forall N q vs w, In N (declared_nts items) -> In q (an_productions N) -> scope_typed (ap_symbols q) vs ->
    usem (action_expr (ap_action q)) vs w = usem' (action_expr (ap_action q)) vs w.
(** A token whose selected fields have the declared types. *)
Definition token_typed (inj : rval -> V) (tok : rval) : Prop :=
  forall s, token_class (token_entries items) tok = Some s -> TF s (map inj (token_fields (token_entries items) tok)).
End Typed.

(** Actions that never panic. *)
Definition never_panics {A V W} (items : list (grammar_item A)) (usem : A -> list (string * bval V) -> W -> option (V * W)) : Prop :=
  forall N q vs w, In N (declared_nts items) -> In q (an_productions N) -> usem (action_expr (ap_action q)) vs w <> None.
(** Responses of [next()] that only differ in the payload of tokens and in lexer errors. *)
Definition same_classes {A E E'} (items : list (grammar_item A)) : option (rval + E) -> option (rval + E') -> Prop :=
  response_related (fun tok tok' => token_class (token_entries items) tok = token_class (token_entries items) tok') (fun _ _ => True).
(** The semantic actions called, in order. *)
Definition calls_of {Tok E} (evs : list (event Tok E)) : list nat :=
  flat_map (fun v => match v with EvNext _ => [] | EvCall a => [a] end) evs.
