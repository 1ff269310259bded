(** * PropSpec: vocabulary of the property theorems (Properties.v).

    What it means that [parser! { .. }] expands, and that a generated [parse] function returns.  The
    specification proper is in Spec.v, USpec.v (user level) and GSpec.v, Lr1Spec.v (lowered grammars). *)
From Verif Require Export USpec Macro GSpec.

Section PropSpec.
Context {A : Type}.

(** [parser! { items }] expands to [gp]: for some iteration order of the hash maps, and enough fuel for
    the loops of the macro. *)
Definition expands (items : list (grammar_item A)) (gp : generated (lexpr A)) : Prop :=
  exists ho fuel, hash_order_ok ho /\ macro ho fuel items = Ok gp.
(** [parser! { items }] panics. *)
Definition expansion_panics (items : list (grammar_item A)) (p : panic) : Prop :=
  exists ho fuel, hash_order_ok ho /\ macro ho fuel items = Panic p.

Context {E V W I : Type}.
(** [Entry::parse], called on iterator [it] in world [w], returns with outcome [o]. *)
Definition returns (gp : generated (lexpr A)) (inj : rval -> V) (usem : A -> list (string * bval V) -> W -> option (V * W))
  (next : I -> option (rval + E) * I) (pr : parser_struct) (it : I) (w : W) (o : outcome E V W I) : Prop :=
  exists fuel, parse gp (user_env gp inj usem next) fuel pr it w = Some o.
(** The same, with the calls of [next()] and of semantic actions made on the way. *)
Definition returns_with (gp : generated (lexpr A)) (inj : rval -> V) (usem : A -> list (string * bval V) -> W -> option (V * W))
  (next : I -> option (rval + E) * I) (pr : parser_struct) (it : I) (w : W) (o : outcome E V W I)
  (evs : list (event rval E)) : Prop :=
  exists fuel, parse gp (user_env gp inj usem next) fuel pr it w = Some o /\
    parse_events gp (user_env gp inj usem next) fuel pr it w = evs.

(** [n] iterations of the loop of [parse], none of which returns. *)
Fixpoint iterations (gp : generated (lexpr A)) (env : env_t (lexpr A) rval E V W I) (pr : parser_struct) (n : nat)
  (st : pstate rval E V W I) : option (pstate rval E V W I) :=
  match n with
  | 0 => Some st
  | S n' => match step gp env pr st with inl st' => iterations gp env pr n' st' | inr _ => None end
  end.
(** [Entry::parse] is still running after [n] iterations of its loop: iterator, world and the calls made so far. *)
Definition running (gp : generated (lexpr A)) (inj : rval -> V) (usem : A -> list (string * bval V) -> W -> option (V * W))
  (next : I -> option (rval + E) * I) (pr : parser_struct) (it : I) (w : W) (n : nat) (it' : I) (w' : W)
  (evs : list (event rval E)) : Prop :=
  exists st, iterations gp (user_env gp inj usem next) pr n (init_pstate (user_env gp inj usem next) pr it w) = Some st /\
    ps_iter st = it' /\ ps_world st = w' /\ parse_events gp (user_env gp inj usem next) n pr it w = evs.
End PropSpec.

(** [gp] is what [parser! { items }] expands to and [pr] one of its parsers.  Side conditions: declared
    names are distinct and token patterns contain no one-element tuple pattern (see Findings.v). *)
Definition parser_of {A} (items : list (grammar_item A)) (gp : generated (lexpr A)) (pr : parser_struct) : Prop :=
  distinct_names items /\ plain_patterns items /\ expands items gp /\ In pr (gp_parsers gp).

(** The comma-separated list of the token entries selected by [listed], in declaration order. *)
Definition listing {A} (items : list (grammar_item A)) (listed : string -> bool) : string :=
  String.concat ", " (filter listed (map cv_from (token_entries items))).

(** [toks] and then the result [r] is what [next] returns, called repeatedly from [it]; [it'] is the
    iterator afterwards. *)
Definition feeds_then {Tok E I} (next : I -> option (Tok + E) * I) (it : I) (toks : list Tok) (r : option (Tok + E)) (it' : I) : Prop :=
  exists it1, feeds next it toks it1 /\ next it1 = (r, it').

(** The results of the [next()] calls among some events. *)
Definition nexts_of {Tok E} (evs : list (event Tok E)) : list (option (Tok + E)) :=
  flat_map (fun v => match v with EvNext r => [r] | EvCall _ => [] end) evs.

(** An iterator that ends: finitely many tokens, then [None] or [Err(e)]. *)
Definition ends {Tok E I} (next : I -> option (Tok + E) * I) (it : I) : Prop :=
  exists toks r it', feeds_then next it toks r it' /\ (r = None \/ exists e, r = Some (inr e)).

(** What the [expected] string of a [ParserError] tells: it lists the token entries selected by [listed];
    had the parser been fed [toks] and then, instead of the offending token, a token [tok] of a listed
    entry, it would have read on past [tok] (unless an action panics first); with a token of an unlisted
    entry it would have failed in the same way.  [w] is the state of the world when the error occurred. *)
Definition error_report {A V W} (E I : Type) (items : list (grammar_item A)) (gp : generated (lexpr A)) (inj : rval -> V)
  (usem : A -> list (string * bval V) -> W -> option (V * W)) (pr : parser_struct) (w0 : W)
  (toks : list rval) (w : W) (expected : string) (listed : string -> bool) : Prop :=
  expected = listing items listed /\
  forall (next' : I -> option (rval + E) * I) it0' tok s it', token_class (token_entries items) tok = Some s ->
    feeds_then next' it0' toks (Some (inl tok)) it' ->
    if listed s then
      forall o', returns gp inj usem next' pr it0' w0 o' ->
        oc_result o' = PPanic UserPanic \/
        exists more r, feeds_then next' it0' (toks ++ tok :: more) r (oc_iter o')
    else returns gp inj usem next' pr it0' w0 {| oc_result := PParserError s expected; oc_iter := it'; oc_world := w |}.
