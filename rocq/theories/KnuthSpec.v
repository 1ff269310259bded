(** * KnuthSpec: the canonical LR(1) machine of a user-written grammar.

    Knuth's shift-reduce machine, stated with declared names: the stack holds grammar symbols with their
    values; what to do next is decided by the LR(1)-valid items (USpec.v) of the symbols on the stack and
    one token of lookahead.  There are no states, tables, item sets or numbers here, and nothing is
    computed: decisions are defined by derivations.  Where a grammar is not LR(1), a shift is preferred to
    a reduction and accepting is preferred to a reduction. *)
From Verif Require Export PropSpec.

(** What the machine does to its surroundings: [next()] calls, actions of productions, accepting. *)
Inductive kevent (Tok E : Type) : Type :=
| KNext (r : option (Tok + E))
| KAction (nt : string) (p : nat)
| KAccept.
Arguments KNext {Tok E} r. Arguments KAction {Tok E} nt p. Arguments KAccept {Tok E}.

(** Stack (top first), last result of [next()], iterator, world. *)
Record kconf (Tok E V W I : Type) : Type := KConf {
  kc_stack : list (ast_symbol * bval V);
  kc_token : option (Tok + E);
  kc_iter : I;
  kc_world : W
}.
Arguments KConf {Tok E V W I}. Arguments kc_stack {Tok E V W I}. Arguments kc_token {Tok E V W I}.
Arguments kc_iter {Tok E V W I}. Arguments kc_world {Tok E V W I}.

Section Knuth.
Context {A Tok E V W I : Type}.
Variable nts : list (ast_non_terminal A).
(** [first beta x y]: token [y] ([None]: the end of the input) may begin what [beta] followed by [x] derives. *)
Variable first : list ast_symbol -> option string -> option string -> Prop.
Variable entries : list string.              (* the token entries, in declaration order *)
Variable class : Tok -> option string.
Variable fields : Tok -> list V.
Variable sem : A -> list (string * bval V) -> W -> option (V * W).
Variable next : I -> option (Tok + E) * I.
Variable start : string.                     (* the entry point *)
Notation kconf := (kconf Tok E V W I).

(** The symbols on the stack, bottom first. *)
Definition symbols (c : kconf) : list ast_symbol := rev (map fst (kc_stack c)).

(** Lookahead: the token entry of the current token, or [None] at the end of the input. *)
Inductive klook : option (Tok + E) -> option string -> Prop :=
| klook_end : klook None None
| klook_token : forall tok t, class tok = Some t -> klook (Some (inl tok)) (Some t).

(** The three moves, with their priorities. *)
Definition kshifts_by (gamma : list ast_symbol) (la : option string) : Prop :=
  exists t, la = Some t /\ ushifts_by nts first start gamma t.
Definition kaccepts_by (gamma : list ast_symbol) (la : option string) : Prop :=
  ureduces_by nts first start gamma None 0 la.
Definition kreduces_by (gamma : list ast_symbol) (la : option string) (n : string) (p : nat) : Prop :=
  ureduces_by nts first start gamma (Some n) p la /\ ~ kshifts_by gamma la /\ ~ kaccepts_by gamma la.
(** Nothing to do: an error. *)
Definition kblocked_by (gamma : list ast_symbol) (la : option string) : Prop :=
  ~ kshifts_by gamma la /\ ~ kaccepts_by gamma la /\ forall n p, ~ ureduces_by nts first start gamma (Some n) p la.

(** One move: push the token with its fields and read the next one; or replace the right-hand side on top
    of the stack by the left-hand side, with the value of the production's action. *)
Inductive kstep_by : kconf -> list (kevent Tok E) -> kconf -> Prop :=
| k_shift : forall st tok t it w r it',
    class tok = Some t -> kshifts_by (rev (map fst st)) (Some t) -> next it = (r, it') ->
    kstep_by (KConf st (Some (inl tok)) it w) [KNext r] (KConf ((ASTerminal t, BTok (fields tok)) :: st) r it' w)
| k_reduce : forall args rest tk it w la n p pr v w',
    klook tk la -> kreduces_by (rev (map fst (rev args ++ rest))) la n p ->
    uproduction nts n p = Some pr -> List.length args = List.length (ap_symbols pr) ->
    sem (action_expr (ap_action pr)) (ubindings (ap_symbols pr) (map snd args)) w = Some (v, w') ->
    kstep_by (KConf (rev args ++ rest) tk it w) [KAction n p] (KConf ((ASNonTerminal n, BVal v) :: rest) tk it w').

(** [listed t]: with [t] as the next token the machine would have something to do. *)
Definition klisted_by (gamma : list ast_symbol) (listed : string -> bool) : Prop :=
  forall t, listed t = true <-> ~ kblocked_by gamma (Some t).

(** How a run stops. *)
Inductive kstop_by : kconf -> list (kevent Tok E) -> outcome E V W I -> Prop :=
| k_accept : forall v it w, kaccepts_by [ASNonTerminal start] None ->
    kstop_by (KConf [(ASNonTerminal start, BVal v)] None it w) [KAccept] {| oc_result := POk v; oc_iter := it; oc_world := w |}
| k_action_panics : forall args rest tk it w la n p pr,
    klook tk la -> kreduces_by (rev (map fst (rev args ++ rest))) la n p ->
    uproduction nts n p = Some pr -> List.length args = List.length (ap_symbols pr) ->
    sem (action_expr (ap_action pr)) (ubindings (ap_symbols pr) (map snd args)) w = None ->
    kstop_by (KConf (rev args ++ rest) tk it w) [KAction n p] {| oc_result := PPanic UserPanic; oc_iter := it; oc_world := w |}
| k_lexer_error : forall st e it w,
    kstop_by (KConf st (Some (inr e)) it w) [] {| oc_result := PLexerError e; oc_iter := it; oc_world := w |}
| k_unknown_token : forall st tok it w, class tok = None ->
    kstop_by (KConf st (Some (inl tok)) it w) [] {| oc_result := PPanic NoTokenMatch; oc_iter := it; oc_world := w |}
| k_error : forall st tk it w la listed, klook tk la -> kblocked_by (rev (map fst st)) la -> klisted_by (rev (map fst st)) listed ->
    kstop_by (KConf st tk it w) []
      {| oc_result := PParserError (match la with Some t => t | None => "end-of-input"%string end)
                                   (String.concat ", " (filter listed entries));
         oc_iter := it; oc_world := w |}.

Inductive ksteps_by : nat -> kconf -> list (kevent Tok E) -> kconf -> Prop :=
| ks_0 : forall c, ksteps_by 0 c [] c
| ks_S : forall n c evs c1 evs' c2, kstep_by c evs c1 -> ksteps_by n c1 evs' c2 -> ksteps_by (S n) c (evs ++ evs') c2.

(** The machine starts with an empty stack, after reading one token. *)
Definition kinit (it : I) (w : W) : kconf := KConf [] (fst (next it)) (snd (next it)) w.
(** After [n] moves the machine is in configuration [c]. *)
Definition kruns_by (it : I) (w : W) (n : nat) (c : kconf) (evs : list (kevent Tok E)) : Prop :=
  exists evs', ksteps_by n (kinit it w) evs' c /\ evs = KNext (fst (next it)) :: evs'.
(** The machine stops with outcome [o]. *)
Definition kreturns_by (it : I) (w : W) (o : outcome E V W I) (evs : list (kevent Tok E)) : Prop :=
  exists n c evs1 evs2, kruns_by it w n c evs1 /\ kstop_by c evs2 o /\ evs = evs1 ++ evs2.
End Knuth.

(** With true FIRST sets: the canonical machine. *)
Notation kshifts nts := (kshifts_by nts (uin_first nts)).
Notation kaccepts nts := (kaccepts_by nts (uin_first nts)).
Notation kreduces nts := (kreduces_by nts (uin_first nts)).
Notation kblocked nts := (kblocked_by nts (uin_first nts)).
Notation kstep nts := (kstep_by nts (uin_first nts)).
Notation klisted nts := (klisted_by nts (uin_first nts)).
Notation kstop nts := (kstop_by nts (uin_first nts)).
Notation ksteps nts := (ksteps_by nts (uin_first nts)).
Notation kruns nts := (kruns_by nts (uin_first nts)).
Notation kreturns nts := (kreturns_by nts (uin_first nts)).

(** The calls made by generated code: [number n p] is the index in SEMANTIC_ACTIONS of production [p] of
    [n]; accepting calls the function of the entry point. *)
Definition rendered {Tok E} (number : string -> nat -> nat) (pr : parser_struct) (v : kevent Tok E) : event Tok E :=
  match v with
  | KNext r => EvNext r
  | KAction n p => EvCall (number n p)
  | KAccept => EvCall (pr_action_idx pr)
  end.

(** ** Grammars that agree below an entry point *)
Section Agree.
Context {A : Type}.
(** The productions declared for [n]. *)
Definition rules_of (ns : list (ast_non_terminal A)) (n : string) : list (ast_production A) :=
  match find (fun N => String.eqb (an_name N) n) ns with Some N => an_productions N | None => [] end.
(** The same productions, in any order, for [S] and for everything mentioned from there. *)
Definition agree_below (ns ns' : list (ast_non_terminal A)) (S : string) : Prop :=
  exists R : string -> Prop, R S /\
    forall n, R n -> (forall pr, In pr (rules_of ns n) <-> In pr (rules_of ns' n)) /\
      forall pr m, In pr (rules_of ns n) -> In (ASNonTerminal m) (body pr) -> R m.
End Agree.

(** What an event does, without numbers: the result of [next()], or the expression of the called action. *)
Definition called {A Tok E} (gp : generated A) (v : event Tok E) : option (Tok + E) + option A :=
  match v with
  | EvNext r => inl r
  | EvCall i => inr (option_map sf_action (nth_error (gp_sem_actions gp) i))
  end.

(** The same outcome, except that a parser error may list the expected tokens in another order. *)
Definition same_outcome {E V W I} (o o' : outcome E V W I) : Prop :=
  oc_iter o = oc_iter o' /\ oc_world o = oc_world o' /\
  (oc_result o = oc_result o' \/
   exists found l l', oc_result o = PParserError found (String.concat ", " l) /\
     oc_result o' = PParserError found (String.concat ", " l') /\ Permutation l l').
