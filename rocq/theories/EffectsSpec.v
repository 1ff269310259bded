(** * EffectsSpec: Knuth's machine when the user's code may do anything.

    The decisions of KnuthSpec.v, performed by user code that shares one state: [next], [sem] and [clone]
    read it, change it and may panic. *)
From Verif Require Export KnuthSpec Effects.

(** What to do next. *)
Inductive decision (A Tok E V : Type) : Type :=
| DShift (tok : Tok) (t : string)                      (* read the next token, push [tok] *)
| DReduce (n : string) (pr : ast_production A) (args rest : list (ast_symbol * bval V))  (* by [n -> pr] *)
| DAccept (v : V)                                      (* return [v] *)
| DError (found expected : string)                     (* return [ParserError] *)
| DLexerError (er : E)                                 (* return a clone of the lexer's error *)
| DUnknown.                                            (* no token entry matches the token *)
Arguments DShift {A Tok E V}. Arguments DReduce {A Tok E V}. Arguments DAccept {A Tok E V}. Arguments DError {A Tok E V}.
Arguments DLexerError {A Tok E V}. Arguments DUnknown {A Tok E V}.

Record econf (Tok E V St : Type) : Type := EConf {
  ec_stack : list (ast_symbol * bval V);       (* top first *)
  ec_token : option (Tok + E);
  ec_user : St
}.
Arguments EConf {Tok E V St}. Arguments ec_stack {Tok E V St}. Arguments ec_token {Tok E V St}. Arguments ec_user {Tok E V St}.

Section Machine.
Context {A Tok E V St : Type}.
Variable nts : list (ast_non_terminal A).
Variable first : list ast_symbol -> option string -> option string -> Prop.
Variable entries : list string.
Variable class : Tok -> option string.
Variable fields : Tok -> list V.
Variable sem : A -> list (string * bval V) -> St -> completion V * St.
Variable next : St -> option (option (Tok + E)) * St.
Variable clone : E -> St -> option E * St.
Variable start : string.

(** The decision depends on the stack and the current token only. *)
Inductive decides_by : list (ast_symbol * bval V) -> option (Tok + E) -> decision A Tok E V -> Prop :=
| dec_shift : forall st tok t, class tok = Some t -> kshifts_by nts first start (rev (map fst st)) (Some t) ->
    decides_by st (Some (inl tok)) (DShift tok t)
| dec_reduce : forall args rest tk la n p pr, klook class tk la ->
    kreduces_by nts first start (rev (map fst (rev args ++ rest))) la n p ->
    uproduction nts n p = Some pr -> List.length args = List.length (ap_symbols pr) ->
    decides_by (rev args ++ rest) tk (DReduce n pr args rest)
| dec_accept : forall v, kaccepts_by nts first start [ASNonTerminal start] None ->
    decides_by [(ASNonTerminal start, BVal v)] None (DAccept v)
| dec_error : forall st tk la listed, klook class tk la -> kblocked_by nts first start (rev (map fst st)) la ->
    klisted_by nts first start (rev (map fst st)) listed ->
    decides_by st tk (DError (match la with Some t => t | None => "end-of-input"%string end)
                          (String.concat ", " (filter listed entries)))
| dec_lexer_error : forall st er, decides_by st (Some (inr er)) (DLexerError er)
| dec_unknown : forall st tok, class tok = None -> decides_by st (Some (inl tok)) DUnknown.

(** Carrying it out. *)
Definition perform (d : decision A Tok E V) (c : econf Tok E V St) : econf Tok E V St + xoutcome E V St :=
  match d with
  | DShift tok t =>
      match next (ec_user c) with
      | (Some tk, u) => inl (EConf ((ASTerminal t, BTok (fields tok)) :: ec_stack c) tk u)
      | (None, u) => inr (XOutcome (PPanic UserPanic) u)
      end
  | DReduce n pr args rest =>
      match sem (action_expr (ap_action pr)) (ubindings (ap_symbols pr) (map snd args)) (ec_user c) with
      | (Value v, u) => inl (EConf ((ASNonTerminal n, BVal v) :: rest) (ec_token c) u)
      | (_, u) => inr (XOutcome (PPanic UserPanic) u)
      end
  | DAccept v => inr (XOutcome (POk v) (ec_user c))
  | DError found expected => inr (XOutcome (PParserError found expected) (ec_user c))
  | DLexerError er =>
      match clone er (ec_user c) with
      | (Some er', u) => inr (XOutcome (PLexerError er') u)
      | (None, u) => inr (XOutcome (PPanic UserPanic) u)
      end
  | DUnknown => inr (XOutcome (PPanic NoTokenMatch) (ec_user c))
  end.

(** [n] moves, or fewer if the machine stops. *)
Inductive emoves_by : nat -> econf Tok E V St + xoutcome E V St -> econf Tok E V St + xoutcome E V St -> Prop :=
| em_0 : forall c, emoves_by 0 c c
| em_stopped : forall n o, emoves_by (S n) (inr o) (inr o)
| em_S : forall n c d r, decides_by (ec_stack c) (ec_token c) d -> emoves_by n (perform d c) r -> emoves_by (S n) (inl c) r.

Definition einit (u : St) : econf Tok E V St + xoutcome E V St :=
  match next u with
  | (Some tk, u') => inl (EConf [] tk u')
  | (None, u') => inr (XOutcome (PPanic UserPanic) u')
  end.
End Machine.

(** With true FIRST sets. *)
Notation decides nts := (decides_by nts (uin_first nts)).
Notation emoves nts := (emoves_by nts (uin_first nts)).

(** What an entry of the value stack holds. *)
Definition payload {V} (v : sem_val V) : bval V := match v with VNonTerminal _ x => BVal x | VToken _ fs => BTok fs end.

(** User code that never leaves an action by [return]. *)
Definition no_return {A V St} (sem : A -> list (string * bval V) -> St -> completion V * St) : Prop :=
  forall a b u, fst (sem a b u) <> Returned.

(** A part of the user's state that records the results of [next] and nothing else. *)
Record records {A Tok E V St} (sem : A -> list (string * bval V) -> St -> completion V * St)
  (next : St -> option (option (Tok + E)) * St) (clone : E -> St -> option E * St)
  (log : St -> list (option (Tok + E))) : Prop := {
  rc_next : forall u r u', next u = (Some r, u') -> log u' = log u ++ [r];
  rc_sem : forall a b u c u', sem a b u = (c, u') -> log u' = log u;
  rc_clone : forall er u c u', clone er u = (c, u') -> log u' = log u
}.

(** Replaying: an iterator and actions that return what was recorded, and do nothing else. *)
Definition replay_next {Tok E} (l : list (option (Tok + E))) : option (Tok + E) * list (option (Tok + E)) :=
  match l with [] => (None, []) | r :: l' => (r, l') end.
Definition replay_sem {A V} (a : A) (b : list (string * bval V)) (l : list V) : option (V * list V) :=
  match l with [] => None | v :: l' => Some (v, l') end.
(** Pure user code (the one of Runtime.v) as a special case. *)
Definition pure_sem {A V W I} (usem : A -> list (string * bval V) -> W -> option (V * W))
  (a : A) (b : list (string * bval V)) (u : I * W) : completion V * (I * W) :=
  match usem a b (snd u) with Some (v, w) => (Value v, (fst u, w)) | None => (Panicked, u) end.
Definition pure_next {Tok E I W} (next : I -> option (Tok + E) * I) (u : I * W) : option (option (Tok + E)) * (I * W) :=
  let (r, it) := next (fst u) in (Some r, (it, snd u)).
Definition pure_clone {E St} (er : E) (u : St) : option E * St := (Some er, u).
(** Any user code can be made to record the results of [next]. *)
Definition rec_next {Tok E St} (next : St -> option (option (Tok + E)) * St) (u : St * list (option (Tok + E))) :
  option (option (Tok + E)) * (St * list (option (Tok + E))) :=
  match next (fst u) with
  | (Some r, u') => (Some r, (u', snd u ++ [r]))
  | (None, u') => (None, (u', snd u))
  end.
Definition rec_sem {A V St L} (sem : A -> list (string * bval V) -> St -> completion V * St)
  (a : A) (b : list (string * bval V)) (u : St * L) : completion V * (St * L) :=
  let (c, u') := sem a b (fst u) in (c, (u', snd u)).
Definition rec_clone {E St L} (clone : E -> St -> option E * St) (er : E) (u : St * L) : option E * (St * L) :=
  let (c, u') := clone er (fst u) in (c, (u', snd u)).
