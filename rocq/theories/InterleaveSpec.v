(** * InterleaveSpec: in which order a parser calls the lexer and the actions (C70)

    A parse tree is walked from left to right, children before parents.  At a leaf the current token is taken and [next()] is
    called once, for the token after it; at a node, after its children, the action of its production is called once.  [next()] and
    the actions share a state [St], which each of them reads and changes. *)
From Verif Require Export EffectsSpec.

Section Plays.
Context {A Tok E V St : Type}.
Variable nts : list (ast_non_terminal A).
Variable fields : Tok -> list V.
Variable sem : A -> list (string * bval V) -> St -> completion V * St.
Variable next : St -> option (option (Tok + E)) * St.

(** [plays t tk u b tk' u']: walking [t] with current token [tk] and state [u] gives the value [b] and leaves the current token [tk']
    and the state [u']. *)
Inductive plays : utree Tok -> option (Tok + E) -> St -> bval V -> option (Tok + E) -> St -> Prop :=
| pl_leaf : forall tok u tk' u', next u = (Some tk', u') -> plays (ULeaf tok) (Some (inl tok)) u (BTok (fields tok)) tk' u'
| pl_node : forall n p pr kids vs v tk u tk' u1 u', uproduction nts n p = Some pr -> plays_all kids tk u vs tk' u1 ->
    sem (action_expr (ap_action pr)) (ubindings (ap_symbols pr) vs) u1 = (Value v, u') -> plays (UNode n p kids) tk u (BVal v) tk' u'
with plays_all : list (utree Tok) -> option (Tok + E) -> St -> list (bval V) -> option (Tok + E) -> St -> Prop :=
| pl_nil : forall tk u, plays_all [] tk u [] tk u
| pl_cons : forall t ts tk u b vs tk1 u1 tk' u', plays t tk u b tk1 u1 -> plays_all ts tk1 u1 vs tk' u' ->
    plays_all (t :: ts) tk u (b :: vs) tk' u'.
End Plays.
Scheme plays_mut := Induction for plays Sort Prop with plays_all_mut := Induction for plays_all Sort Prop.
Combined Scheme plays_both_ind from plays_mut, plays_all_mut.

(** [finished forest syms vs tk u o]: [parse] ends as [o], after walking the trees [forest] (for the symbols [syms], with values
    [vs]) to the current token [tk] and state [u]:
    - with a value, if that is one tree of the entry point and the tokens have ended;
    - with an error about the current token, or a clone of the lexer's error;
    - with a panic of [next()] (called to shift the current token), of [clone()], or of the action of a production for the last trees;
    - with a panic because no token entry matches the current token. *)
Section Ends.
Context {A Tok E V St : Type}.
Variable nts : list (ast_non_terminal A).
Variable class : Tok -> option string.
Variable sem : A -> list (string * bval V) -> St -> completion V * St.
Variable next : St -> option (option (Tok + E)) * St.
Variable clone : E -> St -> option E * St.
Variable start : string.
Definition finished (forest : list (utree Tok)) (syms : list ast_symbol) (vs : list (bval V)) (tk : option (Tok + E)) (u : St) (o : xoutcome E V St) : Prop :=
  match xo_result o with
  | POk v => syms = [ASNonTerminal start] /\ vs = [BVal v] /\ tk = None /\ xo_user o = u
  | PParserError found _ => xo_user o = u /\
      match tk with None => found = "end-of-input"%string | Some (inl tok) => class tok = Some found | Some (inr _) => False end
  | PLexerError er' => exists er, tk = Some (inr er) /\ clone er u = (Some er', xo_user o)
  | PPanic UserPanic =>
      (exists tok, tk = Some (inl tok) /\ next u = (None, xo_user o)) \/
      (exists er, tk = Some (inr er) /\ clone er u = (None, xo_user o)) \/
      (exists n p pr f1 f2 vs1 vs2, uproduction nts n p = Some pr /\ forest = f1 ++ f2 /\ vs = vs1 ++ vs2 /\ List.length f1 = List.length vs1 /\
         uforest_of nts class f2 (ap_symbols pr) /\ sem (action_expr (ap_action pr)) (ubindings (ap_symbols pr) vs2) u = (Panicked, xo_user o))
  | PPanic NoTokenMatch => xo_user o = u /\ exists tok, tk = Some (inl tok) /\ class tok = None
  | PPanic _ => False
  end.
End Ends.
