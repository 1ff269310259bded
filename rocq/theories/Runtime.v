(** * Runtime: the generated parser, src/lr_codegen.rs:101-228, with the generated semantic action
    functions, src/codegen.rs:93-100, and extraction methods, src/codegen.rs:293-331.

    Parameters: [Tok] user token type, [E] lexer error, [V] values of user types, [W] the world the
    user's actions act on (so that actions may have side effects), [I] the iterator. *)
From Verif Require Export Codegen.

(** What can go wrong at run time.  [UserPanic] is a panic raised by a user action; the others are
    panics of generated code. *)
Inductive rt_panic : Type :=
| Stuck              (* src/lr_codegen.rs:215 *)
| EmptyStateStack    (* src/lr_codegen.rs:187, 211, 213, unwrap *)
| EmptyValueStack    (* src/lr_codegen.rs:227, src/codegen.rs:76, unwrap *)
| OutOfBounds        (* array indexing: ACTION, GOTO, SEMANTIC_ACTIONS, TERMINAL_STRS, EXPECTED_TERMINALS *)
| WrongVariant       (* src/codegen.rs:297, 328, unreachable! *)
| NoTokenMatch       (* non-exhaustive generated match: rejected by rustc *)
| UserPanic.

(** src/codegen.rs:341-345: [enum SemanticActionResult { TokenN(..), NonTerminalN(..) }] *)
Inductive sem_val (V : Type) : Type :=
| VToken (terminal : nat) (fields : list V)
| VNonTerminal (variant : nat) (v : V).
Arguments VToken {V} terminal fields. Arguments VNonTerminal {V} variant v.

(** Value of a bound variable: what [token_N] / [non_terminal_N] return (src/codegen.rs:293-331).  A
    token yields the tuple of its selected fields. *)
Inductive bval (V : Type) : Type := BTok (fields : list V) | BVal (v : V).
Arguments BTok {V} fields. Arguments BVal {V} v.

(** Result of [parse]: src/lr_codegen.rs:144-151, plus panics *)
Inductive presult (V E : Type) : Type :=
| POk (v : V)
| PLexerError (e : E)
| PParserError (found expected : string)
| PPanic (p : rt_panic).
Arguments POk {V E} v. Arguments PLexerError {V E} e.
Arguments PParserError {V E} found expected. Arguments PPanic {V E} p.

Section Runtime.
Context {A Tok E V W I : Type}.

(** Semantics of the user's action expressions: environment of bound variables (innermost first) and
    world to value and new world, or a panic. src/codegen.rs:98 [#action]. *)
Definition sem_t : Type := A -> list (string * bval V) -> W -> option (V * W).

(** The generated [token_terminal_idx] and [token_value] functions and the user's iterator.
    src/lr_codegen.rs:184, 191, 203, 205; src/codegen.rs:142-213. *)
Record env_t : Type := {
  e_sem : sem_t;
  e_tok_idx : Tok -> option nat;
  e_tok_val : Tok -> option (nat * list V);
  e_next : I -> option (Tok + E) * I
}.

Variable p : generated A.
Variable env : env_t.

(** src/codegen.rs:293-300, 324-331: extraction methods *)
Definition extract (m : extract_method) (v : sem_val V) : option (bval V) :=
  match m, v with
  | ExNonTerminal n, VNonTerminal n' x => if Nat.eqb n n' then Some (BVal x) else None
  | ExToken t, VToken t' fs => if Nat.eqb t t' then Some (BTok fs) else None
  | _, _ => None
  end.

(** src/codegen.rs:55-80: run the pop statements.  The value stack's top is the head of the list.
    [value_stack.pop();] on an empty stack does nothing; [.pop().unwrap()] panics. *)
Fixpoint run_pops (pops : list pop_stmt) (stack : list (sem_val V)) (vars : list (string * bval V))
  : list (sem_val V) * list (string * bval V) + rt_panic :=
  match pops with
  | [] => inl (stack, vars)
  | PopIgnore :: pops' => run_pops pops' (tl stack) vars
  | PopBind _ x m :: pops' =>
      match stack with
      | [] => inr EmptyValueStack
      | v :: stack' =>
          match extract m v with
          | Some b => run_pops pops' stack' ((x, b) :: vars)
          | None => inr WrongVariant
          end
      end
  end.

(** src/codegen.rs:93-100: call a semantic action function *)
Definition run_sem_fn (f : sem_fn A) (stack : list (sem_val V)) (w : W)
  : list (sem_val V) * W + rt_panic :=
  match run_pops (sf_pops f) stack [] with
  | inr e => inr e
  | inl (stack', vars) =>
      match e_sem env (sf_action f) vars w with
      | None => inr UserPanic
      | Some (v, w') => inl (VNonTerminal (sf_variant f) v :: stack', w')
      end
  end.

(** Local variables of [parse_generic] (src/lr_codegen.rs:181-184), plus iterator and world. Stacks
    have their top at the head. *)
Record pstate : Type := {
  ps_states : list nat;
  ps_values : list (sem_val V);
  ps_token : option (Tok + E);
  ps_iter : I;
  ps_world : W
}.

(** What the caller can observe when [parse] returns. src/lr_codegen.rs:174-228. *)
Record outcome : Type := { oc_result : presult V E; oc_iter : I; oc_world : W }.

(** The ways [parse_generic] ends (src/lr_codegen.rs:190, 197-199, 227, or a panic) *)
Definition finish (st : pstate) (r : presult V E) : pstate + outcome :=
  inr {| oc_result := r; oc_iter := ps_iter st; oc_world := ps_world st |}.

(** Two-dimensional array access; [None] is the bounds panic. src/lr_codegen.rs:193, 214. *)
Definition index2 {X} (a : list (list X)) (i j : nat) : option X :=
  match nth_error a i with Some row => nth_error row j | None => None end.

(** src/lr_codegen.rs:219-227: after the loop *)
Definition accept (pr : parser_struct) (st : pstate) : pstate + outcome :=
  match nth_error (gp_sem_actions p) (pr_action_idx pr) with
  | None => finish st (PPanic OutOfBounds)
  | Some f =>
      match run_sem_fn f (ps_values st) (ps_world st) with
      | inr e => finish st (PPanic e)
      | inl (stack', w') =>
          let st' := {| ps_states := ps_states st; ps_values := stack'; ps_token := ps_token st;
                        ps_iter := ps_iter st; ps_world := w' |} in
          match stack' with
          | [] => finish st' (PPanic EmptyValueStack)
          | v :: _ =>
              match extract (ExNonTerminal (pr_extract_variant pr)) v with
              | Some (BVal x) => finish st' (POk x)
              | _ => finish st' (PPanic WrongVariant)
              end
          end
      end
  end.

(** src/lr_codegen.rs:208-218: reduce *)
Definition reduce (nt n act : nat) (st : pstate) : pstate + outcome :=
  match nth_error (gp_sem_actions p) act with
  | None => finish st (PPanic OutOfBounds)
  | Some f =>
      match run_sem_fn f (ps_values st) (ps_world st) with
      | inr e => finish st (PPanic e)
      | inl (stack', w') =>
          let st' := {| ps_states := ps_states st; ps_values := stack'; ps_token := ps_token st;
                        ps_iter := ps_iter st; ps_world := w' |} in
          if Nat.ltb (List.length (ps_states st)) n then finish st' (PPanic EmptyStateStack)
          else
            match skipn n (ps_states st) with
            | [] => finish st' (PPanic EmptyStateStack)
            | s :: rest =>
                match index2 (gp_goto p) s nt with
                | None => finish st' (PPanic OutOfBounds)
                | Some None => finish st' (PPanic Stuck)
                | Some (Some next) =>
                    inl {| ps_states := next :: s :: rest; ps_values := stack';
                           ps_token := ps_token st; ps_iter := ps_iter st; ps_world := w' |}
                end
            end
      end
  end.

(** src/lr_codegen.rs:201-207: shift *)
Definition shift (next : nat) (st : pstate) : pstate + outcome :=
  let (token', iter') := e_next env (ps_iter st) in
  match ps_token st with
  | Some (inl tok) =>
      match e_tok_val env tok with
      | None => inr {| oc_result := PPanic NoTokenMatch; oc_iter := iter'; oc_world := ps_world st |}
      | Some (i, fs) =>
          inl {| ps_states := next :: ps_states st; ps_values := VToken i fs :: ps_values st;
                 ps_token := token'; ps_iter := iter'; ps_world := ps_world st |}
      end
  | _ => inl {| ps_states := next :: ps_states st; ps_values := ps_values st;
                ps_token := token'; ps_iter := iter'; ps_world := ps_world st |}
  end.

(** src/lr_codegen.rs:193-220: dispatch on ACTION[state][terminal_idx] *)
Definition dispatch (pr : parser_struct) (st : pstate) (s t : nat) : pstate + outcome :=
  match index2 (gp_action p) s t with
  | None => finish st (PPanic OutOfBounds)
  | Some None =>
      match nth_error (gp_terminal_strs p) t, nth_error (gp_expected p) s with
      | Some found, Some expected => finish st (PParserError found expected)
      | _, _ => finish st (PPanic OutOfBounds)
      end
  | Some (Some (RShift next)) => shift next st
  | Some (Some (RReduce nt n act)) => reduce nt n act st
  | Some (Some RAccept) => accept pr st
  end.

(** src/lr_codegen.rs:186-221: one iteration of the [loop] *)
Definition step (pr : parser_struct) (st : pstate) : pstate + outcome :=
  match ps_states st with
  | [] => finish st (PPanic EmptyStateStack)
  | s :: _ =>
      match ps_token st with
      | None => dispatch pr st s (gp_n_terminals p)
      | Some (inr e) => finish st (PLexerError e)
      | Some (inl tok) =>
          match e_tok_idx env tok with
          | None => finish st (PPanic NoTokenMatch)
          | Some t => dispatch pr st s t
          end
      end
  end.

(** src/lr_codegen.rs:186-228: [loop]; [None] when the fuel runs out *)
Fixpoint run (fuel : nat) (pr : parser_struct) (st : pstate) : option outcome :=
  match fuel with
  | 0 => None
  | S f => match step pr st with
           | inl st' => run f pr st'
           | inr o => Some o
           end
  end.

(** src/lr_codegen.rs:181-184: initial state of [parse_generic] *)
Definition init_pstate (pr : parser_struct) (it : I) (w : W) : pstate :=
  let (token, it') := e_next env it in
  {| ps_states := [pr_init_state pr]; ps_values := []; ps_token := token; ps_iter := it';
     ps_world := w |}.

(** src/lr_codegen.rs:105-115, 174-228: [NonTerminal::parse(input)] *)
Definition parse (fuel : nat) (pr : parser_struct) (it : I) (w : W) : option outcome :=
  run fuel pr (init_pstate pr it w).

End Runtime.
Arguments env_t : clear implicits.
Arguments pstate : clear implicits.
Arguments outcome : clear implicits.

(** ** Observable events of a run

    What a run does to its surroundings, in order: calls of the iterator's [next()] (with their results)
    and calls of semantic action functions (by index in SEMANTIC_ACTIONS).  [step_events] follows the
    same branches as [step]. The sources of the events: src/lr_codegen.rs:184, 203, 209, 225. *)
Inductive event (Tok E : Type) : Type :=
| EvNext (r : option (Tok + E))
| EvCall (action : nat).
Arguments EvNext {Tok E} r. Arguments EvCall {Tok E} action.

Section Events.
Context {A Tok E V W I : Type}.
Variable p : generated A.
Variable env : env_t A Tok E V W I.
Notation ev := (event Tok E).

(** src/lr_codegen.rs:201-220: the [input.next()] of a shift, the call of a reduce, the call after the loop *)
Definition dispatch_events (pr : parser_struct) (st : pstate Tok E V W I) (s t : nat) : list ev :=
  match index2 (gp_action p) s t with
  | Some (Some (RShift _)) => [EvNext (fst (e_next env (ps_iter st)))]
  | Some (Some (RReduce _ _ a)) => [EvCall a]
  | Some (Some RAccept) => [EvCall (pr_action_idx pr)]
  | _ => []
  end.

(** src/lr_codegen.rs:186-221: one iteration *)
Definition step_events (pr : parser_struct) (st : pstate Tok E V W I) : list ev :=
  match ps_states st with
  | [] => []
  | s :: _ =>
      match ps_token st with
      | None => dispatch_events pr st s (gp_n_terminals p)
      | Some (inr _) => []
      | Some (inl tok) =>
          match e_tok_idx env tok with
          | None => []
          | Some t => dispatch_events pr st s t
          end
      end
  end.

(** src/lr_codegen.rs:186-228 *)
Fixpoint run_events (fuel : nat) (pr : parser_struct) (st : pstate Tok E V W I) : list ev :=
  match fuel with
  | 0 => []
  | S f => step_events pr st ++ match step p env pr st with inl st' => run_events f pr st' | inr _ => [] end
  end.

(** src/lr_codegen.rs:174-228: the first token is read before the loop *)
Definition parse_events (fuel : nat) (pr : parser_struct) (it : I) (w : W) : list ev :=
  EvNext (fst (e_next env it)) :: run_events fuel pr (init_pstate env pr it w).
End Events.
