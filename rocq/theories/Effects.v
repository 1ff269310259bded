(** * Effects: the generated parser when the user's code may do anything.

    Runtime.v keeps the iterator and the state changed by semantic actions apart, and lets only actions
    panic.  Here there is one state [St] for everything the user's code can reach: [next()], action
    expressions and the [clone()] of a lexer error read and change it (so a lexer may look at what actions
    did), each may panic, and an action expression may [return] from the generated function.  The control
    code is src/lr_codegen.rs:174-228 again, with src/codegen.rs:55-100; where it is the same as in
    Runtime.v ([run_pops], [extract], [index2]) it is shared.

    [PPanic UserPanic] now stands for a panic of any user code.  Not modelled: effects of [Drop]. *)
From Verif Require Export Macro.

(** How the evaluation of an action expression ends; [Returned] is a [return] inside. src/codegen.rs:98 [#action]. *)
Inductive completion (V : Type) : Type := Value (v : V) | Panicked | Returned.
Arguments Value {V} v. Arguments Panicked {V}. Arguments Returned {V}.

(** The user's code and the token functions, as called at src/lr_codegen.rs:184, 190, 191, 203, 205 and src/codegen.rs:98 *)
Record xenv (A Tok E V St : Type) : Type := {
  x_sem : A -> list (string * bval V) -> St -> completion V * St;
  x_idx : Tok -> option nat;
  x_val : Tok -> option (nat * list V);
  x_next : St -> option (option (Tok + E)) * St;      (* [None]: panic *)
  x_clone : E -> St -> option E * St                  (* [None]: panic *)
}.
Arguments x_sem {A Tok E V St}. Arguments x_idx {A Tok E V St}. Arguments x_val {A Tok E V St}.
Arguments x_next {A Tok E V St}. Arguments x_clone {A Tok E V St}.

(** Local variables of [parse_generic] (src/lr_codegen.rs:181-184) and the state of the user's code *)
Record xpstate (Tok E V St : Type) : Type := XState {
  xs_states : list nat;
  xs_values : list (sem_val V);
  xs_token : option (Tok + E);
  xs_user : St
}.
Arguments XState {Tok E V St}. Arguments xs_states {Tok E V St}. Arguments xs_values {Tok E V St}.
Arguments xs_token {Tok E V St}. Arguments xs_user {Tok E V St}.
(** What [parse_generic] leaves behind (src/lr_codegen.rs:174-228) *)
Record xoutcome (E V St : Type) : Type := XOutcome { xo_result : presult V E; xo_user : St }.
Arguments XOutcome {E V St}. Arguments xo_result {E V St}. Arguments xo_user {E V St}.

Section Effects.
Context {A Tok E V St : Type}.
Variable p : generated A.
Variable env : xenv A Tok E V St.
Notation xpstate := (xpstate Tok E V St).
Notation xoutcome := (xoutcome E V St).

(** src/codegen.rs:93-100: a semantic action function; [return] leaves it before the push *)
Definition x_call (f : sem_fn A) (stack : list (sem_val V)) (u : St) : (list (sem_val V) + rt_panic) * St :=
  match run_pops (sf_pops f) stack [] with
  | inr e => (inr e, u)
  | inl (stack', vars) =>
      match x_sem env (sf_action f) vars u with
      | (Value v, u') => (inl (VNonTerminal (sf_variant f) v :: stack'), u')
      | (Panicked, u') => (inr UserPanic, u')
      | (Returned, u') => (inl stack', u')
      end
  end.

(** src/lr_codegen.rs:219-227: after the loop *)
Definition x_accept (pr : parser_struct) (st : xpstate) : xpstate + xoutcome :=
  match nth_error (gp_sem_actions p) (pr_action_idx pr) with
  | None => inr (XOutcome (PPanic OutOfBounds) (xs_user st))
  | Some f =>
      match x_call f (xs_values st) (xs_user st) with
      | (inr e, u') => inr (XOutcome (PPanic e) u')
      | (inl [], u') => inr (XOutcome (PPanic EmptyValueStack) u')
      | (inl (v :: _), u') =>
          match extract (ExNonTerminal (pr_extract_variant pr)) v with
          | Some (BVal x) => inr (XOutcome (POk x) u')
          | _ => inr (XOutcome (PPanic WrongVariant) u')
          end
      end
  end.

(** src/lr_codegen.rs:208-218: reduce *)
Definition x_reduce (nt n act : nat) (st : xpstate) : xpstate + xoutcome :=
  match nth_error (gp_sem_actions p) act with
  | None => inr (XOutcome (PPanic OutOfBounds) (xs_user st))
  | Some f =>
      match x_call f (xs_values st) (xs_user st) with
      | (inr e, u') => inr (XOutcome (PPanic e) u')
      | (inl stack', u') =>
          if Nat.ltb (List.length (xs_states st)) n then inr (XOutcome (PPanic EmptyStateStack) u')
          else
            match skipn n (xs_states st) with
            | [] => inr (XOutcome (PPanic EmptyStateStack) u')
            | s :: rest =>
                match index2 (gp_goto p) s nt with
                | None => inr (XOutcome (PPanic OutOfBounds) u')
                | Some None => inr (XOutcome (PPanic Stuck) u')
                | Some (Some next) => inl (XState (next :: s :: rest) stack' (xs_token st) u')
                end
            end
      end
  end.

(** src/lr_codegen.rs:201-207: shift; [input.next()] is called first *)
Definition x_shift (next : nat) (st : xpstate) : xpstate + xoutcome :=
  match x_next env (xs_user st) with
  | (None, u') => inr (XOutcome (PPanic UserPanic) u')
  | (Some token', u') =>
      match xs_token st with
      | Some (inl tok) =>
          match x_val env tok with
          | None => inr (XOutcome (PPanic NoTokenMatch) u')
          | Some (i, fs) => inl (XState (next :: xs_states st) (VToken i fs :: xs_values st) token' u')
          end
      | _ => inl (XState (next :: xs_states st) (xs_values st) token' u')
      end
  end.

(** src/lr_codegen.rs:193-220: dispatch on ACTION[state][terminal_idx] *)
Definition x_dispatch (pr : parser_struct) (st : xpstate) (s t : nat) : xpstate + xoutcome :=
  match index2 (gp_action p) s t with
  | None => inr (XOutcome (PPanic OutOfBounds) (xs_user st))
  | Some None =>
      match nth_error (gp_terminal_strs p) t, nth_error (gp_expected p) s with
      | Some found, Some expected => inr (XOutcome (PParserError found expected) (xs_user st))
      | _, _ => inr (XOutcome (PPanic OutOfBounds) (xs_user st))
      end
  | Some (Some (RShift next)) => x_shift next st
  | Some (Some (RReduce nt n act)) => x_reduce nt n act st
  | Some (Some RAccept) => x_accept pr st
  end.

(** src/lr_codegen.rs:186-221: one iteration of the [loop] *)
Definition x_step (pr : parser_struct) (st : xpstate) : xpstate + xoutcome :=
  match xs_states st with
  | [] => inr (XOutcome (PPanic EmptyStateStack) (xs_user st))
  | s :: _ =>
      match xs_token st with
      | None => x_dispatch pr st s (gp_n_terminals p)
      | Some (inr e) =>
          match x_clone env e (xs_user st) with
          | (Some e', u') => inr (XOutcome (PLexerError e') u')
          | (None, u') => inr (XOutcome (PPanic UserPanic) u')
          end
      | Some (inl tok) =>
          match x_idx env tok with
          | None => inr (XOutcome (PPanic NoTokenMatch) (xs_user st))
          | Some t => x_dispatch pr st s t
          end
      end
  end.

(** src/lr_codegen.rs:181-184: the first token is read before the loop *)
Definition x_init (pr : parser_struct) (u : St) : xpstate + xoutcome :=
  match x_next env u with
  | (Some token, u') => inl (XState [pr_init_state pr] [] token u')
  | (None, u') => inr (XOutcome (PPanic UserPanic) u')
  end.

(** Where [n] iterations lead: to a state of the loop, or to the outcome if [parse] has returned by then.
    src/lr_codegen.rs:186-221. *)
Fixpoint x_run (n : nat) (pr : parser_struct) (c : xpstate + xoutcome) : xpstate + xoutcome :=
  match n with
  | 0 => c
  | S n' => match c with inl st => x_run n' pr (x_step pr st) | inr o => inr o end
  end.
(** src/lr_codegen.rs:174-228 *)
Definition x_parse (n : nat) (pr : parser_struct) (u : St) : xpstate + xoutcome := x_run n pr (x_init pr u).
End Effects.

(** src/lower.rs:58-68: the action of an entry point is the variable it binds *)
Definition xsem {A V St} (usem : A -> list (string * bval V) -> St -> completion V * St)
  (a : lexpr A) (b : list (string * bval V)) (u : St) : completion V * St :=
  match a with
  | EUser e => usem e b u
  | EVar x => match bget x b with Some (BVal v) => (Value v, u) | _ => (Panicked, u) end
  end.
(** The generated module compiled with the user's code, as [user_env] of Macro.v. src/codegen.rs:142-213. *)
Definition user_xenv {A E V St} (gp : generated (lexpr A)) (inj : rval -> V)
  (usem : A -> list (string * bval V) -> St -> completion V * St) (next : St -> option (option (rval + E)) * St)
  (clone : E -> St -> option E * St) : xenv (lexpr A) rval E V St :=
  {| x_sem := xsem usem;
     x_idx := token_terminal_idx (gp_conversions gp);
     x_val := fun tok => option_map (fun '(i, fs) => (i, map inj fs)) (token_value (gp_conversions gp) tok);
     x_next := next;
     x_clone := clone |}.
