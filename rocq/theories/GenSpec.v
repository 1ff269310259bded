(** * GenSpec: vocabulary of the theorems about expansion (PropertiesGen.v).

    The stages of one expansion, what a state of the automaton holds, and where it leads.  Items and
    symbols refer to the lowered grammar [g]; the textbook notions about it are in GSpec.v and Lr1Spec.v. *)
From Coq Require Import NArith.
From Verif Require Export PropSpec Lr1Spec.

Section GenSpec.
Context {A : Type}.

(** The lowered grammar, FIRST table, automaton states and entry points computed for [items], whether or
    not table construction succeeds afterwards. *)
Definition stages (items : list (grammar_item A)) (g : grammar (lexpr A)) (tbl : first_table)
  (states : list lr1_state) (entries : list (nat * nat)) : Prop :=
  exists ho fuel, hash_order_ok ho /\ lower (declared_nts items) (token_entries items) = Ok g /\
    generate_first_table ho fuel g = Ok tbl /\ generate_lr1_automaton ho fuel g tbl = Ok (states, entries).
(** A successful expansion, with its intermediate results. *)
Definition expansion_of (items : list (grammar_item A)) (g : grammar (lexpr A)) (tbl : first_table)
  (states : list lr1_state) (entries : list (nat * nat)) (gp : generated (lexpr A)) : Prop :=
  exists ho fuel, hash_order_ok ho /\ macro ho fuel items = Ok gp /\
    lower (declared_nts items) (token_entries items) = Ok g /\
    generate_first_table ho fuel g = Ok tbl /\ generate_lr1_automaton ho fuel g tbl = Ok (states, entries).
End GenSpec.

(** The diagnostics of table construction that report a conflict. *)
Definition conflict_panic (p : panic) : Prop :=
  match p with
  | PShiftShift _ _ _ _ | PAcceptShift _ _ _ | PShiftReduce _ _ _ _ _ | PReduceReduce _ _ _ _ _ _ | PAcceptReduce _ _ _ _ => True
  | _ => False
  end.
(** Diagnostics about the declarations. *)
Definition declaration_panic (p : panic) : Prop :=
  match p with
  | PDupTerminal _ | PUnknownNonTerminal _ | PUnknownTerminal _ | PRepeatUnsupported | PFallibleUnsupported
  | PDupState | PDupToken | PNoToken => True
  | _ => False
  end.

(** A [pub] non-terminal whose name is a raw identifier. *)
Definition raw_entry_point {A} (items : list (grammar_item A)) : Prop :=
  exists N r, In N (declared_nts items) /\ an_pub N = true /\ an_name N = ("r#" ++ r)%string.
(** A token type whose name is a raw identifier ([enum r#Token { ... }]). *)
Definition raw_token_type {A} (items : list (grammar_item A)) : Prop :=
  exists te r, In te (declared_tokens items) /\ te_type_name te = ("r#" ++ r)%string.

(** A number that does not fit into the integer type chosen for it: terminals and states are numbered by [u32];
    productions (and entry points, which are productions too), non-terminals (and entry points) and the lengths of
    productions by [u16]. *)
Definition too_large {A} (items : list (grammar_item A)) : Prop :=
  let entry_points := List.length (filter an_pub (declared_nts items)) in
  (4294967296 < N.of_nat (List.length (token_entries items)))%N \/
  (65536 < N.of_nat (entry_points + List.length (flat_map an_productions (declared_nts items))))%N \/
  (65536 < N.of_nat (entry_points + List.length (declared_nts items)))%N \/
  (exists N pr, In N (declared_nts items) /\ In pr (an_productions N) /\ (65536 <= N.of_nat (List.length (ap_symbols pr)))%N) \/
  (exists g tbl states entries, stages items g tbl states entries /\ (4294967296 < N.of_nat (List.length states))%N).

Section States.
Context {A : Type}.
Variable g : grammar A.
Variable states : list lr1_state.

(** State [s] contains item [it]. *)
Definition holds (s : nat) (it : item) : Prop := exists st, nth_error states s = Some st /\ In it (st_items st).
(** The state reached from [s] on [X]. *)
Definition transition (s : nat) (X : symbol) : option nat :=
  match nth_error states s with Some st => map_get symbol_eqb X (st_goto st) | None => None end.
(** The state reached from [s] by a string of symbols. *)
Fixpoint follow (s : nat) (gamma : list symbol) : option nat :=
  match gamma with
  | [] => Some s
  | X :: r => match transition s X with Some s' => follow s' r | None => None end
  end.

(** [X] comes right after the dot; the dot is at the end. *)
Definition expects (it : item) (X : symbol) : Prop :=
  exists pr, get_production g (it_nt it) (it_prod it) = Some pr /\ nth_error (rhs pr) (it_cursor it) = Some X.
Definition completed (it : item) : Prop :=
  exists pr, get_production g (it_nt it) (it_prod it) = Some pr /\ it_cursor it = List.length (rhs pr).
(** Non-terminal [n] is an entry point ([pub] in the source), or not. *)
Definition entry_point (n : nat) : Prop := exists N, get_non_terminal g n = Some N /\ nt_public N = true.
Definition ordinary (n : nat) : Prop := exists N, get_non_terminal g n = Some N /\ nt_public N = false.

(** Column of the ACTION array: the terminals in order, then end of input. *)
Definition column (la : option nat) : nat := match la with Some t => t | None => n_terminals g end.
Definition lookahead (la : option nat) : Prop := match la with Some t => t < n_terminals g | None => True end.
End States.

(** Entry of an emitted array; [None]: out of bounds. *)
Definition array_at {X} (a : list (list X)) (i j : nat) : option X :=
  match nth_error a i with Some row => nth_error row j | None => None end.

(** ** Semantic actions in the generated module *)

(** [stack_entry items variant s b v]: [v] is what the value stack holds for a symbol [s] whose value is
    [b]; [variant n] is the number of the [SemanticActionResult] variant of non-terminal [n]. *)
Inductive stack_entry {A V} (items : list (grammar_item A)) (variant : string -> nat) : ast_symbol -> bval V -> sem_val V -> Prop :=
| se_named : forall x s b v, stack_entry items variant s b v -> stack_entry items variant (ASNamed x s) b v
| se_token : forall t i fs, nth_error (map cv_from (token_entries items)) i = Some t ->
    stack_entry items variant (ASTerminal t) (BTok fs) (VToken i fs)
| se_nt : forall n x, stack_entry items variant (ASNonTerminal n) (BVal x) (VNonTerminal (variant n) x).
Inductive stack_entries {A V} (items : list (grammar_item A)) (variant : string -> nat)
  : list ast_symbol -> list (bval V) -> list (sem_val V) -> Prop :=
| ses_nil : stack_entries items variant [] [] []
| ses_cons : forall s b v ss bs vs, stack_entry items variant s b v -> stack_entries items variant ss bs vs ->
    stack_entries items variant (s :: ss) (b :: bs) (v :: vs).

(** How the generated module numbers things: [nt_number n] is the row index in GOTO of non-terminal [n],
    [action_number n p] the index in SEMANTIC_ACTIONS of production [p] of [n], [variant n] the result
    variant of [n]. *)
Record numbering {A} (items : list (grammar_item A)) (gp : generated (lexpr A))
  (nt_number : string -> nat) (action_number : string -> nat -> nat) (variant : string -> nat) : Prop := {
  (** every production has its function: it carries the production's action expression, and on a stack
      topped by the values of the right-hand side (rightmost symbol on top) it pops exactly those, runs the
      action with the binders bound to them, and pushes one value of the non-terminal's variant *)
  nb_function : forall n p pr, uproduction (declared_nts items) n p = Some pr ->
    exists f, nth_error (gp_sem_actions gp) (action_number n p) = Some f /\
      sf_action f = EUser (action_expr (ap_action pr)) /\
      forall (Tok E V W I : Type) (env : env_t (lexpr A) Tok E V W I) bs vs rest w,
        stack_entries items variant (ap_symbols pr) bs vs ->
        run_sem_fn env f (rev vs ++ rest) w =
        match e_sem env (EUser (action_expr (ap_action pr))) (ubindings (ap_symbols pr) bs) w with
        | None => inr UserPanic
        | Some (x, w') => inl (VNonTerminal (variant n) x :: rest, w')
        end;
  (** different productions, different functions *)
  nb_injective : forall n p pr n' p' pr', uproduction (declared_nts items) n p = Some pr ->
    uproduction (declared_nts items) n' p' = Some pr' -> action_number n p = action_number n' p' -> n = n' /\ p = p';
  nb_nt_injective : forall N M, In N (declared_nts items) -> In M (declared_nts items) ->
    nt_number (an_name N) = nt_number (an_name M) -> N = M;
  (** every reduction in ACTION is that of one production: its non-terminal, length and function *)
  nb_reduce : forall s t nt k idx, array_at (gp_action gp) s t = Some (Some (RReduce nt k idx)) ->
    exists n p pr, uproduction (declared_nts items) n p = Some pr /\ nt = nt_number n /\
      k = List.length (ap_symbols pr) /\ idx = action_number n p;
  (** variants are per type, numbered from 0 *)
  nb_variant : forall N M, In N (declared_nts items) -> In M (declared_nts items) ->
    (variant (an_name N) = variant (an_name M) <-> an_type N = an_type M);
  nb_variants : exists k, (forall N, In N (declared_nts items) -> variant (an_name N) < k) /\
    forall v, v < k -> exists N, In N (declared_nts items) /\ variant (an_name N) = v
}.

(** ** Reordered declarations *)
Section Reordering.
Context {A : Type}.
(** The same non-terminals, declared in another order, with their productions in another order. *)
Definition reordered (ns ns' : list (ast_non_terminal A)) : Prop :=
  exists ms, Permutation ns ms /\
    Forall2 (fun N M => an_name N = an_name M /\ an_type N = an_type M /\ an_pub N = an_pub M /\
                        Permutation (an_productions N) (an_productions M)) ms ns'.
(** No token matches two entries. *)
Definition disjoint_patterns (cs : list conversion) : Prop :=
  forall tok c d, In c cs -> In d cs -> pmatch (cv_to c) tok <> None -> pmatch (cv_to d) tok <> None -> c = d.
End Reordering.
