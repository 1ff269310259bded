(** * Grammar: model of src/grammar.rs.

    Indices ([NonTerminalIdx], [TerminalIdx], [ProductionIdx], src/grammar.rs:25-63, u32 newtypes) are
    [nat].  The truncating cast [idx as u32] in line 122 is modelled as the identity; Wrap.v has it, and
    PropertiesWrap.v shows that it makes no difference.  (The casts in lines 174 and 195 are in a return
    value nobody uses and in a [Display] implementation.) *)
From Verif Require Export Base.

(** src/grammar.rs:95-99 *)
Inductive symbol : Type := NT (n : nat) | T (t : nat).

(** [Symbol: Eq] (src/grammar.rs:95, the derive) *)
Definition symbol_eqb (a b : symbol) : bool :=
  match a, b with
  | NT x, NT y => Nat.eqb x y
  | T x, T y => Nat.eqb x y
  | _, _ => false
  end.

(** src/ast.rs:135-139 ([ast::Name]) *)
Record name : Type := { nm_mutable : bool; nm_name : string }.

(** src/grammar.rs:89-93 *)
Record bound_symbol : Type := { bs_binder : option name; bs_symbol : symbol }.

(** [syn::Type], compared with the derived (syntactic) equality; represented by its source text.
    src/grammar.rs:70, src/codegen.rs:306. *)
Definition ty : Type := string.

(** src/grammar.rs:74-78 *)
Record production (A : Type) : Type := { p_symbols : list bound_symbol; p_action : A }.
Arguments p_symbols {A}. Arguments p_action {A}.

(** src/grammar.rs:65-72 *)
Record non_terminal (A : Type) : Type := {
  nt_name : string;
  nt_productions : list (production A);
  nt_return_ty : ty;
  nt_public : bool
}.
Arguments nt_name {A}. Arguments nt_productions {A}.
Arguments nt_return_ty {A}. Arguments nt_public {A}.

(** src/grammar.rs:3-23 *)
Record grammar (A : Type) : Type := {
  g_nts : list (non_terminal A);
  g_terminals : list string
}.
Arguments g_nts {A}. Arguments g_terminals {A}.

Section Grammar.
Context {A : Type}.

(** src/grammar.rs:102-107 [Grammar::new] *)
Definition grammar_new : grammar A := {| g_nts := []; g_terminals := [] |}.

(** src/grammar.rs:109-123 [add_non_terminal] *)
Definition add_non_terminal (g : grammar A) (nm : string) (rty : ty) (public : bool)
  : grammar A * nat :=
  ({| g_nts := g_nts g ++ [{| nt_name := nm; nt_productions := [];
                              nt_return_ty := rty; nt_public := public |}];
      g_terminals := g_terminals g |},
   List.length (g_nts g)).

(** src/grammar.rs:125-129 [new_terminal] *)
Definition new_terminal (g : grammar A) (s : string) : res (grammar A * nat) :=
  let* idx := u32_try_from (List.length (g_terminals g)) in
  Ok ({| g_nts := g_nts g; g_terminals := g_terminals g ++ [s] |}, idx).

(** src/grammar.rs:131-133 [get_non_terminal]; [None] is the index panic *)
Definition get_non_terminal (g : grammar A) (nt : nat) : option (non_terminal A) :=
  nth_error (g_nts g) nt.

(** src/grammar.rs:135-137 [get_terminal]; [None] is the index panic *)
Definition get_terminal (g : grammar A) (t : nat) : option string := nth_error (g_terminals g) t.

(** src/grammar.rs:139-145 *)
Definition n_non_terminals (g : grammar A) : nat := List.length (g_nts g).
(** src/grammar.rs:143-145 *)
Definition n_terminals (g : grammar A) : nat := List.length (g_terminals g).

(** src/grammar.rs:163-175 [add_production] *)
Definition push_production (p : production A) (n : non_terminal A) : non_terminal A :=
  {| nt_name := nt_name n; nt_productions := nt_productions n ++ [p];
     nt_return_ty := nt_return_ty n; nt_public := nt_public n |}.
(** src/grammar.rs:163-175; an index out of range (a panic in Rust) changes nothing *)
Definition add_production (g : grammar A) (nt : nat) (syms : list bound_symbol) (a : A) : grammar A :=
  {| g_nts := update_nth nt (push_production {| p_symbols := syms; p_action := a |}) (g_nts g);
     g_terminals := g_terminals g |}.

(** src/grammar.rs:177-183 [get_production]; [None] is the index panic *)
Definition get_production (g : grammar A) (nt p : nat) : option (production A) :=
  match get_non_terminal g nt with
  | Some n => nth_error (nt_productions n) p
  | None => None
  end.

(** src/grammar.rs:255-268, 290-295 [non_terminal_indices] *)
Definition non_terminal_indices (g : grammar A) : list (nat * non_terminal A) :=
  enumerate (g_nts g).

(** src/grammar.rs:270-283, 297-306 [non_terminal_production_indices], restricted to the index part *)
Definition non_terminal_production_indices (g : grammar A) (nt : nat) : list nat :=
  match get_non_terminal g nt with
  | Some n => seq 0 (List.length (nt_productions n))
  | None => []
  end.

(** src/grammar.rs:308-310 [terminal_indices] (its [try_from] cannot fail once [new_terminal]'s did not) *)
Definition terminal_indices (g : grammar A) : list nat := seq 0 (n_terminals g).

(** The right-hand side symbols of a production, without binders. src/grammar.rs:76, 90-93. *)
Definition rhs (p : production A) : list symbol := map bs_symbol (p_symbols p).

End Grammar.
