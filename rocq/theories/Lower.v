(** * Lower: model of src/lower.rs *)
From Verif Require Export Ast.

(** Action expressions of a lowered grammar: a user expression, or the variable expression [x] that
    lowering creates for entry points (src/lower.rs:58-68). *)
Inductive lexpr (A : Type) : Type := EUser (a : A) | EVar (x : string).
Arguments EUser {A} a. Arguments EVar {A} x.

Section Lower.
Context {A : Type}.

(** src/lower.rs:17-27: declare the terminals *)
Definition lower_terminal (st : grammar (lexpr A) * list (string * nat)) (c : conversion)
  : res (grammar (lexpr A) * list (string * nat)) :=
  let (g, t_indices) := st in
  let* (g', idx) := new_terminal g (cv_from c) in
  match map_get String.eqb (cv_from c) t_indices with
  | Some _ => Panic (PDupTerminal (cv_from c))
  | None => Ok (g', map_insert String.eqb (cv_from c) idx t_indices)
  end.

(** src/lower.rs:48-56: [<x:NonTerminal1>] *)
Definition entry_symbol (nt1 : nat) : bound_symbol :=
  {| bs_binder := Some {| nm_mutable := false; nm_name := "x"%string |}; bs_symbol := NT nt1 |}.

(** src/lower.rs:29-75: declare the non-terminals *)
Definition lower_non_terminal (st : grammar (lexpr A) * list (string * nat)) (nt : ast_non_terminal A)
  : grammar (lexpr A) * list (string * nat) :=
  let (g, nt_indices) := st in
  if an_pub nt then
    let (g1, nt1_idx) := add_non_terminal g (an_name nt ++ "1")%string (an_type nt) false in
    let nt_indices' := map_insert String.eqb (an_name nt) nt1_idx nt_indices in
    let (g2, nt_idx) := add_non_terminal g1 (an_name nt) (an_type nt) true in
    (add_production g2 nt_idx [entry_symbol nt1_idx] (EVar "x"%string), nt_indices')
  else
    let (g1, nt_idx) := add_non_terminal g (an_name nt) (an_type nt) false in
    (g1, map_insert String.eqb (an_name nt) nt_idx nt_indices).

(** src/lower.rs:100-136 [add_symbol], returning the symbol it pushes *)
Fixpoint lower_symbol (nt_indices t_indices : list (string * nat)) (binder : option name)
  (s : ast_symbol) : res bound_symbol :=
  match s with
  | ASNonTerminal nm =>
      match map_get String.eqb nm nt_indices with
      | None => Panic (PUnknownNonTerminal nm)
      | Some i => Ok {| bs_binder := binder; bs_symbol := NT i |}
      end
  | ASTerminal str =>
      match map_get String.eqb str t_indices with
      | None => Panic (PUnknownTerminal str)
      | Some i => Ok {| bs_binder := binder; bs_symbol := T i |}
      end
  | ASRepeat _ _ => Panic PRepeatUnsupported
  | ASNamed b s' => lower_symbol nt_indices t_indices (Some b) s'
  end.

(** src/lower.rs:81-94: one production *)
Definition lower_production (nt_indices t_indices : list (string * nat)) (nm : string)
  (g : grammar (lexpr A)) (p : ast_production A) : res (grammar (lexpr A)) :=
  let* symbols := mapM (lower_symbol nt_indices t_indices None) (ap_symbols p) in
  match map_get String.eqb nm nt_indices with
  | None => Panic PMissingNonTerminalIndex
  | Some nt_idx =>
      match ap_action p with
      | Infallible e => Ok (add_production g nt_idx symbols (EUser e))
      | Fallible _ => Panic PFallibleUnsupported
      end
  end.

(** src/lower.rs:77-95 *)
Definition lower_productions (nt_indices t_indices : list (string * nat)) (g : grammar (lexpr A))
  (nt : ast_non_terminal A) : res (grammar (lexpr A)) :=
  foldM (lower_production nt_indices t_indices (an_name nt)) (an_productions nt) g.

(** src/lower.rs:9-98 [lower] *)
Definition lower (nts : list (ast_non_terminal A)) (terminals : list conversion)
  : res (grammar (lexpr A)) :=
  let* (g0, t_indices) := foldM lower_terminal terminals (grammar_new, []) in
  let (g1, nt_indices) := fold_left lower_non_terminal nts (g0, []) in
  foldM (lower_productions nt_indices t_indices) nts g1.

End Lower.
