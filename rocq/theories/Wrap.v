(** * Wrap: the truncating cast of src/grammar.rs:122

    [Grammar::add_non_terminal] returns [NonTerminalIdx(idx as u32)], which wraps around silently.  The other model
    files drop the cast.  Here is lowering with the cast, and the macro with that lowering.  (The other two casts,
    lines 174 and 195, are in a return value nobody uses and in a [Display] implementation.) *)
From Coq Require Import NArith.
From Verif Require Export Macro.

(** [n as u32]. src/grammar.rs:122, 174, 195. *)
Definition as_u32 (n : nat) : nat := N.to_nat (N.of_nat n mod 4294967296).

Section Wrap.
Context {A : Type}.

(** src/grammar.rs:109-123 [add_non_terminal], with the cast *)
Definition add_non_terminal_u32 (g : grammar (lexpr A)) (nm : string) (rty : ty) (public : bool) : grammar (lexpr A) * nat :=
  ({| g_nts := g_nts g ++ [{| nt_name := nm; nt_productions := []; nt_return_ty := rty; nt_public := public |}];
      g_terminals := g_terminals g |},
   as_u32 (List.length (g_nts g))).

(** src/lower.rs:29-75: declare the non-terminals *)
Definition lower_non_terminal_u32 (st : grammar (lexpr A) * list (string * nat)) (nt : ast_non_terminal A)
  : grammar (lexpr A) * list (string * nat) :=
  let (g, nt_indices) := st in
  if an_pub nt then
    let (g1, nt1_idx) := add_non_terminal_u32 g (an_name nt ++ "1")%string (an_type nt) false in
    let nt_indices' := map_insert String.eqb (an_name nt) nt1_idx nt_indices in
    let (g2, nt_idx) := add_non_terminal_u32 g1 (an_name nt) (an_type nt) true in
    (add_production g2 nt_idx [entry_symbol nt1_idx] (EVar "x"%string), nt_indices')
  else
    let (g1, nt_idx) := add_non_terminal_u32 g (an_name nt) (an_type nt) false in
    (g1, map_insert String.eqb (an_name nt) nt_idx nt_indices).

(** src/lower.rs:9-98 [lower] *)
Definition lower_u32 (nts : list (ast_non_terminal A)) (terminals : list conversion) : res (grammar (lexpr A)) :=
  let* (g0, t_indices) := foldM lower_terminal terminals (grammar_new, []) in
  let (g1, nt_indices) := fold_left lower_non_terminal_u32 nts (g0, []) in
  foldM (lower_productions nt_indices t_indices) nts g1.

(** src/lib.rs:22-60 *)
Definition macro_u32 (ho : hash_order) (fuel : nat) (items : list (grammar_item A)) : res (generated (lexpr A)) :=
  let* acc := foldM collect_item items {| ia_nts := []; ia_token := None; ia_state := None |} in
  match ia_token acc with
  | None => Panic PNoToken
  | Some te =>
      let* g := lower_u32 (ia_nts acc) (te_conversions te) in
      generate_lr1_parser ho fuel g te
  end.
End Wrap.
