(** * CoverSpec: the sentences whose lookaheads are known (C75, C76)

    A parser reduces a production when the token that follows is among the lookaheads it has for it.  [covered] says of a parse
    tree that this is so at each of its nodes, for a given table ([reduces gamma la n p]: production [p] of [n], complete after
    [gamma], is reduced in front of [la]); in words: [gamma] is what stands left of the tree, [la] the token entry right of it
    ([None]: the end). *)
From Verif Require Export InterleaveSpec.

Section Cover.
Context {A Tok : Type}.
Variable nts : list (ast_non_terminal A).
Variable class : Tok -> option string.
Variable reduces : list ast_symbol -> option string -> string -> nat -> Prop.

(** The first token of the trees, or what comes after them. *)
Definition next_entry (ts : list (utree Tok)) (la : option string) : option string :=
  match flat_map uyield ts with [] => la | tok :: _ => class tok end.
Inductive covered : list ast_symbol -> option string -> utree Tok -> Prop :=
| cov_leaf : forall gamma la tok, covered gamma la (ULeaf tok)
| cov_node : forall gamma la n p pr kids, uproduction nts n p = Some pr -> covered_all gamma la kids (body pr) ->
    reduces (gamma ++ body pr) la n p -> covered gamma la (UNode n p kids)
with covered_all : list ast_symbol -> option string -> list (utree Tok) -> list ast_symbol -> Prop :=
| cov_nil : forall gamma la, covered_all gamma la [] []
| cov_cons : forall gamma la t ts s ss, covered gamma (next_entry ts la) t -> covered_all (gamma ++ [s]) la ts ss ->
    covered_all gamma la (t :: ts) (s :: ss).
End Cover.
Scheme covered_mut := Induction for covered Sort Prop with covered_all_mut := Induction for covered_all Sort Prop.
Combined Scheme covered_both_ind from covered_mut, covered_all_mut.

(** Tables from FIRST sets ([first]: lookaheads from them), for the entry point [start]. *)
Section Tables.
Context {A Tok : Type}.
Variable nts : list (ast_non_terminal A).
Variable class : Tok -> option string.
Variable first : list ast_symbol -> option string -> option string -> Prop.
Variable start : string.
(** The lookahead is known at every node of the tree. *)
Definition known_tree (t : utree Tok) : Prop := covered nts class (fun gamma la n p => ureduces_by nts first start gamma (Some n) p la) [] None t.
(** At every node of the tree the lookahead is known, and there is nothing to shift or accept instead. *)
Definition chosen_tree (t : utree Tok) : Prop := covered nts class (kreduces_by nts first start) [] None t.
(** Every true lookahead of a complete production is known. *)
Definition all_lookaheads : Prop :=
  forall gamma n p la, ulr1_reduces nts start gamma (Some n) p la -> ureduces_by nts first start gamma (Some n) p la.
End Tables.
