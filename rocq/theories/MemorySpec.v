(** * MemorySpec: how many entries the stacks of a parser hold (C71) *)
From Verif Require Export InterleaveSpec.

(** The left parts of a parse tree: complete subtrees, from left to right, that are met when the tree is cut anywhere: nothing;
    the whole; or some children of the root followed by a left part of the next child. *)
Inductive left_part {Tok} : utree Tok -> list (utree Tok) -> Prop :=
| lp_nothing : forall t, left_part t []
| lp_whole : forall t, left_part t [t]
| lp_down : forall n p done k rest f, left_part k f -> left_part (UNode n p (done ++ k :: rest)) (done ++ f).

(** [h] bounds what the non-terminals need: a production of [n] has at most [h n] symbols, and a non-terminal with [k] symbols
    before it needs at most [h n - k].  Left recursion ([k = 0]) is no obstacle, other recursion is. *)
Definition stack_height {A} (nts : list (ast_non_terminal A)) (h : string -> nat) : Prop :=
  forall n p pr, uproduction nts n p = Some pr ->
    List.length (ap_symbols pr) <= h n /\
    forall k C, nth_error (body pr) k = Some (ASNonTerminal C) -> k + h C <= h n.

(** [inside nts n k m]: following right-hand sides down from [n] leads to [m], past [k] symbols on the left in all. *)
Inductive inside {A} (nts : list (ast_non_terminal A)) : string -> nat -> string -> Prop :=
| in_here : forall n, inside nts n 0 n
| in_down : forall n p pr k c j m, uproduction nts n p = Some pr -> nth_error (body pr) k = Some (ASNonTerminal c) ->
    inside nts c j m -> inside nts n (k + j) m.
(** Some non-terminal reached from [start] contains itself with something on its left: recursion other than left recursion. *)
Definition nests {A} (nts : list (ast_non_terminal A)) (start : string) : Prop :=
  exists i n k, inside nts start i n /\ inside nts n (S k) n.
(** Every symbol in a right-hand side has a parse tree: non-terminals derive token strings, and token entries match some token. *)
Definition no_useless_symbol {A Tok} (nts : list (ast_non_terminal A)) (class : Tok -> option string) : Prop :=
  forall n p pr s, uproduction nts n p = Some pr -> In s (ap_symbols pr) -> exists t, utree_of nts class t s.
