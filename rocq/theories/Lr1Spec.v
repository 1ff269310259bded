(** * Lr1Spec: the textbook notion of LR(1) items and LR(1) grammars, for a lowered grammar.

    Knuth's LR(1)-valid items with the true FIRST sets (defined by derivations).  Nothing here refers to
    the FIRST tables, item sets, automata or tables the macro computes. *)
From Verif Require Export GSpec.

Section Lr1Spec.
Context {A : Type}.
Variable g : grammar A.

(** [x] (a terminal, or [None]: end of input) can come first in [l] followed by [la]. *)
Definition in_first (l : list symbol) (la x : option nat) : Prop :=
  (exists t, x = Some t /\ derives_first g l t) \/ (derives_empty g l /\ x = la).

(** [valid_by S gamma A p k la]: the item [A -> alpha . beta, la], where [alpha beta] is production [p]
    of [A] and [alpha] has length [k], is valid for the string of symbols [gamma] in the automaton of
    the entry point [S].  [first l la x]: lookahead [x] may follow a non-terminal in front of [l] in an item
    with lookahead [la]; LR(1)-valid items are those for [first = in_first]. *)
Section Valid.
Variable first : list symbol -> option nat -> option nat -> Prop.
Inductive valid_by (S : nat) : list symbol -> nat -> nat -> nat -> option nat -> Prop :=
| lv_start : valid_by S [] S 0 0 None
| lv_closure : forall gamma B p k la pr C q pr' x,
    valid_by S gamma B p k la -> get_production g B p = Some pr ->
    nth_error (rhs pr) k = Some (NT C) -> get_production g C q = Some pr' ->
    first (skipn (k + 1) (rhs pr)) la x -> valid_by S gamma C q 0 x
| lv_move : forall gamma B p k la pr X,
    valid_by S gamma B p k la -> get_production g B p = Some pr ->
    nth_error (rhs pr) k = Some X -> valid_by S (gamma ++ [X]) B p (k + 1) la.

(** A complete item: the dot is at the end. *)
Definition reduces_by (S : nat) (gamma : list symbol) (B p : nat) (la : option nat) : Prop :=
  exists pr, get_production g B p = Some pr /\ valid_by S gamma B p (List.length (rhs pr)) la.
(** An item expecting terminal [t] next. *)
Definition shifts_by (S : nat) (gamma : list symbol) (t : nat) : Prop :=
  exists B p k la pr, valid_by S gamma B p k la /\ get_production g B p = Some pr /\
    nth_error (rhs pr) k = Some (T t).
End Valid.

(** LR(1): no string of symbols has conflicting valid items, for any entry point. *)
Definition is_entry (S : nat) : Prop := exists N, get_non_terminal g S = Some N /\ nt_public N = true.
Definition lr1_grammar : Prop :=
  forall S gamma, is_entry S ->
    (forall B p C q la, reduces_by in_first S gamma B p la -> reduces_by in_first S gamma C q la -> B = C /\ p = q) /\
    (forall B p t, reduces_by in_first S gamma B p (Some t) -> shifts_by in_first S gamma t -> False).
End Lr1Spec.
Notation lr1_valid g := (valid_by g (in_first g)).
Notation lr1_reduces g := (reduces_by g (in_first g)).
Notation lr1_shifts g := (shifts_by g (in_first g)).
