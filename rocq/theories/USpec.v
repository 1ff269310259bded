(** * USpec: grammar classes, in terms of the user-written grammar.

    Nullable, FIRST, productive, LR(1) and the side conditions of the completeness theorems.  Textbook
    notions over declared names and derivations; nothing here refers to lowered grammars, computed FIRST
    tables, item sets, automata or tables. *)
From Verif Require Export Spec.

Section USpec.
Context {A : Type}.
Variable nts : list (ast_non_terminal A).

(** [nt] derives the empty string. *)
Definition unullable (nt : string) : Prop := uderives nts [ASNonTerminal nt] [].
(** [nt] derives some string of terminals. *)
Definition uproductive (nt : string) : Prop := exists w, uderives nts [ASNonTerminal nt] (map ASTerminal w).

(** A right-hand side without binders. *)
Definition body (pr : ast_production A) : list ast_symbol := map unnamed (ap_symbols pr).

(** [m] occurs in some right-hand side after its first symbol. *)
Definition in_tail (m : string) : Prop :=
  exists n p pr X l, uproduction nts n p = Some pr /\ body pr = X :: l /\ In (ASNonTerminal m) l.

Definition no_empty_production : Prop := forall n p pr, uproduction nts n p = Some pr -> ap_symbols pr <> [].
Definition tails_productive : Prop := forall m, in_tail m -> uproductive m.

(** From the non-terminals that occur in tails, following first symbols of right-hand sides never leads
    through a nullable non-terminal.  (True if there is no empty production, and of grammars such as
    [L -> epsilon | L x] whose nullable non-terminals never come first below a tail.) *)
Definition tails_plain : Prop :=
  exists R : string -> Prop, (forall m, in_tail m -> R m) /\
    forall n p pr m l, R n -> uproduction nts n p = Some pr -> body pr = ASNonTerminal m :: l ->
      ~ unullable m /\ R m.

(** Every non-terminal that derives the empty string has an empty production of its own. *)
Definition empty_direct : Prop :=
  forall n, unullable n -> exists p pr, uproduction nts n p = Some pr /\ ap_symbols pr = [].

(** Side condition of the liveness and error-reporting theorems: non-terminals in tails derive something,
    and the empty string is not hidden from the FIRST computation in one of two ways. *)
Definition tails_reliable : Prop := tails_productive /\ (tails_plain \/ empty_direct).

(** [x] (a terminal, or [None]: end of input) can come first in [l] followed by [la]. *)
Definition uin_first (l : list ast_symbol) (la x : option string) : Prop :=
  (exists t r, x = Some t /\ uderives nts l (ASTerminal t :: r)) \/ (uderives nts l [] /\ x = la).

(** Right-hand side of production [p] of [lhs]; [None] is the augmented start symbol of entry point [S]. *)
Definition urhs (S : string) (lhs : option string) (p : nat) : option (list ast_symbol) :=
  match lhs with
  | None => if Nat.eqb p 0 then Some [ASNonTerminal S] else None
  | Some n => option_map body (uproduction nts n p)
  end.

(** [uvalid_by S gamma lhs p k la]: item [lhs -> alpha . beta, la] (production [p], [alpha] of length
    [k]) is valid for [gamma], for the entry point [S].  [first l la x]: lookahead [x] may follow a
    non-terminal in front of [l] in an item with lookahead [la].  LR(1)-valid items ([ulr1_valid]) are those for
    [first = uin_first]. *)
Section Valid.
Variable first : list ast_symbol -> option string -> option string -> Prop.
Inductive uvalid_by (S : string) : list ast_symbol -> option string -> nat -> nat -> option string -> Prop :=
| ulv_start : uvalid_by S [] None 0 0 None
| ulv_closure : forall gamma lhs p k la l C q l' x,
    uvalid_by S gamma lhs p k la -> urhs S lhs p = Some l -> nth_error l k = Some (ASNonTerminal C) ->
    urhs S (Some C) q = Some l' -> first (skipn (k + 1) l) la x -> uvalid_by S gamma (Some C) q 0 x
| ulv_move : forall gamma lhs p k la l X,
    uvalid_by S gamma lhs p k la -> urhs S lhs p = Some l -> nth_error l k = Some X ->
    uvalid_by S (gamma ++ [X]) lhs p (k + 1) la.

Definition ureduces_by (S : string) (gamma : list ast_symbol) (lhs : option string) (p : nat) (la : option string) : Prop :=
  exists l, urhs S lhs p = Some l /\ uvalid_by S gamma lhs p (List.length l) la.
Definition ushifts_by (S : string) (gamma : list ast_symbol) (t : string) : Prop :=
  exists lhs p k la l, uvalid_by S gamma lhs p k la /\ urhs S lhs p = Some l /\ nth_error l k = Some (ASTerminal t).

(** [a] is declared before [b]. *)
Definition declared_before (a b : string) : Prop :=
  exists i j, i < j /\ nth_error (map an_name nts) i = Some a /\ nth_error (map an_name nts) j = Some b.

(** The conflicts [parser!] reports, for entry point [S] after the symbols [gamma]: two different
    reductions on the same lookahead; a reduction and a shift on the same terminal where the production
    that shifts is declared before (or is) the one to reduce; a reduction at end of input against
    accepting, where the entry point is declared before the non-terminal to reduce. *)
Definition reduce_reduce_by (S : string) (gamma : list ast_symbol) : Prop :=
  exists a p b q la, ureduces_by S gamma (Some a) p la /\ ureduces_by S gamma (Some b) q la /\ (a, p) <> (b, q).
Definition shift_before_reduce_by (S : string) (gamma : list ast_symbol) : Prop :=
  exists a p b q k la l t, ureduces_by S gamma (Some a) p (Some t) /\
    uvalid_by S gamma (Some b) q k la /\ urhs S (Some b) q = Some l /\ nth_error l k = Some (ASTerminal t) /\
    (declared_before b a \/ b = a /\ q <= p).
Definition accept_before_reduce_by (S : string) (gamma : list ast_symbol) : Prop :=
  exists a p, ureduces_by S gamma (Some a) p None /\ ureduces_by S gamma None 0 None /\ declared_before S a.
Definition reported_conflict_by (S : string) (gamma : list ast_symbol) : Prop :=
  reduce_reduce_by S gamma \/ shift_before_reduce_by S gamma \/ accept_before_reduce_by S gamma.
Definition no_reported_conflict_by : Prop :=
  forall N gamma, In N nts -> an_pub N = true -> ~ reported_conflict_by (an_name N) gamma.
End Valid.

(** LR(1), for every [pub] non-terminal as start symbol. *)
Definition ulr1_grammar : Prop :=
  forall N gamma, In N nts -> an_pub N = true ->
    (forall a p b q la, ureduces_by uin_first (an_name N) gamma a p la -> ureduces_by uin_first (an_name N) gamma b q la -> a = b /\ p = q) /\
    (forall a p t, ureduces_by uin_first (an_name N) gamma a p (Some t) -> ushifts_by uin_first (an_name N) gamma t -> False).
End USpec.
Notation ulr1_valid nts := (uvalid_by nts (uin_first nts)).
Notation ulr1_reduces nts := (ureduces_by nts (uin_first nts)).
Notation ulr1_shifts nts := (ushifts_by nts (uin_first nts)).
Notation reduce_reduce nts := (reduce_reduce_by nts (uin_first nts)).
Notation shift_before_reduce nts := (shift_before_reduce_by nts (uin_first nts)).
Notation accept_before_reduce nts := (accept_before_reduce_by nts (uin_first nts)).
Notation reported_conflict nts := (reported_conflict_by nts (uin_first nts)).
Notation no_reported_conflict nts := (no_reported_conflict_by nts (uin_first nts)).



(** Every declared non-terminal derives some string of terminals. *)
Definition all_productive {A} (nts : list (ast_non_terminal A)) : Prop :=
  forall N, In N nts -> uproductive nts (an_name N).

(** The token entries [w] start some string of [nt]. *)
Definition string_prefix {A} (nts : list (ast_non_terminal A)) (nt : string) (w : list string) : Prop :=
  exists post, uderives nts [ASNonTerminal nt] (map ASTerminal (w ++ post)).
(** The tokens [toks] start some sentence of [nt]. *)
Definition sentence_prefix {A Tok} (nts : list (ast_non_terminal A)) (class : Tok -> option string) (nt : string) (toks : list Tok) : Prop :=
  exists w, Forall2 (fun tok s => class tok = Some s) toks w /\ string_prefix nts nt w.
