(** * MessageSpec: what the messages of [parser!] tell

    For every message, the fact about the user's grammar that it reports. *)
From Coq Require Import Ascii.
From Verif Require Export ComputedSpec Message.
Local Open Scope string_scope.

(** [parser! { items }] stops with the message [msg]. *)
Definition stops_with {A} (items : list (grammar_item A)) (msg : string) : Prop :=
  exists p, expansion_panics items p /\ panic_message (map cv_from (token_entries items)) p = Some msg.

(** The index of a symbol of the user's grammar in the lowered one. *)
Definition symbol_index {A} (items : list (grammar_item A)) (s : ast_symbol) (X : symbol) : Prop :=
  match s, X with
  | ASTerminal t, T j => nth_error (map cv_from (token_entries items)) j = Some t
  | ASNonTerminal n, NT i => lowered_index items n i
  | _, _ => False
  end.
(** [s] is the number of the state the automaton is in after the symbols [gamma], for entry point [S]. *)
Definition state_after {A} (items : list (grammar_item A)) (S : string) (gamma : list ast_symbol) (s : nat) : Prop :=
  exists g tbl states entries n N e gamma', stages items g tbl states entries /\
    get_non_terminal g n = Some N /\ nt_public N = true /\ nt_name N = S /\ In (n, e) entries /\
    Forall2 (symbol_index items) gamma gamma' /\ follow states e gamma' = Some s.

Section Messages.
Context {A : Type}.
Variable items : list (grammar_item A).
Notation nts := (declared_nts items).
Notation names := (map cv_from (token_entries items)).
(** Lookaheads, see [uvalid_by]. *)
Variable first : list ast_symbol -> option string -> option string -> Prop.

(** A production in a message: the index of its non-terminal (in declaration order, where a [pub] non-terminal counts
    for two) and its own index. *)
Inductive reduction : string -> nat -> string -> Prop :=
| red : forall a p n, lowered_index items a n -> reduction a p ("Reduce(" ++ decimal n ++ ", " ++ decimal p ++ ")").

(** Conflicts, for an entry point [S] after the symbols [gamma]. *)
Inductive conflict_message (S : string) (gamma : list ast_symbol) : string -> Prop :=
(** two different productions end here, both followed by [la] *)
| cm_reduce_reduce : forall s la a p b q ra rb, state_after items S gamma s ->
    ureduces_by nts first S gamma (Some a) p la -> ureduces_by nts first S gamma (Some b) q la -> (a, p) <> (b, q) ->
    reduction a p ra -> reduction b q rb ->
    conflict_message S gamma ("(" ++ decimal s ++ ", " ++ debug_opt la ++ "): Overriding " ++ ra ++ " action with " ++ rb)
(** a production ends here, followed by [t]; in another one [t] comes next *)
| cm_shift_reduce : forall s t s' a p ra, state_after items S gamma s -> state_after items S (gamma ++ [ASTerminal t]) s' ->
    ushifts_by nts first S gamma t -> ureduces_by nts first S gamma (Some a) p (Some t) -> reduction a p ra ->
    conflict_message S gamma ("(" ++ decimal s ++ ", " ++ debug_opt (Some t) ++ "): Overriding Shift(" ++ decimal s' ++ ") with " ++ ra)
(** a production ends here at the end of the input, and so may the whole input *)
| cm_accept_reduce : forall s a p ra, state_after items S gamma s ->
    ureduces_by nts first S gamma None 0 None -> ureduces_by nts first S gamma (Some a) p None -> reduction a p ra ->
    conflict_message S gamma ("(" ++ decimal s ++ ", None): Overriding Accept action with " ++ ra).

Inductive explained : string -> Prop :=
| ex_tokens_twice : 2 <= List.length (declared_tokens items) -> explained "`enum Token` is declared multiple times"
| ex_state_twice : 2 <= List.length (declared_states items) -> explained "`type State` is declared multiple times"
| ex_no_tokens : declared_tokens items = [] -> explained "Token type (`enum Token`) is not defined"
| ex_entry_twice : forall t i j, i < j -> nth_error names i = Some t -> nth_error names j = Some t ->
    explained ("Terminal " ++ debug_str t ++ " defined multiple times")
| ex_no_non_terminal : forall n, used nts (ASNonTerminal n) -> ~ In n (map an_name nts) ->
    explained ("Non-terminal not defined: " ++ n)
| ex_no_terminal : forall t, used nts (ASTerminal t) -> ~ In t names -> explained ("Unknown non-terminal: " ++ debug_str t)
| ex_repeat : forall op s, used nts (ASRepeat op s) -> explained "not yet implemented: Repeat symbol not supported yet"
| ex_fallible : forall N p e, In N nts -> In p (an_productions N) -> ap_action p = Fallible e ->
    explained "not yet implemented: Fallible actions not supported yet"
| ex_conflict : forall N gamma msg, In N nts -> an_pub N = true -> conflict_message (an_name N) gamma msg -> explained msg.
End Messages.

(** *** Names in messages are printed as Rust string literals (Rust reference, "String literals") *)
(** The value of a hexadecimal digit. *)
Definition digit_value (c : Ascii.ascii) : option nat := index 0 (String c "") "0123456789abcdef".
(** The value of a sequence of hexadecimal digits, most significant first. *)
Inductive hex_number : string -> nat -> Prop :=
| hx_one : forall c d, digit_value c = Some d -> hex_number (String c "") d
| hx_more : forall s n c d, hex_number s n -> digit_value c = Some d -> hex_number (s ++ String c "") (16 * n + d).
(** What stands for one character (one byte, see Message.v) inside a literal.  [ascii_of_nat n] is the character with code [n]. *)
Inductive literal_char : string -> Ascii.ascii -> Prop :=
| lc_plain : forall c, c <> """"%char -> c <> "\"%char -> 32 <= Ascii.nat_of_ascii c -> Ascii.nat_of_ascii c <> 127 -> literal_char (String c "") c
| lc_quote : literal_char "\""" """"%char
| lc_backslash : literal_char "\\" "\"%char
| lc_null : literal_char "\0" (Ascii.ascii_of_nat 0)
| lc_tab : literal_char "\t" (Ascii.ascii_of_nat 9)
| lc_newline : literal_char "\n" (Ascii.ascii_of_nat 10)
| lc_return : literal_char "\r" (Ascii.ascii_of_nat 13)
| lc_unicode : forall h n, hex_number h n -> n < 128 -> literal_char ("\u{" ++ h ++ "}") (Ascii.ascii_of_nat n).
Inductive literal_chars : string -> string -> Prop :=
| lcs_nil : literal_chars "" ""
| lcs_cons : forall r c rs s, literal_char r c -> literal_chars rs s -> literal_chars (r ++ rs) (String c s).
(** The literal [r] has the value [s]. *)
Definition string_literal (r s : string) : Prop := exists rs, r = """" ++ rs ++ """" /\ literal_chars rs s.
