(** * Message: the texts of the macro's own panics *)
From Coq Require Import Ascii.
From Verif Require Export Macro.
Local Open Scope string_scope.

(** [format!("{:x}", n)] for [n < 128] (inside [{:?}] of a string, see below) *)
Definition hex_digit (n : nat) : string :=
  match n with 10 => "a" | 11 => "b" | 12 => "c" | 13 => "d" | 14 => "e" | 15 => "f" | _ => digit n end.
(** One character of [{:?}] applied to a string (used at src/lr_common.rs:66, 88, 118, 128, 139 and src/lower.rs:23, 123):
    Rust's [char::escape_debug], double quotes escaped and single quotes not.  Simplification: bytes from 128 on, i.e.
    characters outside ASCII, are left alone (Rust escapes the unprintable ones among them). *)
Definition debug_char (c : ascii) : string :=
  let n := nat_of_ascii c in
  if Nat.eqb n 0 then "\0" else if Nat.eqb n 9 then "\t" else if Nat.eqb n 10 then "\n" else if Nat.eqb n 13 then "\r"
  else if Nat.eqb n 34 then "\""" else if Nat.eqb n 92 then "\\"
  else if Nat.ltb n 16 then "\u{" ++ hex_digit n ++ "}"
  else if Nat.ltb n 32 || Nat.eqb n 127 then "\u{" ++ hex_digit (n / 16) ++ hex_digit (n mod 16) ++ "}"
  else String c "".
(** As above, the characters of a string *)
Fixpoint debug_chars (s : string) : string :=
  match s with EmptyString => "" | String c s' => debug_char c ++ debug_chars s' end.
(** [{:?}] of a [&str] (src/lr_common.rs:68, 90; src/lower.rs:23, 123) *)
Definition debug_str (s : string) : string := """" ++ debug_chars s ++ """".
(** [{:?}] of an [Option<&str>] (src/lr_common.rs:120, 130, 141) *)
Definition debug_opt (o : option string) : string :=
  match o with Some s => "Some(" ++ debug_str s ++ ")" | None => "None" end.

(** The message of a panic; [terminals] are the terminals of the grammar.  [None]: a panic inside a library or of an
    assertion ([unwrap], indexing, [syn::Ident::new]), whose text is not modelled, or an index out of range. *)
Definition panic_message (terminals : list string) (p : panic) : option string :=
  let terminal := fun t => nth_error terminals t in                                  (* src/grammar.rs:135-137 *)
  let token := fun la => match la with                                               (* [token.map(..)] *)
                         | None => Some "None"
                         | Some t => option_map (fun s => debug_opt (Some s)) (terminal t)
                         end in
  match p with
  | PDupTerminal s => Some ("Terminal " ++ debug_str s ++ " defined multiple times")  (* src/lower.rs:23 *)
  | PUnknownNonTerminal s => Some ("Non-terminal not defined: " ++ s)                 (* src/lower.rs:111 *)
  | PUnknownTerminal s => Some ("Unknown non-terminal: " ++ debug_str s)              (* src/lower.rs:123 *)
  | PRepeatUnsupported => Some "not yet implemented: Repeat symbol not supported yet" (* src/lower.rs:130, todo! *)
  | PFallibleUnsupported => Some "not yet implemented: Fallible actions not supported yet" (* src/lower.rs:90, todo! *)
  | PShiftShift s t old new =>                                                        (* src/lr_common.rs:65-71 *)
      option_map (fun x => "(" ++ decimal s ++ ", " ++ debug_str x ++ "): Overriding Shift(" ++ decimal old ++
                           ") with Shift(" ++ decimal new ++ ")") (terminal t)
  | PAcceptShift s t new =>                                                           (* src/lr_common.rs:87-92 *)
      option_map (fun x => "(" ++ decimal s ++ ", " ++ debug_str x ++ "): Overriding Accept action with Shift(" ++
                           decimal new ++ ")") (terminal t)
  | PShiftReduce s la old nt p =>                                                     (* src/lr_common.rs:117-124 *)
      option_map (fun x => "(" ++ decimal s ++ ", " ++ x ++ "): Overriding Shift(" ++ decimal old ++ ") with Reduce(" ++
                           decimal nt ++ ", " ++ decimal p ++ ")") (token la)
  | PReduceReduce s la nt0 p0 nt p =>                                                 (* src/lr_common.rs:127-135 *)
      option_map (fun x => "(" ++ decimal s ++ ", " ++ x ++ "): Overriding Reduce(" ++ decimal nt0 ++ ", " ++ decimal p0 ++
                           ") action with Reduce(" ++ decimal nt ++ ", " ++ decimal p ++ ")") (token la)
  | PAcceptReduce s la nt p =>                                                        (* src/lr_common.rs:138-144 *)
      option_map (fun x => "(" ++ decimal s ++ ", " ++ x ++ "): Overriding Accept action with Reduce(" ++
                           decimal nt ++ ", " ++ decimal p ++ ")") (token la)
  | PDupState => Some "`type State` is declared multiple times"                       (* src/lib.rs:35 *)
  | PDupToken => Some "`enum Token` is declared multiple times"                       (* src/lib.rs:42 *)
  | PNoToken => Some "Token type (`enum Token`) is not defined"                       (* src/lib.rs:53, expect *)
  | PMissingNonTerminalIndex | PAssertOneProduction | PTryFrom | PIndex | PAssertTable | PRawName => None
  end.
