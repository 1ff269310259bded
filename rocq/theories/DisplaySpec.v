(** * DisplaySpec: what a printed text tells *)
From Coq Require Import Ascii.
From Verif Require Export Lr1.
Local Open Scope string_scope.

(** Characters of identifiers: letters, digits, the underscore; bytes from 128 on are taken for letters. *)
Definition name_char (c : ascii) : bool :=
  let n := nat_of_ascii c in
  (Nat.leb 48 n && Nat.leb n 57) || (Nat.leb 65 n && Nat.leb n 90) || (Nat.leb 97 n && Nat.leb n 122) || Nat.eqb n 95 || Nat.leb 128 n.
Fixpoint name_text (s : string) : bool := match s with "" => true | String c s' => name_char c && name_text s' end.
(** The names of the non-terminals are identifiers. *)
Definition identifiers {A} (g : grammar A) : Prop := forall n N, get_non_terminal g n = Some N -> nt_name N <> "" /\ name_text (nt_name N) = true.

(** A symbol by its name: [inl] a non-terminal, [inr] a terminal; [None] if there is no such symbol. *)
Definition named {A} (g : grammar A) (X : symbol) : option (string + string) :=
  match X with
  | NT n => option_map (fun N => inl (nt_name N)) (get_non_terminal g n)
  | T t => option_map inr (get_terminal g t)
  end.
(** Right-hand sides, items, transitions and table entries by the names in them *)
Definition rhs_named {A} (g : grammar A) (pr : production A) : list (option (string + string)) := map (named g) (rhs pr).
Definition item_view {A} (g : grammar A) (it : item) :=
  (option_map nt_name (get_non_terminal g (it_nt it)), option_map (rhs_named g) (get_production g (it_nt it) (it_prod it)), it_cursor it,
   option_map (get_terminal g) (it_la it)).
Definition goto_view {A} (g : grammar A) (x : symbol * nat) := (named g (fst x), snd x).
Definition nt_view {A} (g : grammar A) (N : non_terminal A) := (nt_name N, nt_public N, map (rhs_named g) (nt_productions N)).
Definition set_view {A} (g : grammar A) (ho : hash_order) (fs : first_set) := (map (get_terminal g) (ho_terms ho (fs_terminals fs)), fs_empty fs).
(** An action without its piece of code *)
Definition action_view {A} (g : grammar A) (a : lr_action A) : lr_action (option string * option (list (option (string + string)))) :=
  match a with
  | Shift s => Shift s
  | Reduce nt p _ => Reduce nt p (option_map nt_name (get_non_terminal g nt), option_map (rhs_named g) (get_production g nt p))
  | Accept => Accept
  end.
Definition entry_view {A} (g : grammar A) (x : option nat * lr_action A) := (option_map (get_terminal g) (fst x), action_view g (snd x)).
Definition row_view {A} (g : grammar A) (x : nat * nat) := (option_map nt_name (get_non_terminal g (fst x)), snd x).
(** The cursor of an item is in its production. *)
Definition cursor_ok {A} (g : grammar A) (it : item) : Prop :=
  forall pr, get_production g (it_nt it) (it_prod it) = Some pr -> it_cursor it <= List.length (rhs pr).
