(** * ComputedSpec: machines with approximate FIRST sets.

    [parser!] builds its automaton with FIRST sets that are not always the true ones.  Here: what such sets
    are, in terms of the user's grammar, and the lookaheads they give. *)
From Verif Require Export EffectsSpec GenSpec.

(** For every non-terminal: "may be empty", and the tokens it may begin with. *)
Record fsets : Type := { f_empty : string -> Prop; f_terms : string -> string -> Prop }.

Section Computed.
Context {A : Type}.
Variable nts : list (ast_non_terminal A).
Variable F : fsets.

(** The lookaheads that follow from [F]: [x] may come first in [l] followed by [la]. *)
Inductive ffirst : list ast_symbol -> option string -> option string -> Prop :=
| ff_end : forall la, ffirst [] la la
| ff_term : forall t r la, ffirst (ASTerminal t :: r) la (Some t)
| ff_nt : forall n r la t, f_terms F n t -> ffirst (ASNonTerminal n :: r) la (Some t)
| ff_skip : forall n r la x, f_empty F n -> ffirst r la x -> ffirst (ASNonTerminal n :: r) la x.

(** [F] accounts for the production [n -> l]: some non-terminals marked empty are skipped; then comes the end,
    a token, or a non-terminal all of whose tokens are also tokens of [n].  (The true FIRST sets would
    not skip the tokens of the former.) *)
Inductive accounted (n : string) : list ast_symbol -> Prop :=
| acc_end : f_empty F n -> accounted n []
| acc_term : forall t r, f_terms F n t -> accounted n (ASTerminal t :: r)
| acc_nt : forall m r, (forall t, f_terms F m t -> f_terms F n t) -> accounted n (ASNonTerminal m :: r)
| acc_skip : forall m r, f_empty F m -> accounted n r -> accounted n (ASNonTerminal m :: r).

(** Nothing wrong is in [F], and every production is accounted for. *)
Record first_sets : Prop := {
  fst_empty : forall n, f_empty F n -> unullable nts n;
  fst_terms : forall n t, f_terms F n t -> exists r, uderives nts [ASNonTerminal n] (ASTerminal t :: r);
  fst_accounted : forall n p pr, uproduction nts n p = Some pr -> accounted n (body pr)
}.
End Computed.

(** The index in the lowered grammar of the non-terminal called [nm]: an entry point takes a second index. *)
Definition lowered_index {A} (items : list (grammar_item A)) (nm : string) (n : nat) : Prop :=
  exists before N after, declared_nts items = before ++ N :: after /\ an_name N = nm /\
    n = List.length before + List.length (filter an_pub before).

(** The sets src/first.rs computes for the grammar of [items], read with the user's names.  (They do not depend
    on the order of hash iteration.) *)
Definition computed {A} (items : list (grammar_item A)) : fsets := {|
  f_empty nm := exists g tbl states entries n, stages items g tbl states entries /\ lowered_index items nm n /\
    fs_empty (get_first tbl n) = true;
  f_terms nm t := exists g tbl states entries n j, stages items g tbl states entries /\ lowered_index items nm n /\
    In j (fs_terminals (get_first tbl n)) /\ nth_error (map cv_from (token_entries items)) j = Some t |}.
