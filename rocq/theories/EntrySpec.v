(** * EntrySpec: blocks that differ only in their token entries *)
From Verif Require Export ComputedSpec KnuthSpec.
Local Open Scope list_scope.

(** The same block but for the entries of [enum Token]. *)
Record same_but_entries {A} (items items' : list (grammar_item A)) : Prop := {
  sbe_nts : declared_nts items = declared_nts items';
  sbe_states : declared_states items = declared_states items';
  sbe_tokens : map te_type_name (declared_tokens items) = map te_type_name (declared_tokens items')
}.

(** Some production mentions the token entry [t]. *)
Definition mentioned {A} (nts : list (ast_non_terminal A)) (t : string) : Prop :=
  exists N pr, In N nts /\ In pr (an_productions N) /\ In (ASTerminal t) (body pr).

(** The used entries come in the same order: what is left when some unused ones are dropped is the same. *)
Definition same_used_order {A} (nts : list (ast_non_terminal A)) (l l' : list string) : Prop :=
  exists keep, (forall t, mentioned nts t -> keep t = true) /\ filter keep l = filter keep l'.

(** [tok] is the result of some later [next()] on the iterator. *)
Inductive upcoming {Tok E I} (next : I -> option (Tok + E) * I) : I -> Tok -> Prop :=
| up_now : forall it tok it', next it = (Some (inl tok), it') -> upcoming next it tok
| up_later : forall it r it' tok, next it = (r, it') -> upcoming next it' tok -> upcoming next it tok.

(** The same productions (in any order) and the same computed FIRST sets for [S] and everything mentioned from there. *)
Definition same_below {A} (items items' : list (grammar_item A)) (S : string) : Prop :=
  exists R : string -> Prop, R S /\
    forall n, R n ->
      (forall pr, In pr (rules_of (declared_nts items) n) <-> In pr (rules_of (declared_nts items') n)) /\
      (forall pr m, In pr (rules_of (declared_nts items) n) -> In (ASNonTerminal m) (body pr) -> R m) /\
      (f_empty (computed items) n <-> f_empty (computed items') n) /\
      (forall t, f_terms (computed items) n t <-> f_terms (computed items') n t).
