(** * TypedSpec: what a user of the macro has to provide for the emitted module to compile *)
From Verif Require Import PropertiesHygiene.
From Verif Require Export EmitSpec EmitTypes.
Local Open Scope string_scope. Local Open Scope list_scope.

(** The type with a given text. *)
Definition user_type (t : ty) : rty :=
  if String.eqb t "&'static str" then TStr
  else if String.eqb t "u16" then TInt U16
  else if String.eqb t "u32" then TInt U32
  else if String.eqb t "usize" then TInt Usize
  else TUser t.
(** The type of several parts of a token *)
Definition parts_type (tys : list ty) : rty := match tys with [t] => user_type t | _ => TTup (map user_type tys) end.

(** [x] is one of the words of the text [t]: letters, digits, [_], the ['] of lifetimes, and whatever is not ASCII. *)
Definition is_word (c : Ascii.ascii) : Prop :=
  exists n, c = Ascii.ascii_of_nat n /\ n < 256 /\ (48 <= n <= 57 \/ 65 <= n <= 90 \/ 97 <= n <= 122 \/ n = 95 \/ n = 39 \/ 128 <= n).
Inductive all_word : string -> Prop :=
| aw_nil : all_word ""
| aw_cons : forall c s, is_word c -> all_word s -> all_word (String c s).
Definition has_word (x t : string) : Prop :=
  exists a b, t = (a ++ x ++ b)%string /\ all_word x /\
    (a = "" \/ exists a' c, a = (a' ++ String c "")%string /\ ~ is_word c) /\ (b = "" \/ exists c b', b = String c b' /\ ~ is_word c).

(** The variables an action may mention: the binders of a production, with the types of their symbols. *)
Inductive bound_vars {A} (items : list (grammar_item A)) : list ast_symbol -> list (string * rty) -> Prop :=
| bv_nil : bound_vars items [] []
| bv_skip : forall s ss vs, binder_of s = None -> bound_vars items ss vs -> bound_vars items (s :: ss) vs
| bv_bind : forall s ss x tys vs, binder_of s = Some x -> symbol_types items s tys -> bound_vars items ss vs ->
    bound_vars items (s :: ss) ((nm_name x, parts_type tys) :: vs).

(** [pattern_of U p t]: the token pattern [p] fits values of type [t], and the chosen parts have the types written in it.  A
    pattern in which nothing is chosen also fits references. *)
Section Patterns.
Context {A : Type}.
Variable U : user_types A.
Inductive pattern_of : pattern -> rty -> Prop :=
| po_choose : forall t, pattern_of (PatChoose t) (user_type t)
| po_wild : forall t, pattern_of PatUnderscore t
| po_path : forall c t, ut_const U c t -> pattern_of (PatPath c) t
| po_lit : forall l t, ut_lit U l t -> pattern_of (PatLit l) t
| po_enum : forall c ps ts t, ut_tuple U c ts t -> patterns_of ps ts -> pattern_of (PatEnum c ps) t
| po_tuple : forall ps ts, patterns_of ps ts -> pattern_of (PatTuple ps) (TTup ts)
| po_struct : forall c fs dots fts t, ut_struct U c fts t -> NoDup (map fst fs) -> (dots = false -> incl (map fst fts) (map fst fs)) ->
    fields_of fs fts -> pattern_of (PatStruct c fs dots) t
| po_ref : forall p t, pattern_types p = [] -> pattern_of p t -> pattern_of p (TRef t)
with patterns_of : list pattern -> list rty -> Prop :=
| pos_nil : patterns_of [] []
| pos_cons : forall p ps t ts, pattern_of p t -> patterns_of ps ts -> patterns_of (p :: ps) (t :: ts)
| pos_rest : forall ps ts us, ~ In PatDotDot ps -> patterns_of ps us -> patterns_of (PatDotDot :: ps) (ts ++ us)
with fields_of : list (string * pattern) -> list (string * rty) -> Prop :=
| pf_nil : forall fts, fields_of [] fts
| pf_cons : forall f p fs fts t, assoc_get f fts = Some t -> pattern_of p t -> fields_of fs fts -> fields_of ((f, p) :: fs) fts.
End Patterns.

(** Types written in a grammar: of non-terminals, and of the chosen parts of tokens. *)
Definition written_type {A} (items : list (grammar_item A)) (t : ty) : Prop :=
  (exists N, In N (declared_nts items) /\ an_type N = t) \/ (exists c, In c (token_entries items) /\ In t (pattern_types (cv_to c))).

(** What the user promises: actions have the types of their non-terminals, token patterns fit the token type and cover
    it, and all values can be printed.  (Other types than [TUser] ones are integers and strings.) *)
Record promises {A} (items : list (grammar_item A)) (te : token_enum) (U : user_types A) : Prop := {
  pm_actions : forall N pr vs, In N (declared_nts items) -> In pr (an_productions N) -> bound_vars items (ap_symbols pr) vs ->
    ut_action U (action_expr (ap_action pr)) vs (user_type (an_type N));
  pm_patterns : forall c, In c (token_entries items) -> pattern_of U (cv_to c) (TUser (te_type_name te));
  pm_covers : ut_covers U (map (fun c => pattern_ignore (cv_to c)) (token_entries items)) (TUser (te_type_name te));
  pm_debug : forall t, written_type items t -> user_type t = TUser t -> ut_impl U "Debug" t
}.

(** Conditions on names of types, beyond [usable_names]: nothing hides a type of the prelude or the token type. *)
Definition prelude_types : list string := ["Option"; "Result"; "Vec"; "Iterator"; "Clone"; "u16"; "u32"; "usize"; "str"].
Record free_types {A} (items : list (grammar_item A)) (te : token_enum) : Prop := {
  ty_entry : forall N, In N (declared_nts items) -> an_pub N = true -> ~ In (an_name N) prelude_types /\ an_name N <> te_type_name te;
  ty_token : ~ In (te_type_name te) (own_types ++ prelude_types ++ ["R"; "E"])
}.
(** Conditions on types: the parameter [E] of [parse] captures no type, lifetimes of the token type occur in a type of the
    grammar, and there are tokens. *)
Record typable {A} (items : list (grammar_item A)) (te : token_enum) : Prop := {
  ty_result : forall N, In N (declared_nts items) -> an_pub N = true -> mentions "E" (an_type N) = false;
  ty_lifetimes : NoDup (te_lifetimes te) /\ forall a, In a (te_lifetimes te) -> exists t, written_type items t /\ mentions ("'" ++ a) t = true;
  ty_tokens : token_entries items <> []
}.
