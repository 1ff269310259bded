(** * DslSpec: the concrete syntax of the grammar language, as a grammar over token lists.

    Each relation says which token lists are an item, a rule, a production, ...; everything is by
    concatenation, with no reference to parsing functions, lookahead, or left-over input.  Rust types,
    expressions and paths are given by predicates [is_type], [is_expr], [is_path]. *)
From Verif Require Export Dsl.
Local Open Scope string_scope.
Local Open Scope list_scope.

(** Tokens; [j] is the spacing, which matters only inside [=>] and [..]. *)
Notation pt c j := (TPunct c j).
Definition fat_arrow (l : list ttree) : Prop := exists j, l = [pt "=" true; pt ">" j].
Definition dot_dot (l : list ttree) : Prop := exists j, l = [pt "." true; pt "." j].
Definition comma (l : list ttree) : Prop := exists j, l = [pt "," j].
Definition opt (P : list ttree -> Prop) (l : list ttree) : Prop := l = [] \/ P l.

(** A literal that begins with a digit is a number. *)
Inductive numeral : string -> Prop :=
| numeral_intro : forall c r, In c ["0"; "1"; "2"; "3"; "4"; "5"; "6"; "7"; "8"; "9"]%char -> numeral (String c r).
(** A literal: value if it is a string literal, and source text. *)
Inductive literal : list ttree -> option string -> string -> Prop :=
| lit_tok : forall sv text, literal [TLit sv text] sv text
| lit_true : literal [TIdent "true"] None "true"
| lit_false : literal [TIdent "false"] None "false"
| lit_neg : forall j sv text, numeral text ->
    literal [pt "-" j; TLit sv text] None (String "-" text).

(** [x1, x2, .., xn] with an optional comma at the end *)
Inductive commas {X} (P : list ttree -> X -> Prop) : list ttree -> list X -> Prop :=
| cm_nil : commas P [] []
| cm_last : forall l x, P l x -> commas P l [x]
| cm_cons : forall l x c l' xs, P l x -> comma c -> commas P l' xs -> commas P (l ++ c ++ l') (x :: xs).

(** The paths allowed in patterns begin with an identifier. *)
Inductive path_start : list ttree -> Prop :=
| path_start_intro : forall s l, is_ident s = true -> path_start (TIdent s :: l).

Section DslSpec.
Context {A : Type}.
Variable is_type : list ttree -> ty -> Prop.
Variable is_expr : list ttree -> A -> Prop.
Variable is_path : list ttree -> string -> Prop.

(** *** Token patterns *)
Inductive pat_syntax : list ttree -> pattern -> Prop :=
| ps_dots : forall l, dot_dot l -> pat_syntax l PatDotDot
| ps_lit : forall l sv text, literal l sv text -> pat_syntax l (PatLit text)
| ps_underscore : pat_syntax [TIdent "_"] PatUnderscore
| ps_tuple : forall c ps, commas pat_syntax c ps -> pat_syntax [TGroup DParen c] (PatTuple ps)
| ps_path : forall l p, path_start l -> is_path l p -> pat_syntax l (PatPath p)
| ps_enum : forall l p c ps, path_start l -> is_path l p -> commas pat_syntax c ps ->
    pat_syntax (l ++ [TGroup DParen c]) (PatEnum p ps)
| ps_struct : forall l p c fs dots, path_start l -> is_path l p -> fields_syntax c fs dots ->
    pat_syntax (l ++ [TGroup DBrace c]) (PatStruct p fs dots)
| ps_choose : forall j l t k, is_type l t -> pat_syntax (pt "<" j :: l ++ [pt ">" k]) (PatChoose t)
(** Fields of a struct pattern: [f1: p1, .., fn: pn], then optionally a comma or [..]. *)
with fields_syntax : list ttree -> list (string * pattern) -> bool -> Prop :=
| fs_nil : fields_syntax [] [] false
| fs_dots : forall l, dot_dot l -> fields_syntax l [] true
| fs_last : forall f j l p, is_ident f = true -> pat_syntax l p -> fields_syntax (TIdent f :: pt ":" j :: l) [(f, p)] false
| fs_last_dots : forall f j l p d, is_ident f = true -> pat_syntax l p -> dot_dot d ->
    fields_syntax (TIdent f :: pt ":" j :: l ++ d) [(f, p)] true
| fs_cons : forall f j l p c l' fs dots, is_ident f = true -> pat_syntax l p -> comma c ->
    fields_syntax l' fs dots -> fields_syntax (TIdent f :: pt ":" j :: l ++ c ++ l') ((f, p) :: fs) dots.

(** ["terminal" => pattern] *)
Inductive conversion_syntax : list ttree -> conversion -> Prop :=
| cvs : forall s text arrow l p, fat_arrow arrow -> pat_syntax l p ->
    conversion_syntax (TLit (Some s) text :: arrow ++ l) {| cv_from := s; cv_to := p |}.

(** Lifetimes, each followed by an optional comma *)
Inductive lifetimes_syntax : list ttree -> list string -> Prop :=
| lts_nil : lifetimes_syntax [] []
| lts_cons : forall s c l ls, opt comma c -> lifetimes_syntax l ls -> lifetimes_syntax (TLifetime s :: c ++ l) (s :: ls).

(** [enum Token<'a> { .. }] *)
Inductive enum_syntax : list ttree -> token_enum -> Prop :=
| es_plain : forall n c es, is_ident n = true -> commas conversion_syntax c es ->
    enum_syntax [TIdent "enum"; TIdent n; TGroup DBrace c] {| te_type_name := n; te_lifetimes := []; te_conversions := es |}
| es_lifetimes : forall n j l ls k c es, is_ident n = true -> lifetimes_syntax l ls -> commas conversion_syntax c es ->
    enum_syntax (TIdent "enum" :: TIdent n :: pt "<" j :: l ++ [pt ">" k; TGroup DBrace c])
                {| te_type_name := n; te_lifetimes := ls; te_conversions := es |}.

(** *** Rules *)

(** ["terminal"], [NonTerminal], [<x: s>], [<mut x: s>], [s+], [s*], [s?].  [junk]: a literal that is not
    a string literal is silently dropped in front of the second and third form (see C45). *)
Inductive junk : list ttree -> Prop :=
| junk_none : junk []
| junk_lit : forall l text, literal l None text -> junk l.
Definition repeat_char (op : repeat_op) : ascii :=
  match op with RPlus => "+"%char | RStar => "*"%char | RQuestion => "?"%char end.
Inductive sym_syntax : list ttree -> ast_symbol -> Prop :=
| sy_terminal : forall s text, sym_syntax [TLit (Some s) text] (ASTerminal s)
| sy_nt : forall jk s, junk jk -> is_ident s = true -> sym_syntax (jk ++ [TIdent s]) (ASNonTerminal s)
| sy_named : forall jk a b c (mutable : bool) x l s, junk jk -> is_ident x = true -> sym_syntax l s ->
    sym_syntax (jk ++ pt "<" a :: (if mutable then [TIdent "mut"] else []) ++ TIdent x :: pt ":" b :: l ++ [pt ">" c])
               (ASNamed {| nm_mutable := mutable; nm_name := x |} s)
| sy_repeat : forall l s op j, sym_syntax l s -> sym_syntax (l ++ [pt (repeat_char op) j]) (ASRepeat op s).

Inductive syms_syntax : list ttree -> list ast_symbol -> Prop :=
| sys_nil : syms_syntax [] []
| sys_cons : forall l s l' ss, sym_syntax l s -> syms_syntax l' ss -> syms_syntax (l ++ l') (s :: ss).

(** [=> expr] (where the expression does not begin with [?]), [=>? expr] *)
Inductive action_syntax (is_e : list ttree -> A -> Prop) : list ttree -> ast_action A -> Prop :=
| as_infallible : forall arrow l e, fat_arrow arrow -> is_e l e -> peek_punct "?" l = false ->
    action_syntax is_e (arrow ++ l) (Infallible e)
| as_fallible : forall arrow j l e, fat_arrow arrow -> is_e l e -> action_syntax is_e (arrow ++ pt "?" j :: l) (Fallible e).

Inductive production_syntax (is_e : list ttree -> A -> Prop) : list ttree -> ast_production A -> Prop :=
| prs : forall l ss l' a, syms_syntax l ss -> action_syntax is_e l' a ->
    production_syntax is_e (l ++ l') {| ap_symbols := ss; ap_action := a |}.

(** Productions in braces.  The comma between two productions may be missing if the expression [le] of
    the first one ends in front of the second one: [gap le e l']. *)
Inductive productions_syntax (gap : list ttree -> A -> list ttree -> Prop) : list ttree -> list (ast_production A) -> Prop :=
| prss_nil : productions_syntax gap [] []
| prss_last : forall l p, production_syntax is_expr l p -> productions_syntax gap l [p]
| prss_cons : forall l p c l' ps, production_syntax is_expr l p -> comma c ->
    productions_syntax gap l' ps -> productions_syntax gap (l ++ c ++ l') (p :: ps)
| prss_gap : forall l p l' ps, production_syntax (fun le e => is_expr le e /\ gap le e l') l p ->
    productions_syntax gap l' ps -> productions_syntax gap (l ++ l') (p :: ps).

(** [pub Name: Type = { productions };], [Name: Type = production,] *)
Inductive rule_syntax (gap : list ttree -> A -> list ttree -> Prop) : list ttree -> ast_non_terminal A -> Prop :=
| rs_braces : forall (pub : bool) n j t ty k c ps m, is_ident n = true -> is_type t ty ->
    productions_syntax gap c ps ->
    rule_syntax gap ((if pub then [TIdent "pub"] else []) ++ TIdent n :: pt ":" j :: t ++ [pt "=" k; TGroup DBrace c; pt ";" m])
      {| an_pub := pub; an_name := n; an_type := ty; an_productions := ps |}
| rs_single : forall (pub : bool) n j t ty k l p c, is_ident n = true -> is_type t ty -> production_syntax is_expr l p -> comma c ->
    rule_syntax gap ((if pub then [TIdent "pub"] else []) ++ TIdent n :: pt ":" j :: t ++ pt "=" k :: l ++ c)
      {| an_pub := pub; an_name := n; an_type := ty; an_productions := [p] |}.

Inductive item_syntax (gap : list ttree -> A -> list ttree -> Prop) : list ttree -> grammar_item A -> Prop :=
| is_state : forall j t ty k, is_type t ty ->
    item_syntax gap (TIdent "type" :: TIdent "State" :: pt "=" j :: t ++ [pt ";" k]) (GITypeDefState ty)
| is_enum : forall l te, enum_syntax l te -> item_syntax gap l (GITokenEnum te)
| is_rule : forall l n, rule_syntax gap l n -> item_syntax gap l (GINonTerminal n).

(** The input of [parser! { .. }] *)
Inductive items_syntax (gap : list ttree -> A -> list ttree -> Prop) : list ttree -> list (grammar_item A) -> Prop :=
| iss_nil : items_syntax gap [] []
| iss_cons : forall l i l' is, item_syntax gap l i -> items_syntax gap l' is -> items_syntax gap (l ++ l') (i :: is).

(** *** ASTs that can be written down: names are identifiers, and types, expressions and paths are the
    value of some tokens *)
Inductive pat_writable : pattern -> Prop :=
| pw_dots : pat_writable PatDotDot
| pw_lit : forall text, pat_writable (PatLit text)
| pw_underscore : pat_writable PatUnderscore
| pw_tuple : forall ps, Forall pat_writable ps -> pat_writable (PatTuple ps)
| pw_path : forall l p, path_start l -> is_path l p -> pat_writable (PatPath p)
| pw_enum : forall l p ps, path_start l -> is_path l p -> Forall pat_writable ps -> pat_writable (PatEnum p ps)
| pw_struct : forall l p fs dots, path_start l -> is_path l p ->
    Forall (fun fp => is_ident (fst fp) = true /\ pat_writable (snd fp)) fs -> pat_writable (PatStruct p fs dots)
| pw_choose : forall l t, is_type l t -> pat_writable (PatChoose t).
Fixpoint sym_writable (s : ast_symbol) : Prop :=
  match s with
  | ASTerminal _ => True
  | ASNonTerminal n => is_ident n = true
  | ASNamed x s' => is_ident (nm_name x) = true /\ sym_writable s'
  | ASRepeat _ s' => sym_writable s'
  end.
(** An expression after [=>] must not begin with [?]. *)
Definition action_writable (a : ast_action A) : Prop :=
  match a with
  | Infallible e => exists l, is_expr l e /\ forall j l', l <> pt "?" j :: l'
  | Fallible e => exists l, is_expr l e
  end.
Definition production_writable (p : ast_production A) : Prop :=
  Forall sym_writable (ap_symbols p) /\ action_writable (ap_action p).
Definition item_writable (i : grammar_item A) : Prop :=
  match i with
  | GITypeDefState t => exists l, is_type l t
  | GITokenEnum te => is_ident (te_type_name te) = true /\ Forall (fun c => pat_writable (cv_to c)) (te_conversions te)
  | GINonTerminal n => is_ident (an_name n) = true /\ (exists l, is_type l (an_type n)) /\
      Forall production_writable (an_productions n)
  end.

(** *** Inputs that make the macro panic while parsing

    A pattern begins with [..], a literal, [_], [(], an identifier or [<]. *)
Inductive pat_first : list ttree -> Prop :=
| pf_dots : forall l r, dot_dot l -> pat_first (l ++ r)
| pf_lit : forall l sv text r, literal l sv text -> pat_first (l ++ r)
| pf_underscore : forall r, pat_first (TIdent "_" :: r)
| pf_paren : forall c r, pat_first (TGroup DParen c :: r)
| pf_ident : forall s r, is_ident s = true -> pat_first (TIdent s :: r)
| pf_lt : forall j r, pat_first (pt "<" j :: r).

(** [pgap l p r]: the path pattern [l] ends in front of [r] (matters only when a field has no comma behind
    it). *)
Inductive pat_panics (pgap : list ttree -> string -> list ttree -> Prop) : list ttree -> Prop :=
| pp_start : forall ts, ~ pat_first ts -> pat_panics pgap ts
| pp_tuple : forall c r, pats_panic pgap c -> pat_panics pgap (TGroup DParen c :: r)
| pp_enum : forall l p c r, path_start l -> is_path l p -> pats_panic pgap c -> pat_panics pgap (l ++ TGroup DParen c :: r)
| pp_struct : forall l p c r, path_start l -> is_path l p -> fields_panic pgap c -> pat_panics pgap (l ++ TGroup DBrace c :: r)
(** in a list of patterns: after some complete ones *)
with pats_panic (pgap : list ttree -> string -> list ttree -> Prop) : list ttree -> Prop :=
| lp_here : forall ts, ts <> [] -> pat_panics pgap ts -> pats_panic pgap ts
| lp_later : forall l p c r, pat_syntax l p -> comma c -> pats_panic pgap r -> pats_panic pgap (l ++ c ++ r)
(** in the fields of a struct pattern: something after [..]; inside a field; a field followed by neither
    a comma, [..] nor the closing brace *)
with fields_panic (pgap : list ttree -> string -> list ttree -> Prop) : list ttree -> Prop :=
| fp_after_dots : forall d r, dot_dot d -> r <> [] -> fields_panic pgap (d ++ r)
| fp_in : forall f j r, is_ident f = true -> pat_panics pgap r -> fields_panic pgap (TIdent f :: pt ":" j :: r)
| fp_comma : forall f j l p r, is_ident f = true -> pat_syntax l p -> r <> [] -> (forall q, p = PatPath q -> pgap l q r) ->
    (forall c r', r = c ++ r' -> ~ comma c /\ ~ dot_dot c) -> fields_panic pgap (TIdent f :: pt ":" j :: l ++ r)
| fp_later : forall f j l p c r, is_ident f = true -> pat_syntax l p -> comma c -> fields_panic pgap r ->
    fields_panic pgap (TIdent f :: pt ":" j :: l ++ c ++ r)
| fp_dots_later : forall f j l p d r, is_ident f = true -> pat_syntax l p -> dot_dot d -> r <> [] ->
    fields_panic pgap (TIdent f :: pt ":" j :: l ++ d ++ r).

(** in the braces of [enum Token { .. }] *)
Inductive conversions_panic (pgap : list ttree -> string -> list ttree -> Prop) : list ttree -> Prop :=
| cp_here : forall s text arrow r, fat_arrow arrow -> pat_panics pgap r -> conversions_panic pgap (TLit (Some s) text :: arrow ++ r)
| cp_later : forall l cv c r, conversion_syntax l cv -> comma c -> conversions_panic pgap r -> conversions_panic pgap (l ++ c ++ r).

(** after some complete items: [type X] with another name than [State], or in a token enum *)
Inductive syntax_panics (gap : list ttree -> A -> list ttree -> Prop) (pgap : list ttree -> string -> list ttree -> Prop) : list ttree -> Prop :=
| sp_type_name : forall x r, is_ident x = true -> x <> "State" -> syntax_panics gap pgap (TIdent "type" :: TIdent x :: r)
| sp_enum_plain : forall n c r, is_ident n = true -> conversions_panic pgap c ->
    syntax_panics gap pgap (TIdent "enum" :: TIdent n :: TGroup DBrace c :: r)
| sp_enum_lifetimes : forall n j l ls k c r, is_ident n = true -> lifetimes_syntax l ls -> conversions_panic pgap c ->
    syntax_panics gap pgap (TIdent "enum" :: TIdent n :: pt "<" j :: l ++ pt ">" k :: TGroup DBrace c :: r)
| sp_later : forall l i r, item_syntax gap l i -> syntax_panics gap pgap r -> syntax_panics gap pgap (l ++ r).
End DslSpec.

(** *** What is assumed of syn's parsers for types, expressions and paths *)

(** [parses p l x]: [l] as a whole is an [x] ([syn::parse2::<X>(l)] succeeds). *)
Definition parses {X} (p : list ttree -> option (X * list ttree)) (l : list ttree) (x : X) : Prop := p l = Some (x, []).

(** A parser consumes a non-empty prefix, and would read that prefix alone in the same way. *)
Definition prefix_parser {X} (p : list ttree -> option (X * list ttree)) : Prop :=
  forall ts x r, p ts = Some (x, r) -> exists l, ts = l ++ r /\ l <> [] /\ parses p l x.
(** What it reads as a whole it reads in front of [r] as well. *)
Definition stops {X} (p : list ttree -> option (X * list ttree)) (r : list ttree) : Prop :=
  forall l x, parses p l x -> p (l ++ r) = Some (x, r).
(** Types end before [=], [;] and [>]; paths before [,], [.], [(..)], [{..}] and the end; expressions
    before [,] and the end. *)
Definition type_follow (r : list ttree) : Prop := exists c j r', r = TPunct c j :: r' /\ In c ["="; ";"; ">"]%char.
Definition path_follow (r : list ttree) : Prop :=
  r = [] \/ (exists c j r', r = TPunct c j :: r' /\ In c [","; "."]%char) \/ (exists d c r', r = TGroup d c :: r' /\ d <> DBracket).
Definition expr_follow (r : list ttree) : Prop := r = [] \/ exists j r', r = TPunct "," j :: r'.
Record syn_parsers {A} (pty : list ttree -> option (ty * list ttree)) (pex : list ttree -> option (A * list ttree))
  (ppa : list ttree -> option (string * list ttree)) : Prop := {
  sp_type : prefix_parser pty;
  sp_expr : prefix_parser pex;
  sp_path : prefix_parser ppa;
  sp_type_stops : forall r, type_follow r -> stops pty r;
  sp_expr_stops : forall r, expr_follow r -> stops pex r;
  sp_path_stops : forall r, path_follow r -> stops ppa r
}.

(** When a comma is missing: syn's expression parser ends by itself in front of [r]; its path parser does,
    and no [(..)] or [{..}] follows. *)
Definition expr_before {A} (pex : list ttree -> option (A * list ttree)) (l : list ttree) (e : A) (r : list ttree) : Prop :=
  pex (l ++ r) = Some (e, r).
Definition path_before (ppa : list ttree -> option (string * list ttree)) (l : list ttree) (p : string) (r : list ttree) : Prop :=
  ppa (l ++ r) = Some (p, r) /\ forall d c r', r = TGroup d c :: r' -> d = DBracket.
