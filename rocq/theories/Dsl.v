(** * Dsl: model of the grammar-DSL parser, src/ast.rs:163-455, and of the whole macro on tokens.

    Input: Rust token trees, as [proc_macro] hands them to the macro.  Simplifications: lifetimes are one
    token (in proc_macro: the punctuation ['] and an identifier); invisible ([None]-delimited) groups do
    not occur; spans are dropped.

    [syn]'s own parsers for types, expressions and paths ([syn::Type], [syn::Expr], [syn::ExprPath]) are
    parameters: functions from a token list to a value and the tokens left over, [None] for [Err].  The
    small [syn] parsers (identifiers, literals, punctuation, delimiters, [Punctuated]) are modelled after
    syn 1.0, the version Cargo.toml asks for. *)
From Coq Require Export Ascii.
From Verif Require Export Macro.
Local Open Scope string_scope.

(** Delimiters of token groups (used at src/ast.rs:187, 200, 210, 282, 340) *)
Inductive delim : Type := DParen | DBrace | DBracket.

(** [TLit sv text]: a literal with source [text]; [sv] is the value of a string literal.
    [TPunct c joint]: one punctuation character; [joint]: directly followed by another one.
    The input of src/lib.rs:23. *)
Inductive ttree : Type :=
| TIdent (s : string)
| TPunct (c : ascii) (joint : bool)
| TLit (sv : option string) (text : string)
| TLifetime (s : string)
| TGroup (d : delim) (contents : list ttree).

(** Result of a [Parse::parse]: a value and the rest of the input, [Err], or a panic.  [DFuel] is the
    model's artefact for the [while] loops and recursion (see [parser_total] in DslPanics.v). src/ast.rs:163-455. *)
Inductive dres (X : Type) : Type := DOk (x : X) (rest : list ttree) | DErr | DPanic | DFuel.
Arguments DOk {X} x rest. Arguments DErr {X}. Arguments DPanic {X}. Arguments DFuel {X}.
(** [?] in src/ast.rs:163-455 *)
Definition dbind {X Y} (r : dres X) (f : X -> list ttree -> dres Y) : dres Y :=
  match r with DOk x rest => f x rest | DErr => DErr | DPanic => DPanic | DFuel => DFuel end.
Declare Scope dsl_scope.
Notation "'do' x ',' r '<-' e ';' k" := (dbind e (fun x r => k))
  (at level 200, x name, r name, e at level 100, k at level 200) : dsl_scope.
Open Scope dsl_scope.

(** ** The small syn parsers *)

(** syn 1.0 src/ident.rs [accept_as_ident] *)
Definition rust_keywords : list string :=
  ["_"; "abstract"; "as"; "async"; "await"; "become"; "box"; "break"; "const"; "continue"; "crate"; "do";
   "dyn"; "else"; "enum"; "extern"; "false"; "final"; "fn"; "for"; "if"; "impl"; "in"; "let"; "loop";
   "macro"; "match"; "mod"; "move"; "mut"; "override"; "priv"; "pub"; "ref"; "return"; "Self"; "self";
   "static"; "struct"; "super"; "trait"; "true"; "try"; "type"; "typeof"; "unsafe"; "unsized"; "use";
   "virtual"; "where"; "while"; "yield"].
(** As above; for [syn::Ident] at src/ast.rs:165, 195, 264, 310, 333, 405, 412 *)
Definition is_ident (s : string) : bool := negb (existsb (String.eqb s) rust_keywords).

(** [input.parse::<syn::Ident>()]. src/ast.rs:165, 264, 310, 333, 405, 412. *)
Definition p_ident (ts : list ttree) : dres string :=
  match ts with TIdent s :: r => if is_ident s then DOk s r else DErr | _ => DErr end.
(** src/ast.rs:195 *)
Definition peek_ident (ts : list ttree) : bool :=
  match ts with TIdent s :: _ => is_ident s | _ => false end.

(** A keyword or [_]. src/ast.rs:183, 263, 299, 322, 411. *)
Definition p_kw (k : string) (ts : list ttree) : dres unit :=
  match ts with TIdent s :: r => if String.eqb s k then DOk tt r else DErr | _ => DErr end.
(** src/ast.rs:182, 321 *)
Definition peek_kw (k : string) (ts : list ttree) : bool :=
  match ts with TIdent s :: _ => String.eqb s k | _ => false end.

(** One-character punctuation; the spacing of the last character is not looked at.
    src/ast.rs:166, 236, 238, 251, 268-274, 301, 303, 334, 336, 343-348, 375-385, 410-415. *)
Definition p_punct (c : ascii) (ts : list ttree) : dres unit :=
  match ts with TPunct c' _ :: r => if Ascii.eqb c' c then DOk tt r else DErr | _ => DErr end.
(** src/ast.rs:223, 235, 267, 270 *)
Definition peek_punct (c : ascii) (ts : list ttree) : bool :=
  match ts with TPunct c' _ :: _ => Ascii.eqb c' c | _ => false end.
(** Two-character punctuation ([=>], [..]). src/ast.rs:178, 216, 251. *)
Definition p_punct2 (c d : ascii) (ts : list ttree) : dres unit :=
  match ts with
  | TPunct c' true :: TPunct d' _ :: r => if Ascii.eqb c' c && Ascii.eqb d' d then DOk tt r else DErr
  | _ => DErr
  end.
(** src/ast.rs:177, 215, 227, 362 *)
Definition peek_punct2 (c d : ascii) (ts : list ttree) : bool :=
  match ts with TPunct c' true :: TPunct d' _ :: _ => Ascii.eqb c' c && Ascii.eqb d' d | _ => false end.

(** [syn::parenthesized!], [syn::braced!]. src/ast.rs:185, 198, 208, 338. *)
Definition peek_group (d : delim) (ts : list ttree) : bool :=
  match ts with
  | TGroup d' _ :: _ => match d, d' with DParen, DParen | DBrace, DBrace | DBracket, DBracket => true | _, _ => false end
  | _ => false
  end.
(** src/ast.rs:187, 200, 210, 282, 340 *)
Definition p_group (d : delim) (ts : list ttree) : dres (list ttree) :=
  match ts with TGroup _ c :: r => if peek_group d ts then DOk c r else DErr | _ => DErr end.

(** [syn::Lit]: a literal token, [true], [false], or [-] and a numeric literal.  The string value, if it
    is a string literal, and the source text. src/ast.rs:180-181, 250, 401. *)
Definition starts_digit (s : string) : bool :=
  match s with
  | String c _ => Nat.leb (nat_of_ascii "0") (nat_of_ascii c) && Nat.leb (nat_of_ascii c) (nat_of_ascii "9")
  | EmptyString => false
  end.
(** src/ast.rs:181 *)
Definition p_lit (ts : list ttree) : dres (option string * string) :=
  match ts with
  | TLit sv text :: r => DOk (sv, text) r
  | TIdent s :: r => if String.eqb s "true" || String.eqb s "false" then DOk (None, s) r else DErr
  | TPunct c _ :: TLit sv text :: r =>
      if Ascii.eqb c "-" && starts_digit text then DOk (None, String "-" text) r else DErr
  | _ => DErr
  end.
(** src/ast.rs:180 *)
Definition peek_lit (ts : list ttree) : bool := match p_lit ts with DOk _ _ => true | _ => false end.

(** [input.parse::<syn::LitStr>()]: syn parses a [Lit] and then checks that it is a string, so that on
    another literal it returns [Err] *with the literal consumed*.  Result and remaining input. src/ast.rs:250, 401. *)
Definition p_litstr (ts : list ttree) : option string * list ttree :=
  match p_lit ts with
  | DOk (Some s, _) r => (Some s, r)
  | DOk (None, _) r => (None, r)
  | _ => (None, ts)
  end.

(** [input.parse::<syn::Lifetime>()]. src/ast.rs:271. *)
Definition p_lifetime (ts : list ttree) : dres string :=
  match ts with TLifetime s :: r => DOk s r | _ => DErr end.

(** [syn::punctuated::Punctuated::parse_terminated] with separator [,] on the contents of a group.
    src/ast.rs:188-189, 201-202, 283-284. *)
Fixpoint p_terminated {X} (p : list ttree -> dres X) (fuel : nat) (ts : list ttree) : dres (list X) :=
  match fuel with
  | 0 => DFuel
  | S f =>
      match ts with
      | [] => DOk [] []
      | _ =>
          do x, r <- p ts;
          match r with
          | [] => DOk [x] []
          | _ => do u, r1 <- p_punct "," r; do xs, r2 <- p_terminated p f r1; DOk (x :: xs) r2
          end
      end
  end.

(** Size of token trees: bounds the fuel a parse needs.
    Not part of the code: the loops and recursion of src/ast.rs:163-455 are not bounded. *)
Fixpoint tt_size (t : ttree) : nat :=
  match t with TGroup _ c => S (list_sum (map tt_size c)) | _ => 1 end.
(** As above (src/ast.rs:163-455). *)
Definition toks_size (ts : list ttree) : nat := list_sum (map tt_size ts).

Section Dsl.
Context {A : Type}.
Variable p_type : list ttree -> option (ty * list ttree).
Variable p_expr : list ttree -> option (A * list ttree).
Variable p_path : list ttree -> option (string * list ttree).
(** [input.parse::<syn::Type>()] and the like (src/ast.rs:196, 237, 302, 335 and the action expressions) *)
Definition oracle {X} (p : list ttree -> option (X * list ttree)) (ts : list ttree) : dres X :=
  match p ts with Some (x, r) => DOk x r | None => DErr end.

(** src/ast.rs:163-173 [FieldPattern::parse], given [Pattern::parse] *)
Definition p_field (pat : list ttree -> dres pattern) (ts : list ttree) : dres (string * pattern) :=
  do f, r <- p_ident ts;
  do u, r1 <- p_punct ":" r;
  do p, r2 <- pat r1;
  DOk (f, p) r2.

(** src/ast.rs:212-230: the loop over the fields of a struct pattern; the [assert!]s at lines 219, 227 *)
Fixpoint p_fields (pat : list ttree -> dres pattern) (fuel : nat) (ts : list ttree)
  : dres (list (string * pattern) * bool) :=
  match fuel with
  | 0 => DFuel
  | S n =>
      match ts with
      | [] => DOk ([], false) []
      | _ =>
          if peek_punct2 "." "." ts then
            do u, r <- p_punct2 "." "." ts;
            match r with [] => DOk ([], true) [] | _ => DPanic end
          else
            do fp, r <- p_field pat ts;
            if peek_punct "," r then
              do u, r1 <- p_punct "," r;
              do fs, r2 <- p_fields pat n r1;
              DOk (fp :: fst fs, snd fs) r2
            else match r with
                 | [] => DOk ([fp], false) []
                 | _ => if peek_punct2 "." "." r
                        then do fs, r2 <- p_fields pat n r; DOk (fp :: fst fs, snd fs) r2
                        else DPanic
                 end
      end
  end.

(** src/ast.rs:175-245 [Pattern::parse] *)
Fixpoint p_pattern (fuel : nat) (ts : list ttree) : dres pattern :=
  match fuel with
  | 0 => DFuel
  | S n =>
      if peek_punct2 "." "." ts then do u, r <- p_punct2 "." "." ts; DOk PatDotDot r
      else if peek_lit ts then do l, r <- p_lit ts; DOk (PatLit (snd l)) r
      else if peek_kw "_" ts then do u, r <- p_kw "_" ts; DOk PatUnderscore r
      else if peek_group DParen ts then
        do c, r <- p_group DParen ts;
        do ps, e <- p_terminated (p_pattern n) (S (List.length c)) c;
        DOk (PatTuple ps) r
      else if peek_ident ts then
        do path, r <- oracle p_path ts;
        if peek_group DParen r then
          do c, r1 <- p_group DParen r;
          do ps, e <- p_terminated (p_pattern n) (S (List.length c)) c;
          DOk (PatEnum path ps) r1
        else if peek_group DBrace r then
          do c, r1 <- p_group DBrace r;
          do fs, e <- p_fields (p_pattern n) (S (List.length c)) c;
          DOk (PatStruct path (fst fs) (snd fs)) r1
        else DOk (PatPath path) r
      else if peek_punct "<" ts then
        do u, r <- p_punct "<" ts;
        do t, r1 <- oracle p_type r;
        do u2, r2 <- p_punct ">" r1;
        DOk (PatChoose t) r2
      else DPanic
  end.

(** src/ast.rs:247-259 [Conversion::parse] *)
Definition p_conversion (fuel : nat) (ts : list ttree) : dres conversion :=
  match p_litstr ts with
  | (Some s, r) =>
      do u, r1 <- p_punct2 "=" ">" r;
      do p, r2 <- p_pattern fuel r1;
      DOk {| cv_from := s; cv_to := p |} r2
  | (None, _) => DErr
  end.

(** src/ast.rs:270-273: the lifetimes; the result of parsing the comma is ignored *)
Fixpoint p_lifetimes (fuel : nat) (ts : list ttree) : dres (list string) :=
  match fuel with
  | 0 => DFuel
  | S n =>
      if peek_punct ">" ts then DOk [] ts
      else
        do l, r <- p_lifetime ts;
        let r1 := match p_punct "," r with DOk _ r' => r' | _ => r end in
        do ls, r2 <- p_lifetimes n r1;
        DOk (l :: ls) r2
  end.

(** src/ast.rs:261-295 [TokenEnum::parse] *)
Definition p_token_enum (fuel : nat) (ts : list ttree) : dres token_enum :=
  do u, r <- p_kw "enum" ts;
  do name, r1 <- p_ident r;
  do ls, r2 <- (if peek_punct "<" r1 then
                  do u1, a <- p_punct "<" r1;
                  do ls, b <- p_lifetimes (S (List.length a)) a;
                  do u2, c <- p_punct ">" b;
                  DOk ls c
                else DOk [] r1);
  do c, r3 <- p_group DBrace r2;
  do convs, e <- p_terminated (p_conversion fuel) (S (List.length c)) c;
  DOk {| te_type_name := name; te_lifetimes := ls; te_conversions := convs |} r3.

(** src/ast.rs:297-317 [TypeDef::parse], [TypeDefKind::parse] (panic at line 314) *)
Definition p_typedef (ts : list ttree) : dres (grammar_item A) :=
  do u, r <- p_kw "type" ts;
  do kind, r1 <- p_ident r;
  if String.eqb kind "State" then
    do u1, r2 <- p_punct "=" r1;
    do t, r3 <- oracle p_type r2;
    do u2, r4 <- p_punct ";" r3;
    DOk (GITypeDefState t) r4
  else DPanic.

(** src/ast.rs:374-393: the loop over [+ * ?] *)
Fixpoint p_repeats (s : ast_symbol) (ts : list ttree) : ast_symbol * list ttree :=
  match ts with
  | TPunct c _ :: r =>
      if Ascii.eqb c "+" then p_repeats (ASRepeat RPlus s) r
      else if Ascii.eqb c "*" then p_repeats (ASRepeat RStar s) r
      else if Ascii.eqb c "?" then p_repeats (ASRepeat RQuestion s) r
      else (s, ts)
  | _ => (s, ts)
  end.

(** src/ast.rs:370-421 [Symbol::parse], [symbol0] *)
Fixpoint p_symbol (fuel : nat) (ts : list ttree) : dres ast_symbol :=
  match fuel with
  | 0 => DFuel
  | S n =>
      do s0, r <-
        (let (str, ts1) := p_litstr ts in
         match str with
         | Some s => DOk (ASTerminal s) ts1
         | None =>
             match p_ident ts1 with
             | DOk s r => DOk (ASNonTerminal s) r
             | _ =>
                 do u, a <- p_punct "<" ts1;
                 let (mutable, b) := match p_kw "mut" a with DOk _ b => (true, b) | _ => (false, a) end in
                 do name, c <- p_ident b;
                 do u1, d <- p_punct ":" c;
                 do s, e <- p_symbol n d;
                 do u2, f <- p_punct ">" e;
                 DOk (ASNamed {| nm_mutable := mutable; nm_name := name |} s) f
             end
         end);
      let (s, r1) := p_repeats s0 r in DOk s r1
  end.

(** src/ast.rs:362-364: the symbols of a production *)
Fixpoint p_symbols (fuel : nat) (ts : list ttree) : dres (list ast_symbol) :=
  match fuel with
  | 0 => DFuel
  | S n =>
      if peek_punct2 "=" ">" ts then DOk [] ts
      else
        do s, r <- p_symbol (S (List.length ts)) ts;
        do ss, r1 <- p_symbols n r;
        DOk (s :: ss) r1
  end.

(** src/ast.rs:423-433 [Action::parse] *)
Definition p_action (ts : list ttree) : dres (ast_action A) :=
  do u, r <- p_punct2 "=" ">" ts;
  if peek_punct "?" r then
    do u1, r1 <- p_punct "?" r;
    do e, r2 <- oracle p_expr r1;
    DOk (Fallible e) r2
  else
    do e, r2 <- oracle p_expr r;
    DOk (Infallible e) r2.

(** src/ast.rs:359-368 [Production::parse] *)
Definition p_production (ts : list ttree) : dres (ast_production A) :=
  do ss, r <- p_symbols (S (List.length ts)) ts;
  do a, r1 <- p_action r;
  DOk {| ap_symbols := ss; ap_action := a |} r1.

(** src/ast.rs:341-344: productions in braces; the result of parsing the comma is ignored *)
Fixpoint p_productions (fuel : nat) (ts : list ttree) : dres (list (ast_production A)) :=
  match fuel with
  | 0 => DFuel
  | S n =>
      match ts with
      | [] => DOk [] []
      | _ =>
          do p, r <- p_production ts;
          let r1 := match p_punct "," r with DOk _ r' => r' | _ => r end in
          do ps, r2 <- p_productions n r1;
          DOk (p :: ps) r2
      end
  end.

(** src/ast.rs:319-357 [Visibility::parse], [NonTerminal::parse] *)
Definition p_non_terminal (ts : list ttree) : dres (ast_non_terminal A) :=
  let (pub, r) := match p_kw "pub" ts with DOk _ r => (true, r) | _ => (false, ts) end in
  do name, r1 <- p_ident r;
  do u, r2 <- p_punct ":" r1;
  do t, r3 <- oracle p_type r2;
  do u1, r4 <- p_punct "=" r3;
  do ps, r5 <- (if peek_group DBrace r4 then
                  do c, a <- p_group DBrace r4;
                  do ps, e <- p_productions (S (List.length c)) c;
                  do u2, b <- p_punct ";" a;
                  DOk ps b
                else
                  do p, a <- p_production r4;
                  do u2, b <- p_punct "," a;
                  DOk [p] b);
  DOk {| an_pub := pub; an_name := name; an_type := t; an_productions := ps |} r5.

(** src/ast.rs:435-445 [GrammarItem::parse] *)
Definition p_item (fuel : nat) (ts : list ttree) : dres (grammar_item A) :=
  if peek_kw "type" ts then p_typedef ts
  else if peek_kw "enum" ts then do te, r <- p_token_enum fuel ts; DOk (GITokenEnum te) r
  else do n, r <- p_non_terminal ts; DOk (GINonTerminal n) r.

(** src/ast.rs:447-455 [Parser::parse] *)
Fixpoint p_items (pfuel fuel : nat) (ts : list ttree) : dres (list (grammar_item A)) :=
  match fuel with
  | 0 => DFuel
  | S n =>
      match ts with
      | [] => DOk [] []
      | _ =>
          do i, r <- p_item pfuel ts;
          do is, r1 <- p_items pfuel n r;
          DOk (i :: is) r1
      end
  end.
(** [Parse for Parser] with enough fuel for its input (src/ast.rs, last [impl]; src/lib.rs:24) *)
Definition p_parser (ts : list ttree) : dres (list (grammar_item A)) :=
  p_items (S (toks_size ts)) (S (List.length ts)) ts.

(** ** src/lib.rs:22-60 [parser]: the macro on its input tokens *)
Inductive expansion : Type :=
| XModule (gp : generated (lexpr A))   (* the generated module *)
| XCompileError                        (* src/lib.rs:24 [parse_macro_input!]: expands to compile_error! *)
| XSyntaxPanic                         (* a panic in src/ast.rs *)
| XPanic (p : panic)                   (* a panic later *)
| XFuel.
(** src/lib.rs:22-60 *)
Definition parser_macro (ho : hash_order) (fuel : nat) (ts : list ttree) : expansion :=
  match p_parser ts with
  | DOk items _ =>
      match macro ho fuel items with
      | Ok gp => XModule gp
      | Panic p => XPanic p
      | OutOfFuel => XFuel
      end
  | DErr => XCompileError
  | DPanic => XSyntaxPanic
  | DFuel => XFuel
  end.
End Dsl.
Arguments XModule {A} gp. Arguments XCompileError {A}. Arguments XSyntaxPanic {A}. Arguments XPanic {A} p. Arguments XFuel {A}.
