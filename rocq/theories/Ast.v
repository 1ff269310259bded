(** * Ast: the grammar AST, src/ast.rs:8-161 (types only; see Dsl.v for its parser).

    [A] is the type of semantic action expressions ([syn::Expr]), opaque to the macro. *)
From Verif Require Export Grammar.

(** src/ast.rs:58-84 [Pattern], 86-91 [FieldPattern]; paths and literals are represented by their source text *)
Inductive pattern : Type :=
| PatEnum (path : string) (pats : list pattern)
| PatStruct (path : string) (fields : list (string * pattern)) (dots : bool)
| PatTuple (pats : list pattern)
| PatPath (path : string)
| PatUnderscore
| PatDotDot
| PatLit (lit : string)
| PatChoose (t : ty).

(** src/ast.rs:39-44 [Conversion] (span omitted) *)
Record conversion : Type := { cv_from : string; cv_to : pattern }.

(** src/ast.rs:147-152 [RepeatOp] *)
Inductive repeat_op : Type := RPlus | RStar | RQuestion.

(** src/ast.rs:120-133, 141-145 [Symbol], [Repeat] *)
Inductive ast_symbol : Type :=
| ASTerminal (s : string)
| ASNonTerminal (s : string)
| ASRepeat (op : repeat_op) (s : ast_symbol)
| ASNamed (n : name) (s : ast_symbol).

(** src/ast.rs:154-161 [Action] *)
Inductive ast_action (A : Type) : Type := Infallible (a : A) | Fallible (a : A).
Arguments Infallible {A} a. Arguments Fallible {A} a.

(** src/ast.rs:114-118 [Production] *)
Record ast_production (A : Type) : Type := { ap_symbols : list ast_symbol; ap_action : ast_action A }.
Arguments ap_symbols {A}. Arguments ap_action {A}.

(** src/ast.rs:105-112 [NonTerminal]; visibility (src/ast.rs:93-103) as the result of [is_pub] *)
Record ast_non_terminal (A : Type) : Type := {
  an_pub : bool;
  an_name : string;
  an_type : ty;
  an_productions : list (ast_production A)
}.
Arguments an_pub {A}. Arguments an_name {A}. Arguments an_type {A}. Arguments an_productions {A}.

(** src/ast.rs:24-37 [TokenEnum] *)
Record token_enum : Type := {
  te_type_name : string;
  te_lifetimes : list string;
  te_conversions : list conversion
}.

(** src/ast.rs:12-22, 46-56 [GrammarItem], [TypeDef] with [TypeDefKind::State] the only kind *)
Inductive grammar_item (A : Type) : Type :=
| GITypeDefState (t : ty)
| GITokenEnum (te : token_enum)
| GINonTerminal (n : ast_non_terminal A).
Arguments GITypeDefState {A} t. Arguments GITokenEnum {A} te. Arguments GINonTerminal {A} n.
