(** * Program: the whole macro, from the tokens of the call to the items it expands to

    src/lib.rs:22-60 [parser] is modelled by Dsl.v (src/ast.rs) and Macro.v (src/lib.rs, up to the numbers and tables that go into
    the templates); here their results go into the templates (Emit.v, EmitTypes.v). *)
From Verif Require Export Dsl Macro EmitTypes.

Section Program.
Context {A : Type}.
Variable pty : list ttree -> option (ty * list ttree).
Variable pex : list ttree -> option (A * list ttree).
Variable ppa : list ttree -> option (string * list ttree).

(** src/lib.rs:26-59, src/lr_codegen.rs:13-232: the items of the module and their types *)
Definition emit_items (ho : hash_order) (fuel : nat) (items : list (grammar_item A)) : res (list (item A) * sigs) :=
  let* acc := foldM collect_item items {| ia_nts := []; ia_token := None; ia_state := None |} in
  match ia_token acc with
  | None => Panic PNoToken
  | Some te =>
      let* g := lower (ia_nts acc) (te_conversions te) in
      let* gp := generate_lr1_parser ho fuel g te in
      Ok (emit te g gp, emit_sigs te g gp)
  end.

(** What the macro call becomes. src/lib.rs:22-60. *)
Inductive expanded : Type :=
| EModule (M : list (item A)) (sg : sigs)  (* the items *)
| ECompileError                            (* src/lib.rs:24 [parse_macro_input!]: compile_error! *)
| ESyntaxPanic                             (* a panic in src/ast.rs *)
| EPanic (p : panic)                       (* a panic later *)
| EFuel.
(** src/lib.rs:22-60 *)
Definition expand_tokens (ho : hash_order) (fuel : nat) (ts : list ttree) : expanded :=
  match p_parser pty pex ppa ts with
  | DOk items _ =>
      match emit_items ho fuel items with
      | Ok (M, sg) => EModule M sg
      | Panic p => EPanic p
      | OutOfFuel => EFuel
      end
  | DErr => ECompileError
  | DPanic => ESyntaxPanic
  | DFuel => EFuel
  end.
End Program.
Arguments EModule {A} M sg. Arguments ECompileError {A}. Arguments ESyntaxPanic {A}. Arguments EPanic {A} p. Arguments EFuel {A}.
