(** * Macro: model of src/lib.rs *)
From Verif Require Export Lower Codegen Pattern Runtime.

Section Macro.
Context {A : Type}.

(** src/lib.rs:26-28: the accumulators of the item loop *)
Record items_acc : Type := {
  ia_nts : list (ast_non_terminal A);
  ia_token : option token_enum;
  ia_state : option ty
}.

(** src/lib.rs:30-51: one item *)
Definition collect_item (acc : items_acc) (gi : grammar_item A) : res items_acc :=
  match gi with
  | GITypeDefState t =>
      match ia_state acc with
      | Some _ => Panic PDupState
      | None => Ok {| ia_nts := ia_nts acc; ia_token := ia_token acc; ia_state := Some t |}
      end
  | GITokenEnum te =>
      match ia_token acc with
      | Some _ => Panic PDupToken
      | None => Ok {| ia_nts := ia_nts acc; ia_token := Some te; ia_state := ia_state acc |}
      end
  | GINonTerminal n =>
      Ok {| ia_nts := ia_nts acc ++ [n]; ia_token := ia_token acc; ia_state := ia_state acc |}
  end.

(** src/lib.rs:22-60 [parser], after syn has produced the items *)
Definition macro (ho : hash_order) (fuel : nat) (items : list (grammar_item A))
  : res (generated (lexpr A)) :=
  let* acc := foldM collect_item items {| ia_nts := []; ia_token := None; ia_state := None |} in
  match ia_token acc with
  | None => Panic PNoToken
  | Some te =>
      let* g := lower (ia_nts acc) (te_conversions te) in
      generate_lr1_parser ho fuel g te
  end.

End Macro.

(** ** Running the generated module *)

(** Values of variable expressions; the innermost binding is first. For the [#action] of src/codegen.rs:98. *)
Fixpoint bget {V} (x : string) (b : list (string * bval V)) : option (bval V) :=
  match b with [] => None | (y, v) :: b' => if String.eqb x y then Some v else bget x b' end.

(** Semantics of lowered action expressions: the user's expressions (given by [usem]), and the variable
    expression [x] of entry productions (src/lower.rs:58-68). *)
Definition lsem {A V W} (usem : A -> list (string * bval V) -> W -> option (V * W))
  (a : lexpr A) (b : list (string * bval V)) (w : W) : option (V * W) :=
  match a with
  | EUser e => usem e b w
  | EVar x => match bget x b with Some (BVal v) => Some (v, w) | _ => None end
  end.

(** The module generated for [gp] compiled together with the user's code: [usem] evaluates action
    expressions, [inj] injects token sub-values into user values, [next] is the token iterator.  The two
    token functions are the generated ones (src/codegen.rs:142-213). *)
Definition user_env {A E V W I} (gp : generated (lexpr A)) (inj : rval -> V)
  (usem : A -> list (string * bval V) -> W -> option (V * W)) (next : I -> option (rval + E) * I)
  : env_t (lexpr A) rval E V W I :=
  {| e_sem := lsem usem;
     e_tok_idx := token_terminal_idx (gp_conversions gp);
     e_tok_val := fun tok => option_map (fun '(i, fs) => (i, map inj fs)) (token_value (gp_conversions gp) tok);
     e_next := next |}.
