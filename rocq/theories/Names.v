(** * Names: the identifiers of the generated module

    The other model files number the generated functions, enum variants and extraction methods; the code refers to
    them by identifiers made from those numbers.  This file models the identifiers: what each generated item is
    called, and how a reference is resolved. *)
From Coq Require Import Ascii.
From Verif Require Export Macro.
Local Open Scope string_scope.

(** [str::to_lowercase] (src/codegen.rs:150), on ASCII letters.  Simplification: other characters are left alone. *)
Definition lower_char (c : ascii) : ascii :=
  let n := nat_of_ascii c in if Nat.leb 65 n && Nat.leb n 90 then ascii_of_nat (n + 32) else c.
(** src/codegen.rs:150 *)
Fixpoint to_lowercase (s : string) : string :=
  match s with EmptyString => EmptyString | String c s' => String (lower_char c) (to_lowercase s') end.

(** src/codegen.rs:149-152 *)
Definition token_terminal_idx_name (te : token_enum) : string := to_lowercase (te_type_name te) ++ "_terminal_idx".
(** src/codegen.rs:82-85 *)
Definition action_fn_name (nt p : nat) : string := "nt" ++ decimal nt ++ "p" ++ decimal p ++ "_action".
(** src/codegen.rs:191, 282 *)
Definition token_variant_name (i : nat) : string := "Token" ++ decimal i.
(** src/codegen.rs:70-73, 286 *)
Definition token_method_name (i : nat) : string := "token_" ++ decimal i.
(** src/codegen.rs:88-91, 318 *)
Definition non_terminal_variant_name (i : nat) : string := "NonTerminal" ++ decimal i.
(** src/codegen.rs:66-69, 323; src/lr_codegen.rs:93-99 *)
Definition non_terminal_method_name (i : nat) : string := "non_terminal_" ++ decimal i.

Section Module.
Context {A : Type}.
Variable te : token_enum.
Variable g : grammar A.
Variable gp : generated A.

(** src/codegen.rs:32, 34-49, 82-85, 102, 121-126: the names of the action functions, in the order of the declarations
    and of the array SEMANTIC_ACTIONS *)
Definition fn_names : list string :=
  flat_map (fun '(i, N) => map (fun '(j, _) => action_fn_name i j) (enumerate (nt_productions N))) (enumerate (g_nts g)).

(** src/codegen.rs:307, 336: the counter [i] after the loop *)
Definition n_variants : nat := snd (fold_left variant_step (g_nts g) ([], [], 0)).

(** src/codegen.rs:309-321: the return type of the first non-terminal with variant [v] *)
Definition variant_type (v : nat) : list ty :=
  match find (fun '(i, _) => match variant_of (variant_names g) i with Some w => Nat.eqb w v | None => false end) (enumerate (g_nts g)) with
  | Some (_, N) => [nt_return_ty N]
  | None => []
  end.

(** src/codegen.rs:281-284, 309-321, 341-345: [enum SemanticActionResult], variants and the types of their fields *)
Definition result_enum : list (string * list ty) :=
  map (fun '(i, c) => (token_variant_name i, pattern_types (cv_to c))) (enumerate (te_conversions te)) ++
  map (fun v => (non_terminal_variant_name v, variant_type v)) (seq 0 n_variants).

(** src/codegen.rs:286-300, 323-331, 347-349: its methods, and what each extracts *)
Definition result_methods : list (string * extract_method) :=
  map (fun i => (token_method_name i, ExToken i)) (seq 0 (List.length (te_conversions te))) ++
  map (fun v => (non_terminal_method_name v, ExNonTerminal v)) (seq 0 n_variants).
(** the identifier by which generated code calls the method (src/codegen.rs:65-74, src/lr_codegen.rs:93-99) *)
Definition method_name (m : extract_method) : string :=
  match m with ExToken i => token_method_name i | ExNonTerminal v => non_terminal_method_name v end.

(** src/lr_codegen.rs:101-117, 124-231, 346-350, 376-380; src/codegen.rs:93-100, 122-126, 164-173, 201-210, 341-350,
    484-488, 506-510: the items of the module, by namespace.  A unit struct is a type and a value. *)
Definition type_items : list string :=
  ["LRAction"; "ParseError"; "SemanticActionResult"] ++ map pr_name (gp_parsers gp).
(** Same lines as [type_items]; src/lr_codegen.rs:124-231 *)
Definition value_items : list string :=
  ["ACTION"; "GOTO"; token_terminal_idx_name te; "token_value"] ++ fn_names ++
  ["SEMANTIC_ACTIONS"; "EXPECTED_TERMINALS"; "TERMINAL_STRS"; "parse_generic"] ++ map pr_name (gp_parsers gp).

(** The action functions under their names (src/codegen.rs:93-102). *)
Definition fn_decls : list (string * sem_fn A) := combine fn_names (gp_sem_actions gp).

(** What the code of the module takes from its surroundings (same lines): names of the prelude and of primitive types,
    the token type, and values of the prelude.  [vec!], [panic!] and [unreachable!] are macros, which items do not hide;
    [::std::mem::replace] is an absolute path. src/lr_codegen.rs:124-231, src/codegen.rs:93-100, 164-173, 201-210. *)
Definition outer_types : list string :=
  ["Option"; "Result"; "Vec"; "Iterator"; "Clone"; "u16"; "u32"; "usize"; "str"; te_type_name te].
(** src/lr_codegen.rs:189-227 *)
Definition outer_values : list string := ["Some"; "None"; "Ok"; "Err"].
(** The generic parameters in scope where the token type is mentioned (src/lr_codegen.rs:105-106, 174-176). *)
Definition type_parameters : list string := ["R"; "E"].
End Module.

(** Resolving an identifier among declarations: the ones with that name.
    For the references at src/codegen.rs:65-76, 88-98, 124 and src/lr_codegen.rs:85-111, 191, 205. *)
Definition declared_as {X} (name : string) (decls : list (string * X)) : list X :=
  map snd (filter (fun d => String.eqb name (fst d)) decls).

(** The body of an action function mentions its parameter [value_stack] once in every [pop] and in the final [push]
    (src/codegen.rs:58, 76, 98).  An occurrence means the parameter unless an earlier [let] of the body has rebound the
    name.  [occurrences shadowed pops]: for each occurrence, whether it means the parameter. *)
Fixpoint occurrences (shadowed : bool) (pops : list pop_stmt) : list bool :=
  match pops with
  | [] => [negb shadowed]
  | PopIgnore :: pops' => negb shadowed :: occurrences shadowed pops'
  | PopBind _ x _ :: pops' => negb shadowed :: occurrences (shadowed || String.eqb x "value_stack") pops'
  end.
