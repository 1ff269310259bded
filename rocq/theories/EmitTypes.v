(** * EmitTypes: the types in the [quote!] templates

    The signatures, types of statics, generic parameters and derived traits that Emit.v leaves out.  Lifetimes are left out
    of types; the lifetime parameters of [SemanticActionResult] are in Emit.v. *)
From Verif Require Export Emit RustTypes.
Local Open Scope string_scope. Local Open Scope list_scope.

Section Sigs.
Context {A : Type}.
Variable te : token_enum.
Variable g : grammar (lexpr A).
Variable gp : generated (lexpr A).

(** src/codegen.rs:95, 122, 204, 347; src/lr_codegen.rs:176, 182 *)
Definition s_result : tx := XtName "SemanticActionResult" [].
(** src/lr_codegen.rs:106, 175; src/codegen.rs:166, 203 *)
Definition s_token : tx := XtName (te_type_name te) [].
(** [impl Iterator<Item=Result<#token_type<..>, E>>] (src/lr_codegen.rs:106, 175) *)
Definition s_input : tx := XtIter (XtName "Result" [s_token; XtName "E" []]).
(** [Result<.., ParseError<E>>] (src/lr_codegen.rs:107, 179) *)
Definition s_outcome (t : tx) : tx := XtName "Result" [t; XtName "ParseError" [XtName "E" []]].
(** [&mut Vec<SemanticActionResult<..>>] (src/codegen.rs:95, 122) *)
Definition s_value_stack : tx := XtMut (XtName "Vec" [s_result]).
(** [(#(#pattern_types),* )]: one type is just parenthesised (src/codegen.rs:294) *)
Definition s_tuple (tys : list ty) : tx := match tys with [t] => XtText t | _ => XtTup (map XtText tys) end.

(** src/codegen.rs:94-96 *)
Definition s_action : fn_sig := {| fs_generics := []; fs_params := [s_value_stack]; fs_ret := XtTup [] |}.
(** src/codegen.rs:165-167 *)
Definition s_token_terminal_idx : fn_sig := {| fs_generics := []; fs_params := [XtRef s_token]; fs_ret := XtName "usize" [] |}.
(** src/codegen.rs:202-204 *)
Definition s_token_value : fn_sig := {| fs_generics := []; fs_params := [s_token]; fs_ret := s_result |}.
(** src/lr_codegen.rs:174-179 *)
Definition s_parse_generic : fn_sig :=
  {| fs_generics := [("R", []); ("E", ["Clone"])];
     fs_params := [s_input; XtFn [s_result] (XtName "R" []); XtName "u32" []; XtName "usize" []];
     fs_ret := s_outcome (XtName "R" []) |}.
(** src/lr_codegen.rs:105-107 *)
Definition s_parse (pr : parser_struct) : fn_sig :=
  {| fs_generics := [("E", ["Clone"])]; fs_params := [s_input]; fs_ret := s_outcome (XtText (pr_return_ty pr)) |}.
(** src/codegen.rs:294, 325 *)
Definition s_method (tys : list ty) : fn_sig := {| fs_generics := []; fs_params := [s_result]; fs_ret := s_tuple tys |}.

(** Functions of the module. Same lines. *)
Definition fn_sigs : list (string * fn_sig) :=
  [(token_terminal_idx_name te, s_token_terminal_idx); ("token_value", s_token_value)] ++
  map (fun x => (x, s_action)) (fn_names g) ++ [("parse_generic", s_parse_generic)].
(** Methods of [SemanticActionResult] (src/codegen.rs:293-298, 324-329) *)
Definition result_sigs : list (string * fn_sig) :=
  map (fun '(i, c) => (token_method_name i, s_method (pattern_types (cv_to c)))) (enumerate (te_conversions te)) ++
  map (fun v => (non_terminal_method_name v, s_method (variant_type g v))) (seq 0 (n_variants g)).
(** Associated functions (src/lr_codegen.rs:104-116, src/codegen.rs:347-349) *)
Definition assoc_sigs (q : string) : list (string * fn_sig) :=
  (if String.eqb "SemanticActionResult" q then result_sigs else []) ++
  flat_map (fun pr => if String.eqb (pr_name pr) q then [("parse", s_parse pr)] else []) (gp_parsers gp).
(** Types of the elements of the arrays (src/lr_codegen.rs:346, 376; src/codegen.rs:122, 485, 507). *)
Definition static_types : list (string * tx) :=
  [("ACTION", XtName "Option" [XtName "LRAction" []]); ("GOTO", XtName "Option" [XtName "u32" []]);
   ("SEMANTIC_ACTIONS", XtFn [s_value_stack] (XtTup [])); ("EXPECTED_TERMINALS", XtStr); ("TERMINAL_STRS", XtStr)].
(** The declaration of that name, if it is the only one. For the references of src/lr_codegen.rs:109-227. *)
Definition the_one {X} (x : string) (l : list (string * X)) : option X := match declared_as x l with [d] => Some d | _ => None end.
(** Generics and derived traits: src/lr_codegen.rs:124, 143-144; src/codegen.rs:342. *)
Definition emit_sigs : sigs :=
  {| sg_generics := fun en => if String.eqb en "ParseError" then ["E"] else [];
     sg_derives := fun en => if String.eqb en "LRAction" then ["Clone"; "Copy"]
                             else if String.eqb en "ParseError" then ["Debug"; "Clone"; "PartialEq"; "Eq"]
                             else if String.eqb en "SemanticActionResult" then ["Debug"] else [];
     sg_static := fun x => the_one x static_types;
     sg_fn := fun x => the_one x fn_sigs;
     sg_assoc := fun q x => the_one x (assoc_sigs q) |}.
End Sigs.
