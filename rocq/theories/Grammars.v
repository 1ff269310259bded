(** * Grammars: the grammars of tests/tests.rs, as running examples

    Token values and user values are [rval]s ([RVOther n] is the integer [n]); action expressions are
    their Rust text, interpreted by [sem].  The world is the list of action texts run so far, latest
    first. *)
From Verif Require Export Decide.
Local Open Scope string_scope.

Definition unit_tok (entry path : string) : conversion := {| cv_from := entry; cv_to := PatPath path |}.
Definition val_tok (entry path : string) (t : ty) : conversion := {| cv_from := entry; cv_to := PatEnum path [PatChoose t] |}.
Definition tokens (l : list conversion) : grammar_item string :=
  GITokenEnum {| te_type_name := "Token"; te_lifetimes := []; te_conversions := l |}.
Definition rule (pub : bool) (n t : string) (ps : list (list ast_symbol * string)) : grammar_item string :=
  GINonTerminal {| an_pub := pub; an_name := n; an_type := t;
    an_productions := map (fun '(l, a) => {| ap_symbols := l; ap_action := Infallible a |}) ps |}.
Definition bind_as (x : string) (s : ast_symbol) : ast_symbol := ASNamed {| nm_mutable := false; nm_name := x |} s.
Notation "'$' s" := (ASTerminal s) (at level 8, s at level 0).
Notation "'#' s" := (ASNonTerminal s) (at level 8, s at level 0).
Notation "x '::=' s" := (bind_as x s) (at level 9, s at level 8).

Definition val_of (b : list (string * bval rval)) (x : string) : rval :=
  match bget x b with Some (BVal v) => v | Some (BTok [v]) => v | Some (BTok l) => RVTuple l | None => RVTuple [] end.
Definition num (v : rval) : nat := match v with RVOther n => n | _ => 0 end.

Definition sem_text (e : string) (b : list (string * bval rval)) : option rval :=
  let x n := num (val_of b n) in
  match e with
  | "e + t" => Some (RVOther (x "e" + x "t"))
  | "t * f" => Some (RVOther (x "t" * x "f"))
  | "t + 1" => Some (RVOther (x "t" + 1))
  | "x + 1" => Some (RVOther (x "x" + 1))
  | "y + 1" => Some (RVOther (x "y" + 1))
  | "0" => Some (RVOther 0)
  | "1" => Some (RVOther 1)
  | "()" => Some (RVTuple [])
  | "todo!()" => None
  | "Expr::Sub(Box::new(expr1), Box::new(expr2))" => Some (RVCtor "Sub" [val_of b "expr1"; val_of b "expr2"])
  | "Expr::App(Box::new(expr1), Box::new(expr2))" => Some (RVCtor "App" [val_of b "expr1"; val_of b "expr2"])
  | "Expr::Neg(Box::new(expr))" => Some (RVCtor "Neg" [val_of b "expr"])
  | "Expr::Id" => Some (RVUnit "Id")
  | "Expr::IdA" => Some (RVUnit "IdA")
  | "Expr::Id(id)" => Some (RVCtor "Expr::Id" [val_of b "id"])
  | "Expr::C(x)" => Some (RVCtor "C" [val_of b "x"])
  | "Expr::D(y)" => Some (RVCtor "D" [val_of b "y"])
  | "Expr::E1(x)" => Some (RVCtor "E1" [val_of b "x"])
  | "Expr::E2(y)" => Some (RVCtor "E2" [val_of b "y"])
  | "Expr::E3(x)" => Some (RVCtor "E3" [val_of b "x"])
  | "Expr::E4(y)" => Some (RVCtor "E4" [val_of b "y"])
  | "i1.to_owned() + i2 + i3" => Some (RVTuple [val_of b "i1"; val_of b "i2"; val_of b "i3"])
  | "{ es.insert(0, e); es }" =>
      match val_of b "es" with RVTuple l => Some (RVTuple (val_of b "e" :: l)) | _ => None end
  | "vec![]" => Some (RVTuple [])
  | v => match bget v b with Some _ => Some (val_of b v) | None => None end   (* a variable *)
  end.
Definition sem (e : string) (b : list (string * bval rval)) (w : list string) : option (rval * list string) :=
  match sem_text e b with Some v => Some (v, e :: w) | None => None end.

(** A vector of tokens as iterator, [vec![..].into_iter()]. *)
Definition vec_next (l : list (rval + string)) : option (rval + string) * list (rval + string) :=
  match l with [] => (None, []) | x :: l' => (Some x, l') end.

Definition expansion (items : list (grammar_item string)) : res (generated (lexpr string)) := macro ho_id 100 items.
Definition no_module : generated (lexpr string) :=
  {| gp_action := []; gp_goto := []; gp_sem_actions := []; gp_expected := []; gp_terminal_strs := [];
     gp_n_terminals := 0; gp_parsers := []; gp_conversions := [] |}.
Definition no_parser : parser_struct :=
  {| pr_name := ""; pr_return_ty := ""; pr_extract_variant := 0; pr_init_state := 0; pr_action_idx := 0 |}.
Definition module_of (items : list (grammar_item string)) : generated (lexpr string) :=
  match expansion items with Ok gp => gp | _ => no_module end.
Definition parser_named (gp : generated (lexpr string)) (n : string) : parser_struct :=
  match find (fun p => String.eqb (pr_name p) n) (gp_parsers gp) with Some p => p | None => no_parser end.
(** [Entry::parse(vec![Ok(t1), ..].into_iter())] *)
Definition parse_vec (gp : generated (lexpr string)) (entry : string) (l : list (rval + string))
  : option (outcome string rval (list string) (list (rval + string))) :=
  parse gp (user_env gp (fun v => v) sem vec_next) 300 (parser_named gp entry) l [].
Definition result_vec (items : list (grammar_item string)) (entry : string) (l : list (rval + string)) : option (presult rval string) :=
  option_map oc_result (parse_vec (module_of items) entry l).

Definition ok (p : string) : rval + string := inl (RVUnit p).
Definition okv (p : string) (v : rval) : rval + string := inl (RVCtor p [v]).

(** tests/tests.rs:5-48 [balanced_parens] *)
Definition parens : list (grammar_item string) :=
  [ tokens [unit_tok "(" "Token::LParen"; unit_tok ")" "Token::RParen"];
    rule true "Entry" "usize" [(["test" ::= #"Test"], "test")];
    rule false "Test" "usize" [([$"("; "t" ::= #"Test"; $")"], "t + 1"); ([], "0")] ].
(** tests/tests.rs [token_lifetimes] *)
Definition lifetimes1 : list (grammar_item string) :=
  [ tokens [val_tok "id" "Token::Id" "&'input str"]; rule true "Test" "&'input str" [(["s" ::= $"id"], "s")] ].
Definition lifetimes2 : list (grammar_item string) :=
  [ tokens [val_tok "id" "Token::Id" "&'input str"];
    rule true "Test" "String" [(["i1" ::= $"id"; "i2" ::= $"id"; "i3" ::= $"id"], "i1.to_owned() + i2 + i3")] ].
(** tests/tests.rs [bug_1], [bug_2] *)
Definition bug_1 : list (grammar_item string) :=
  [ tokens [unit_tok "a" "Token::A"]; rule true "Test1" "Token" [([], "todo!()")]; rule true "Test2" "Token" [([], "todo!()")] ].
Definition bug_2 : list (grammar_item string) :=
  [ tokens [unit_tok "a" "Token::A"]; rule true "Test1" "Token" [([#"Test2"; #"Test1"], "todo!()")];
    rule true "Test2" "Token" [([], "todo!()")] ].
Definition arith_tokens : grammar_item string :=
  tokens [unit_tok "(" "Token::LParen"; unit_tok ")" "Token::RParen"; unit_tok "+" "Token::Plus";
          unit_tok "*" "Token::Star"; val_tok "int" "Token::Int" "u64"].
(** tests/tests.rs [test_grammar_5] *)
Definition grammar_5 : list (grammar_item string) :=
  [ arith_tokens;
    rule true "E" "()" [([#"T"; #"E1"], "()")];
    rule false "E1" "()" [([$"+"; #"T"; #"E1"], "()"); ([], "()")];
    rule false "T" "()" [([#"F"; #"T1"], "()")];
    rule false "T1" "()" [([$"*"; #"F"; #"T1"], "()"); ([], "()")];
    rule false "F" "()" [([$"("; #"E"; $")"], "()"); ([$"int"], "()")] ].
(** tests/tests.rs [test_grammar_6] *)
Definition arith : list (grammar_item string) :=
  [ arith_tokens;
    rule true "E" "u64" [(["e" ::= #"E1"], "e")];
    rule false "E1" "u64" [(["e" ::= #"E1"; $"+"; "t" ::= #"T"], "e + t"); (["t" ::= #"T"], "t")];
    rule false "T" "u64" [(["t" ::= #"T"; $"*"; "f" ::= #"F"], "t * f"); (["f" ::= #"F"], "f")];
    rule false "F" "u64" [([$"("; "e" ::= #"E"; $")"], "e"); (["i" ::= $"int"], "i")] ].
(** tests/tests.rs [test_grammar_7] *)
Definition grammar_7 : list (grammar_item string) :=
  [ tokens [unit_tok "*" "Token::Star"; unit_tok "=" "Token::Eq"; unit_tok "n" "Token::Id"];
    rule true "S0" "()" [([#"S"], "()")];
    rule false "S" "()" [([#"L"; $"="; #"R"], "()"); ([#"R"], "()")];
    rule false "L" "()" [([$"*"; #"R"], "()"); ([$"n"], "()")];
    rule false "R" "()" [([#"L"], "()")] ].
(** tests/tests.rs [expr_example] *)
Definition exprs : list (grammar_item string) :=
  [ tokens [unit_tok "n" "Token::Id"; unit_tok "-" "Token::Minus"];
    rule true "BinOpExpr" "Expr" [(["expr" ::= #"UnOpExpr"], "expr");
      (["expr1" ::= #"BinOpExpr"; $"-"; "expr2" ::= #"UnOpExpr"], "Expr::Sub(Box::new(expr1), Box::new(expr2))")];
    rule true "UnOpExpr" "Expr" [(["expr" ::= #"AppExpr"], "expr"); ([$"-"; "expr" ::= #"AppExpr"], "Expr::Neg(Box::new(expr))")];
    rule true "AppExpr" "Expr" [(["expr" ::= #"SimpleExpr"], "expr");
      (["expr1" ::= #"SimpleExpr"; "expr2" ::= #"SimpleExpr"], "Expr::App(Box::new(expr1), Box::new(expr2))")];
    rule true "SimpleExpr" "Expr" [([$"n"], "Expr::Id")] ].
(** tests/tests.rs [token_values] *)
Definition token_values : list (grammar_item string) :=
  [ tokens [val_tok "id" "Token::Id" "Id"]; rule true "Entry" "Expr" [(["id" ::= $"id"], "Expr::Id(id)")] ].
(** tests/tests.rs [lookahead_example_1] *)
Definition lookahead_1 : list (grammar_item string) :=
  [ tokens [unit_tok "e" "Token::E"; unit_tok "c" "Token::C"; unit_tok "d" "Token::D"];
    rule true "Entry" "Expr" [(["x" ::= #"X"; $"c"], "Expr::C(x)"); (["y" ::= #"Y"; $"d"], "Expr::D(y)")];
    rule false "X" "usize" [([$"e"; "x" ::= #"X"], "x + 1"); ([$"e"], "1")];
    rule false "Y" "usize" [([$"e"; "y" ::= #"Y"], "y + 1"); ([$"e"], "1")] ].
(** tests/tests.rs [lookahead_example_2] *)
Definition lookahead_2 : list (grammar_item string) :=
  [ tokens [unit_tok "a" "Token::A"; unit_tok "b" "Token::B"; unit_tok "c" "Token::C"; unit_tok "d" "Token::D"; unit_tok "e" "Token::E"];
    rule true "Entry" "Expr" [([$"a"; "x" ::= #"X"; $"d"], "Expr::E1(x)"); ([$"a"; "y" ::= #"Y"; $"c"], "Expr::E2(y)");
                              ([$"b"; "x" ::= #"X"; $"c"], "Expr::E3(x)"); ([$"b"; "y" ::= #"Y"; $"d"], "Expr::E4(y)")];
    rule false "X" "usize" [([$"e"; "x" ::= #"X"], "x + 1"); ([$"e"], "1")];
    rule false "Y" "usize" [([$"e"; "y" ::= #"Y"], "y + 1"); ([$"e"], "1")] ].
(** tests/tests.rs [token_ordering] *)
Definition ordering (cs : list conversion) : list (grammar_item string) :=
  [ tokens cs;
    rule true "Exprs" "Vec<Expr>" [(["e" ::= #"Expr0"; "es" ::= #"Exprs"], "{ es.insert(0, e); es }"); ([], "vec![]")];
    rule false "Expr0" "Expr" [([$"id"], "Expr::Id"); ([$"id_a"], "Expr::IdA")] ].
Definition id_a : conversion := {| cv_from := "id_a"; cv_to := PatEnum "Token::Id" [PatLit "a"] |}.
Definition id_any : conversion := val_tok "id" "Token::Id" "&'input str".

(** ** The assertions of tests/tests.rs, evaluated in the model *)
Notation LP := (ok "Token::LParen"). Notation RP := (ok "Token::RParen").
Notation PLUS := (ok "Token::Plus"). Notation STAR := (ok "Token::Star").
Definition int (n : nat) := okv "Token::Int" (RVOther n).
Notation idn s := (okv "Token::Id" (RVLit s)).

Example balanced_parens_0 : result_vec parens "Entry" [] = Some (POk (RVOther 0)). Proof. vm_compute. reflexivity. Qed.
Example balanced_parens_1 : result_vec parens "Entry" [LP; RP] = Some (POk (RVOther 1)). Proof. vm_compute. reflexivity. Qed.
Example balanced_parens_2 : result_vec parens "Entry" [LP; LP; RP; RP] = Some (POk (RVOther 2)). Proof. vm_compute. reflexivity. Qed.
Example token_lifetimes_1 : result_vec lifetimes1 "Test" [idn "abc"] = Some (POk (RVLit "abc")). Proof. vm_compute. reflexivity. Qed.
Example token_lifetimes_2 : result_vec lifetimes2 "Test" [idn "a"; idn "b"; idn "c"] = Some (POk (RVTuple [RVLit "a"; RVLit "b"; RVLit "c"])).
Proof. vm_compute. reflexivity. Qed.
Example bug_1_expands : exists gp, expansion bug_1 = Ok gp /\ map pr_name (gp_parsers gp) = ["Test1"; "Test2"].
Proof. vm_compute. eauto. Qed.
Example bug_2_expands : exists gp, expansion bug_2 = Ok gp /\ map pr_name (gp_parsers gp) = ["Test1"; "Test2"].
Proof. vm_compute. eauto. Qed.
Example grammar_5_a : map (result_vec grammar_5 "E")
  [ [int 1]; [int 1; PLUS; int 2]; [int 1; PLUS; int 2; STAR; int 3];
    [int 4; STAR; int 1; STAR; int 5; PLUS; int 2; STAR; int 3] ] = repeat (Some (POk (RVTuple []))) 4.
Proof. vm_compute. reflexivity. Qed.
Example grammar_6_a : map (result_vec arith "E")
  [ [int 1]; [int 1; PLUS; int 2]; [int 1; PLUS; int 2; STAR; int 3];
    [int 4; STAR; int 1; STAR; int 5; PLUS; int 2; STAR; int 3] ]
  = map (fun n => Some (POk (RVOther n))) [1; 3; 7; 26].
Proof. vm_compute. reflexivity. Qed.
Notation ID := (ok "Token::Id"). Notation EQ := (ok "Token::Eq"). Notation MINUS := (ok "Token::Minus").
Example grammar_7_a : map (result_vec grammar_7 "S0") [ [ID; EQ; ID]; [ID; EQ; STAR; ID]; [STAR; ID; EQ; ID] ]
  = repeat (Some (POk (RVTuple []))) 3.
Proof. vm_compute. reflexivity. Qed.
Definition Id' := RVUnit "Id". Definition Neg' x := RVCtor "Neg" [x].
Definition Sub' x y := RVCtor "Sub" [x; y]. Definition App' x y := RVCtor "App" [x; y].
Example expr_bin : map (result_vec exprs "BinOpExpr")
  [ [ID; MINUS; ID]; [ID; ID]; [MINUS; ID; ID]; [MINUS; ID; MINUS; ID]; [ID; MINUS; MINUS; ID] ]
  = map (fun v => Some (POk v)) [ Sub' Id' Id'; App' Id' Id'; Neg' (App' Id' Id'); Sub' (Neg' Id') Id'; Sub' Id' (Neg' Id') ].
Proof. vm_compute. reflexivity. Qed.
Example expr_others : (result_vec exprs "UnOpExpr" [MINUS; ID], result_vec exprs "AppExpr" [ID; ID], result_vec exprs "SimpleExpr" [ID])
  = (Some (POk (Neg' Id')), Some (POk (App' Id' Id')), Some (POk Id')).
Proof. vm_compute. reflexivity. Qed.
Example token_values_a : result_vec token_values "Entry" [okv "Token::Id" (RVUnit "Id")] = Some (POk (RVCtor "Expr::Id" [RVUnit "Id"])).
Proof. vm_compute. reflexivity. Qed.
Notation tk s := (ok s).
Example lookahead_1_a : map (result_vec lookahead_1 "Entry")
  [ [tk "Token::E"; tk "Token::E"; tk "Token::C"]; [tk "Token::E"; tk "Token::E"; tk "Token::D"] ]
  = [Some (POk (RVCtor "C" [RVOther 2])); Some (POk (RVCtor "D" [RVOther 2]))].
Proof. vm_compute. reflexivity. Qed.
Example lookahead_2_a : map (result_vec lookahead_2 "Entry")
  [ [tk "Token::A"; tk "Token::E"; tk "Token::E"; tk "Token::D"]; [tk "Token::A"; tk "Token::E"; tk "Token::E"; tk "Token::C"];
    [tk "Token::B"; tk "Token::E"; tk "Token::E"; tk "Token::C"]; [tk "Token::B"; tk "Token::E"; tk "Token::E"; tk "Token::D"] ]
  = map (fun c => Some (POk (RVCtor c [RVOther 2]))) ["E1"; "E2"; "E3"; "E4"].
Proof. vm_compute. reflexivity. Qed.
Example token_ordering_a : result_vec (ordering [id_a; id_any]) "Exprs" [idn "a"; idn "b"] = Some (POk (RVTuple [RVUnit "IdA"; RVUnit "Id"])).
Proof. vm_compute. reflexivity. Qed.
Example token_ordering_b : result_vec (ordering [id_any; id_a]) "Exprs" [idn "a"; idn "b"] = Some (POk (RVTuple [RVUnit "Id"; RVUnit "Id"])).
Proof. vm_compute. reflexivity. Qed.

(** ** The running examples meet the hypotheses of the property theorems *)
Definition arith_gp : generated (lexpr string) := Eval vm_compute in module_of arith.
Definition arith_E : parser_struct := Eval vm_compute in parser_named arith_gp "E".
Definition parens_gp : generated (lexpr string) := Eval vm_compute in module_of parens.
Definition parens_Entry : parser_struct := Eval vm_compute in parser_named parens_gp "Entry".
Definition exprs_gp : generated (lexpr string) := Eval vm_compute in module_of exprs.
Definition exprs_Un : parser_struct := Eval vm_compute in parser_named exprs_gp "UnOpExpr".

Ltac prove_nodup := repeat constructor; cbn; intuition discriminate.
Ltac prove_parser_of :=
  split; [unfold distinct_names; cbn; prove_nodup|split; [reflexivity|split;
    [exists ho_id, 100; split; [exact ho_id_ok|vm_compute; reflexivity]|vm_compute; intuition]]].
Lemma arith_parser : parser_of arith arith_gp arith_E. Proof. prove_parser_of. Qed.
Lemma parens_parser : parser_of parens parens_gp parens_Entry. Proof. prove_parser_of. Qed.
Lemma exprs_parser : parser_of exprs exprs_gp exprs_Un. Proof. prove_parser_of. Qed.

Lemma arith_plain : tails_plain (declared_nts arith).
Proof. apply (tails_check_plain _ ["E"; "E1"; "T"; "F"] ["E"; "E1"; "T"; "F"]). vm_compute. reflexivity. Qed.
Lemma parens_plain : tails_plain (declared_nts parens).
Proof. apply (tails_check_plain _ ["Test"] []). vm_compute. reflexivity. Qed.
Lemma exprs_plain : tails_plain (declared_nts exprs).
Proof.
  apply (tails_check_plain _ ["BinOpExpr"; "UnOpExpr"; "AppExpr"; "SimpleExpr"] ["BinOpExpr"; "UnOpExpr"; "AppExpr"; "SimpleExpr"]).
  vm_compute. reflexivity.
Qed.

Ltac prod_nt k := eapply uproductive_intro with (p := k); [reflexivity|repeat constructor; cbn; auto].
Lemma arith_productive : all_productive (declared_nts arith).
Proof.
  assert (HF : uproductive (declared_nts arith) "F") by (prod_nt 1).
  assert (HT : uproductive (declared_nts arith) "T") by (prod_nt 1).
  assert (HE1 : uproductive (declared_nts arith) "E1") by (prod_nt 1).
  assert (HE : uproductive (declared_nts arith) "E") by (prod_nt 0).
  intros N HN. cbn in HN. destruct HN as [<-|[<-|[<-|[<-|[]]]]]; assumption.
Qed.
Lemma parens_productive : all_productive (declared_nts parens).
Proof.
  assert (HT : uproductive (declared_nts parens) "Test") by (prod_nt 1).
  assert (HE : uproductive (declared_nts parens) "Entry") by (prod_nt 0).
  intros N HN. cbn in HN. destruct HN as [<-|[<-|[]]]; assumption.
Qed.
Lemma exprs_productive : all_productive (declared_nts exprs).
Proof.
  assert (H1 : uproductive (declared_nts exprs) "SimpleExpr") by (prod_nt 0).
  assert (H2 : uproductive (declared_nts exprs) "AppExpr") by (prod_nt 0).
  assert (H3 : uproductive (declared_nts exprs) "UnOpExpr") by (prod_nt 0).
  assert (H4 : uproductive (declared_nts exprs) "BinOpExpr") by (prod_nt 0).
  intros N HN. cbn in HN. destruct HN as [<-|[<-|[<-|[<-|[]]]]]; assumption.
Qed.
Lemma arith_reliable : tails_reliable (declared_nts arith).
Proof. split; [apply tails_productive_all; [exact arith_productive|reflexivity]|left; exact arith_plain]. Qed.
Lemma parens_reliable : tails_reliable (declared_nts parens).
Proof. split; [apply tails_productive_all; [exact parens_productive|reflexivity]|left; exact parens_plain]. Qed.
Lemma exprs_reliable : tails_reliable (declared_nts exprs).
Proof. split; [apply tails_productive_all; [exact exprs_productive|reflexivity]|left; exact exprs_plain]. Qed.

(** The canonical LR(1) automaton of a grammar, as computed by the model. *)
Definition automaton (items : list (grammar_item string)) : res (grammar (lexpr string) * first_table * list lr1_state * list (nat * nat)) :=
  let* g := lower (declared_nts items) (token_entries items) in
  let* tbl := generate_first_table ho_id 100 g in
  let* a := generate_lr1_automaton ho_id 100 g tbl in
  Ok (g, tbl, fst a, snd a).
Lemma automaton_clean items g tbl states entries : distinct_names items -> tails_plain (declared_nts items) ->
  automaton items = Ok (g, tbl, states, entries) -> forallb (clean_state g) states = true -> ulr1_grammar (declared_nts items).
Proof.
  unfold automaton. intros Hn Ht H Hc. destruct (lower _ _) as [g'| |] eqn:E1; try discriminate. cbn [bind] in H.
  destruct (generate_first_table _ _ _) as [t'| |] eqn:E2; try discriminate. cbn [bind] in H.
  destruct (generate_lr1_automaton _ _ _ _) as [[a b]| |] eqn:E3; try discriminate. cbn [bind fst snd] in H.
  injection H as <- <- <- <-. eapply (clean_lr1 items Hn ho_id 100 ho_id_ok); eauto.
Qed.
Lemma arith_lr1 : ulr1_grammar (declared_nts arith).
Proof.
  destruct (automaton arith) as [[[[g tbl] states] entries]| |] eqn:E; [|vm_compute in E; discriminate..].
  eapply automaton_clean; [apply arith_parser|exact arith_plain|exact E|]. vm_compute in E. injection E as <- <- <- <-. vm_compute. reflexivity.
Qed.
Lemma parens_lr1 : ulr1_grammar (declared_nts parens).
Proof.
  destruct (automaton parens) as [[[[g tbl] states] entries]| |] eqn:E; [|vm_compute in E; discriminate..].
  eapply automaton_clean; [apply parens_parser|exact parens_plain|exact E|]. vm_compute in E. injection E as <- <- <- <-. vm_compute. reflexivity.
Qed.
Lemma exprs_lr1 : ulr1_grammar (declared_nts exprs).
Proof.
  destruct (automaton exprs) as [[[[g tbl] states] entries]| |] eqn:E; [|vm_compute in E; discriminate..].
  eapply automaton_clean; [apply exprs_parser|exact exprs_plain|exact E|]. vm_compute in E. injection E as <- <- <- <-. vm_compute. reflexivity.
Qed.
