(** * Findings: properties that fail, with witnesses

    Each [.._refuted] theorem negates the full statement of a property by exhibiting a grammar the macro
    accepts; the [.._partial] theorems and side conditions elsewhere say what does hold. *)
From Verif Require Import PropertiesCode StageProofs.
Local Open Scope string_scope.

Ltac prove_distinct := unfold distinct_names; cbn; prove_nodup.
Ltac in_list := vm_compute; tauto.
Ltac expand_it := exists ho_id, 100; split; [exact ho_id_ok|vm_compute; reflexivity].
Ltac run_vec := exists 300; vm_compute; reflexivity.
Ltac expand_nt n rest := eapply derives_step; [eapply (dstep_intro _ [] n 0) with (r := rest); reflexivity|]; cbn [app rhs p_symbols map bs_symbol].
Ltac eats := repeat (econstructor; [reflexivity|]); constructor.

(** ** C14: an LR(1) grammar, a sentence, and a [ParserError]

    src/first.rs:78-82: when a right-hand side begins with a nullable non-terminal, its terminals are not
    added to the FIRST set.  Here FIRST(S) lacks "b", so [A -> "a" .] is not reduced on "b". *)
Definition hidden : list (grammar_item string) :=
  [ tokens [unit_tok "a" "Token::A"; unit_tok "b" "Token::B"; unit_tok "c" "Token::C"];
    rule true "P" "()" [([#"A"; #"S"], "()")];
    rule false "A" "()" [([$"a"], "()")];
    rule false "S" "()" [([#"B"; $"c"], "()")];
    rule false "B" "()" [([$"b"], "()"); ([], "()")] ].
Definition hidden_gp : generated (lexpr string) := Eval vm_compute in module_of hidden.
Definition hidden_P : parser_struct := Eval vm_compute in parser_named hidden_gp "P".
Lemma hidden_parser : parser_of hidden hidden_gp hidden_P. Proof. prove_parser_of. Qed.
Definition abc : list (rval + string) := map ok ["Token::A"; "Token::B"; "Token::C"].
Definition abc_tree : utree rval :=
  UNode "P" 0 [UNode "A" 0 [ULeaf (RVUnit "Token::A")];
               UNode "S" 0 [UNode "B" 0 [ULeaf (RVUnit "Token::B")]; ULeaf (RVUnit "Token::C")]].

(** The grammar is LR(1): the automaton built from the right FIRST sets has no conflict. *)
Lemma hidden_lr1 : ulr1_grammar (nts hidden).
Proof.
  set (tbl := [ {| fs_empty := false; fs_terminals := [0] |}; {| fs_empty := false; fs_terminals := [0] |};
                {| fs_empty := false; fs_terminals := [0] |}; {| fs_empty := false; fs_terminals := [1; 2] |};
                {| fs_empty := true; fs_terminals := [1] |} ]).
  destruct (lower (nts hidden) (cs hidden)) as [g| |] eqn:Eg; [|vm_compute in Eg; discriminate..].
  destruct (generate_lr1_automaton ho_id 100 g tbl) as [(states & entries)| |] eqn:Ea.
  - assert (Hc : forallb (clean_state g) states = true /\ first_check g tbl = true).
    { vm_compute in Eg. injection Eg as <-. vm_compute in Ea. injection Ea as <- <-. split; vm_compute; reflexivity. }
    destruct Hc as [Hc1 Hc2].
    refine (clean_lr1_any hidden _ ho_id 100 ho_id_ok g tbl states entries Eg Ea (first_check_tails g tbl Hc2) Hc1). prove_distinct.
  - vm_compute in Eg. injection Eg as <-. vm_compute in Ea. discriminate.
  - vm_compute in Eg. injection Eg as <-. vm_compute in Ea. discriminate.
Qed.
Lemma abc_sentence : sentence (nts hidden) (class hidden) "P" (uyield abc_tree).
Proof. exists abc_tree. split; [unfold abc_tree; prove_tree|reflexivity]. Qed.
Lemma abc_rejected : returns hidden_gp (fun v => v) sem vec_next hidden_P abc []
  {| oc_result := PParserError "b" "c"; oc_iter := [inl (RVUnit "Token::C")]; oc_world := [] |}.
Proof. run_vec. Qed.

Theorem c14_refuted : ~ (forall (items : list (grammar_item string)) gp pr toks l,
  parser_of items gp pr -> ulr1_grammar (nts items) -> sentence (nts items) (class items) (pr_name pr) toks ->
  feeds_then (E := string) vec_next l toks None [] ->
  exists v w', returns gp (fun v => v) sem vec_next pr l [] {| oc_result := POk v; oc_iter := []; oc_world := w' |} \/
    returns gp (fun v => v) sem vec_next pr l [] {| oc_result := PPanic UserPanic; oc_iter := []; oc_world := w' |}).
Proof.
  intro H. destruct (H hidden hidden_gp hidden_P (uyield abc_tree) abc hidden_parser hidden_lr1 abc_sentence) as (v & w' & Hr).
  - exists []. split; [eats|reflexivity].
  - destruct Hr as [Hr|Hr]; pose proof (c00_deterministic hidden_gp hidden_P _ _ _ _ _ _ _ Hr abc_rejected) as He; discriminate.
Qed.

(** ** C20: FIRST sets are not complete *)
Theorem c20_refuted : ~ (forall (g : grammar (lexpr string)) ho fuel tbl n t, hash_order_ok ho ->
  generate_first_table ho fuel g = Ok tbl -> derives_first g [NT n] t -> In t (fs_terminals (get_first tbl n))).
Proof.
  intro H. assert (Hl : exists g tbl, lower (nts hidden) (cs hidden) = Ok g /\ generate_first_table ho_id 100 g = Ok tbl /\
            get_first tbl 3 = {| fs_empty := false; fs_terminals := [2] |} /\ derives_first g [NT 3] 1).
  { eexists. eexists. split; [vm_compute; reflexivity|]. split; [vm_compute; reflexivity|]. split; [reflexivity|].
    exists [T 2]. expand_nt 3 (@nil symbol).
    expand_nt 4 [T 2]. constructor. }
  destruct Hl as (g' & tbl' & _ & Hf & Hg & Hd). specialize (H g' ho_id 100 tbl' 3 1 ho_id_ok Hf Hd). rewrite Hg in H.
  destruct H as [H|[]]. discriminate H.
Qed.
(** The empty flag can be missing as well (src/first.rs:97: the result of [set_empty] is dropped, so the
    loop may stop too early): here FIRST(A) does not say that [A] derives the empty string. *)
Definition chain : list (grammar_item string) :=
  [ tokens [unit_tok "x" "Token::X"]; rule true "S" "()" [([$"x"; #"A"], "()")];
    rule false "A" "()" [([#"B"], "()")]; rule false "B" "()" [([#"C"], "()")]; rule false "C" "()" [([], "()")] ].
Theorem c20_empty_refuted : ~ (forall (g : grammar (lexpr string)) ho fuel tbl n, hash_order_ok ho ->
  generate_first_table ho fuel g = Ok tbl -> derives_empty g [NT n] -> fs_empty (get_first tbl n) = true).
Proof.
  intro H. assert (Hl : exists g tbl, lower (nts chain) (cs chain) = Ok g /\ generate_first_table ho_id 100 g = Ok tbl /\
            get_first tbl 2 = {| fs_empty := false; fs_terminals := [] |} /\ derives_empty g [NT 2]).
  { eexists. eexists. split; [vm_compute; reflexivity|]. split; [vm_compute; reflexivity|]. split; [reflexivity|].
    expand_nt 2 (@nil symbol).
    expand_nt 3 (@nil symbol).
    expand_nt 4 (@nil symbol). constructor. }
  destruct Hl as (g' & tbl' & _ & Hf & Hg & Hd). specialize (H g' ho_id 100 tbl' 2 ho_id_ok Hf Hd). rewrite Hg in H. discriminate H.
Qed.

(** ** C23: the states need not hold all valid items *)
Theorem c23_refuted : ~ (forall (items : list (grammar_item string)) g tbl states entries n e gamma N p k la,
  stages items g tbl states entries -> In (n, e) entries -> lr1_valid g n gamma N p k la ->
  exists s, follow states e gamma = Some s /\ holds states s {| it_nt := N; it_prod := p; it_cursor := k; it_la := la |}).
Proof.
  intro H.
  assert (Hl : exists g tbl states entries, stages hidden g tbl states entries /\ In (1, 0) entries /\
     lr1_valid g 1 [] 2 0 0 (Some 1) /\
     forall st, nth_error states 0 = Some st -> ~ In {| it_nt := 2; it_prod := 0; it_cursor := 0; it_la := Some 1 |} (st_items st)).
  { eexists. eexists. eexists. eexists. split; [|split; [|split]].
    - exists ho_id, 100. split; [exact ho_id_ok|]. split; [vm_compute; reflexivity|]. split; [vm_compute; reflexivity|vm_compute; reflexivity].
    - in_list.
    - eapply lv_closure with (B := 0) (p := 0) (k := 0) (la := None); [|reflexivity|reflexivity|reflexivity|].
      + eapply lv_closure with (B := 1) (p := 0) (k := 0) (la := None); [constructor|reflexivity|reflexivity|reflexivity|].
        right. split; [constructor|reflexivity].
      + left. exists 1. split; [reflexivity|]. exists [T 2].
        expand_nt 3 (@nil symbol).
        expand_nt 4 [T 2]. constructor.
    - intros st Hs. vm_compute in Hs. injection Hs as <-. cbn. intuition discriminate. }
  destruct Hl as (g & tbl & states & entries & Hst & He & Hv & Hno).
  destruct (H _ _ _ _ _ _ _ _ _ _ _ _ Hst He Hv) as (s & Hs & st & Hn & Hin). cbn in Hs. injection Hs as <-. exact (Hno _ Hn Hin).
Qed.

(** ** C16: a shift/reduce conflict resolved silently

    The dangling else, with the production to reduce declared before the one that shifts: add_shift
    (src/lr_common.rs) replaces the reduction already in the table. *)
Definition dangling : list (grammar_item string) :=
  [ tokens [unit_tok "if" "Token::If"; unit_tok "else" "Token::Else"; unit_tok "x" "Token::X"];
    rule true "E" "()" [([#"S"], "()")];
    rule false "S" "()" [([$"if"; #"S"], "()"); ([$"if"; #"S"; $"else"; #"S"], "()"); ([$"x"], "()")] ].
Definition dangling_gp : generated (lexpr string) := Eval vm_compute in module_of dangling.
Definition dangling_E : parser_struct := Eval vm_compute in parser_named dangling_gp "E".
Lemma dangling_parser : parser_of dangling dangling_gp dangling_E. Proof. prove_parser_of. Qed.
Lemma dangling_conflict : exists gamma,
  ulr1_reduces (nts dangling) "E" gamma (Some "S") 0 (Some "else") /\ ulr1_shifts (nts dangling) "E" gamma "else".
Proof.
  assert (H0 : ulr1_valid (nts dangling) "E" [] (Some "E") 0 0 None).
  { eapply ulv_closure with (lhs := None) (p := 0) (k := 0) (la := None) (C := "E"); [constructor|reflexivity|reflexivity|reflexivity|].
    right. split; [constructor|reflexivity]. }
  assert (H1 : ulr1_valid (nts dangling) "E" [] (Some "S") 1 0 None).
  { eapply ulv_closure with (lhs := Some "E") (p := 0) (k := 0) (la := None) (C := "S"); [exact H0|reflexivity|reflexivity|reflexivity|].
    right. split; [constructor|reflexivity]. }
  pose proof (ulv_move _ _ _ _ _ _ _ _ _ _ H1 eq_refl eq_refl) as H2. cbn in H2.
  assert (H3 : forall q l, urhs (nts dangling) "E" (Some "S") q = Some l ->
             ulr1_valid (nts dangling) "E" [ASTerminal "if"] (Some "S") q 0 (Some "else")).
  { intros q l Hq. eapply ulv_closure with (lhs := Some "S") (p := 1) (k := 1) (la := None) (C := "S"); [exact H2|reflexivity|reflexivity|exact Hq|].
    left. exists "else", [ASNonTerminal "S"]. split; [reflexivity|constructor]. }
  pose proof (ulv_move _ _ _ _ _ _ _ _ _ _ (H3 0 _ eq_refl) eq_refl eq_refl) as A1. cbn in A1.
  pose proof (ulv_move _ _ _ _ _ _ _ _ _ _ A1 eq_refl eq_refl) as A2. cbn in A2.
  pose proof (ulv_move _ _ _ _ _ _ _ _ _ _ (H3 1 _ eq_refl) eq_refl eq_refl) as B1. cbn in B1.
  pose proof (ulv_move _ _ _ _ _ _ _ _ _ _ B1 eq_refl eq_refl) as B2. cbn in B2.
  exists [ASTerminal "if"; ASTerminal "if"; ASNonTerminal "S"]. split.
  - eexists. split; [reflexivity|]. exact A2.
  - exists (Some "S"), 1, 2, (Some "else"). eexists. split; [exact B2|]. split; reflexivity.
Qed.
Theorem c16_refuted : ~ (forall (items : list (grammar_item string)) gp N gamma a p t,
  distinct_names items -> expands items gp -> In N (nts items) -> an_pub N = true ->
  ~ (ulr1_reduces (nts items) (an_name N) gamma (Some a) p (Some t) /\ ulr1_shifts (nts items) (an_name N) gamma t)).
Proof.
  intro H. destruct dangling_conflict as (gamma & H1 & H2). destruct dangling_parser as (Hd & _ & He & _).
  apply (H dangling dangling_gp {| an_pub := true; an_name := "E"; an_type := "()"; an_productions := an_productions (hd (Build_ast_non_terminal _ false "" "" []) (nts dangling)) |}
           gamma "S" 0 "else" Hd He); [left; reflexivity|reflexivity|]. split; assumption.
Qed.
(** The accepted grammar is ambiguous: [if if x else x] has two parse trees. *)
Definition leaf (s : string) : utree rval := ULeaf (RVUnit s).
Definition Sx : utree rval := UNode "S" 2 [leaf "Token::X"].
Definition else_inner : utree rval := UNode "E" 0 [UNode "S" 0 [leaf "Token::If"; UNode "S" 1 [leaf "Token::If"; Sx; leaf "Token::Else"; Sx]]].
Definition else_outer : utree rval := UNode "E" 0 [UNode "S" 1 [leaf "Token::If"; UNode "S" 0 [leaf "Token::If"; Sx]; leaf "Token::Else"; Sx]].
Theorem c13_refuted : ~ (forall (items : list (grammar_item string)) gp pr t t', parser_of items gp pr ->
  utree_of (nts items) (class items) t (ASNonTerminal (pr_name pr)) ->
  utree_of (nts items) (class items) t' (ASNonTerminal (pr_name pr)) -> uyield t = uyield t' -> t = t').
Proof.
  intro H. assert (He : else_inner = else_outer); [|discriminate].
  apply (H dangling dangling_gp dangling_E else_inner else_outer dangling_parser); try reflexivity;
    unfold else_inner, else_outer, Sx, leaf; cbn [pr_name dangling_E]; prove_tree.
Qed.
(** ... and it is resolved like in C: the [else] goes with the inner [if]. *)
Example dangling_inner : exists o, returns dangling_gp (fun v => v) sem vec_next dangling_E
  (map ok ["Token::If"; "Token::If"; "Token::X"; "Token::Else"; "Token::X"]) [] o /\ oc_result o = POk (RVTuple []).
Proof. eexists. split; [run_vec|reflexivity]. Qed.

(** Accepting likewise replaces a reduction at end of input: [pub S -> S | "a"] is accepted. *)
Definition cyclic : list (grammar_item string) :=
  [ tokens [unit_tok "a" "Token::A"]; rule true "S" "()" [([#"S"], "()"); ([$"a"], "()")] ].
Theorem c16_accept_refuted : ~ (forall (items : list (grammar_item string)) gp N gamma a p,
  distinct_names items -> expands items gp -> In N (nts items) -> an_pub N = true ->
  ~ (ulr1_reduces (nts items) (an_name N) gamma (Some a) p None /\ ulr1_reduces (nts items) (an_name N) gamma None 0 None)).
Proof.
  intro H. assert (He : expands cyclic (module_of cyclic)) by expand_it.
  assert (Hd : distinct_names cyclic) by prove_distinct.
  apply (H cyclic _ (hd (Build_ast_non_terminal _ false "" "" []) (nts cyclic)) [ASNonTerminal "S"] "S" 0 Hd He); [left; reflexivity|reflexivity|].
  assert (H0 : ulr1_valid (nts cyclic) "S" [] None 0 0 None) by constructor.
  split; (eexists; split; [reflexivity|]).
  - pose proof (ulv_move (nts cyclic) (uin_first (nts cyclic)) "S" [] (Some "S") 0 0 None [ASNonTerminal "S"] (ASNonTerminal "S")) as Hm. apply Hm; [|reflexivity|reflexivity].
    eapply ulv_closure with (lhs := None) (p := 0) (k := 0) (la := None) (C := "S"); [exact H0|reflexivity|reflexivity|reflexivity|].
    right. split; [constructor|reflexivity].
  - exact (ulv_move _ _ _ _ _ _ _ _ _ _ H0 eq_refl eq_refl).
Qed.

(** ** C15: a reduce/reduce conflict of the user's grammar that goes unnoticed, for want of FIRST terminals *)
Definition unseen : list (grammar_item string) :=
  [ tokens [unit_tok "a" "Token::A"; unit_tok "b" "Token::B"; unit_tok "c" "Token::C"; unit_tok "d" "Token::D"];
    rule true "P" "()" [([#"A"; #"S"], "()"); ([#"B"; #"U"], "()")];
    rule false "A" "()" [([$"a"], "()")]; rule false "B" "()" [([$"a"], "()")];
    rule false "S" "()" [([#"N"; $"c"], "()")]; rule false "U" "()" [([#"N"; $"d"], "()")];
    rule false "N" "()" [([$"b"], "()"); ([], "()")] ].
Lemma unseen_conflict : reduce_reduce (nts unseen) "P" [ASTerminal "a"].
Proof.
  assert (H0 : forall q l, urhs (nts unseen) "P" (Some "P") q = Some l -> ulr1_valid (nts unseen) "P" [] (Some "P") q 0 None).
  { intros q l Hq. eapply ulv_closure with (lhs := None) (p := 0) (k := 0) (la := None) (C := "P"); [constructor|reflexivity|reflexivity|exact Hq|].
    right. split; [constructor|reflexivity]. }
  assert (Hb : forall X m c, uproduction (nts unseen) X 0 = Some m -> body m = [ASNonTerminal "N"; c] ->
            uin_first (nts unseen) [ASNonTerminal X] None (Some "b")).
  { intros X m c Hm Hbm. left. exists "b", [c]. split; [reflexivity|].
    eapply ud_step; [apply (uds _ [] X 0 m [] Hm)|]. unfold body in Hbm. rewrite Hbm. cbn.
    eapply ud_step; [eapply (uds _ [] "N" 0) with (r := [c]); reflexivity|]. constructor. }
  exists "A", 0, "B", 0, (Some "b"). split; [|split; [|discriminate]]; (eexists; split; [reflexivity|]).
  - apply (ulv_move (nts unseen) _ "P" [] (Some "A") 0 0 (Some "b") [ASTerminal "a"] (ASTerminal "a")); [|reflexivity|reflexivity].
    eapply ulv_closure with (lhs := Some "P") (p := 0) (k := 0) (la := None) (C := "A"); [exact (H0 0 _ eq_refl)|reflexivity|reflexivity|reflexivity|].
    eapply Hb; reflexivity.
  - apply (ulv_move (nts unseen) _ "P" [] (Some "B") 0 0 (Some "b") [ASTerminal "a"] (ASTerminal "a")); [|reflexivity|reflexivity].
    eapply ulv_closure with (lhs := Some "P") (p := 1) (k := 0) (la := None) (C := "B"); [exact (H0 1 _ eq_refl)|reflexivity|reflexivity|reflexivity|].
    eapply Hb; reflexivity.
Qed.
Theorem c15_refuted : ~ (forall (items : list (grammar_item string)) gp N gamma,
  distinct_names items -> expands items gp -> In N (nts items) -> an_pub N = true -> ~ reduce_reduce (nts items) (an_name N) gamma).
Proof.
  intro H. assert (He : expands unseen (module_of unseen)) by expand_it. assert (Hd : distinct_names unseen) by prove_distinct.
  apply (H unseen _ (hd (Build_ast_non_terminal _ false "" "" []) (nts unseen)) [ASTerminal "a"] Hd He); [left; reflexivity|reflexivity|].
  exact unseen_conflict.
Qed.

(** ** C05: a generated parser that runs forever on one token

    [B] derives nothing, so its FIRST entry is empty, so the item [Y -> . "t"] (which would reveal the
    conflict) is not in the state, and [N -> epsilon] is reduced forever. *)
Definition looping : list (grammar_item string) :=
  [ tokens [unit_tok "t" "Token::T"];
    rule true "X" "()" [([#"N"; #"Y"; #"B"], "()"); ([#"N"; #"X"], "()")];
    rule false "N" "()" [([], "()")]; rule false "Y" "()" [([$"t"], "()")]; rule false "B" "()" [([#"B"; $"t"], "()")] ].
Definition looping_gp : generated (lexpr string) := Eval vm_compute in module_of looping.
Definition looping_X : parser_struct := Eval vm_compute in parser_named looping_gp "X".
Lemma looping_parser : parser_of looping looping_gp looping_X. Proof. prove_parser_of. Qed.
Lemma looping_runs n : exists w' evs,
  running looping_gp (fun v => v) sem vec_next looping_X [ok "Token::T"] [] n [] w' evs.
Proof.
  set (env := user_env looping_gp (fun v => v) sem vec_next).
  set (st k := ({| ps_states := repeat 2 k ++ [0]; ps_values := repeat (VNonTerminal 0 (RVTuple [])) k;
                  ps_token := Some (inl (RVUnit "Token::T")); ps_iter := @nil (rval + string); ps_world := repeat "()" k |} : pstate rval string rval (list string) (list (rval + string)))).
  assert (Hstep : forall k, step looping_gp env looping_X (st k) = inl (st (S k))) by (intros [|k]; reflexivity).
  assert (Hit : forall m k, iterations looping_gp env looping_X m (st k) = Some (st (m + k))).
  { induction m as [|m IH]; intro k; [reflexivity|]. cbn [iterations]. rewrite Hstep, IH. do 2 f_equal. lia. }
  eexists. eexists. exists (st n). split; [|split; [reflexivity|split; reflexivity]].
  change (init_pstate (user_env looping_gp (fun v : rval => v) sem vec_next) looping_X [ok "Token::T"] []) with (st 0).
  rewrite Hit, Nat.add_0_r. reflexivity.
Qed.
Lemma iterations_no_return {A E V W I} (gp : generated (lexpr A)) (env : env_t (lexpr A) rval E V W I) pr : forall fuel st st' o,
  iterations gp env pr fuel st = Some st' -> run gp env fuel pr st = Some o -> False.
Proof.
  induction fuel as [|fuel IH]; intros st st' o Hi Hr; [discriminate|]. cbn [iterations run] in Hi, Hr.
  destruct (step gp env pr st) as [s|r]; [|discriminate]. eapply IH; eauto.
Qed.
Theorem c05_refuted : ~ (forall (items : list (grammar_item string)) gp pr l, parser_of items gp pr ->
  exists o, returns gp (fun v => v) sem vec_next pr l [] o).
Proof.
  intro H. destruct (H looping looping_gp looping_X [ok "Token::T"] looping_parser) as (o & fuel & Ho).
  destruct (looping_runs fuel) as (w' & evs & st & Hst & _). unfold parse in Ho.
  exact (iterations_no_return _ _ _ _ _ _ _ Hst Ho).
Qed.

(** ** C07: the side condition is needed, even for LR(1) grammars

    [M] derives the empty string through [D] and [C]; its FIRST entry does not say so (src/first.rs:97), so
    [N -> . "b"] is not in the closure of [Z -> . N M]; but "b" is in FIRST(Z), so [A -> "a" .] is reduced
    on "b" (its action runs) before "b" is rejected.  [parse] still returns on every stream: c05. *)
Definition late : list (grammar_item string) :=
  [ tokens [unit_tok "a" "Token::A"; unit_tok "b" "Token::B"];
    rule false "A" "()" [([$"a"], "()")];
    rule false "N" "()" [([$"b"], "()")];
    rule false "Z" "()" [([#"N"; #"M"], "()")];
    rule true "S" "()" [([#"A"; #"Z"], "()")];
    rule false "M" "()" [([#"D"], "()")];
    rule false "D" "()" [([#"C"], "()")];
    rule false "C" "()" [([], "()")] ].
Definition late_gp : generated (lexpr string) := Eval vm_compute in module_of late.
Definition late_S : parser_struct := Eval vm_compute in parser_named late_gp "S".
Lemma late_parser : parser_of late late_gp late_S. Proof. prove_parser_of. Qed.
Lemma late_lr1 : ulr1_grammar (nts late).
Proof.
  set (tbl := [ {| fs_empty := false; fs_terminals := [0] |}; {| fs_empty := false; fs_terminals := [1] |};
                {| fs_empty := false; fs_terminals := [1] |}; {| fs_empty := false; fs_terminals := [0] |};
                {| fs_empty := false; fs_terminals := [0] |}; {| fs_empty := true; fs_terminals := [] |};
                {| fs_empty := true; fs_terminals := [] |}; {| fs_empty := true; fs_terminals := [] |} ]).
  destruct (lower (nts late) (cs late)) as [g| |] eqn:Eg; [|vm_compute in Eg; discriminate..].
  destruct (generate_lr1_automaton ho_id 100 g tbl) as [(states & entries)| |] eqn:Ea.
  - assert (Hc : forallb (clean_state g) states = true /\ first_check g tbl = true).
    { vm_compute in Eg. injection Eg as <-. vm_compute in Ea. injection Ea as <- <-. split; vm_compute; reflexivity. }
    destruct Hc as [Hc1 Hc2].
    refine (clean_lr1_any late _ ho_id 100 ho_id_ok g tbl states entries Eg Ea (first_check_tails g tbl Hc2) Hc1). prove_distinct.
  - vm_compute in Eg. injection Eg as <-. vm_compute in Ea. discriminate.
  - vm_compute in Eg. injection Eg as <-. vm_compute in Ea. discriminate.
Qed.
Lemma late_productive : tails_productive (nts late).
Proof.
  assert (HC : uproductive (nts late) "C") by (prod_nt 0).
  assert (HD : uproductive (nts late) "D") by (prod_nt 0).
  assert (HM : uproductive (nts late) "M") by (prod_nt 0).
  assert (HN : uproductive (nts late) "N") by (prod_nt 0).
  assert (HZ : uproductive (nts late) "Z") by (prod_nt 0).
  assert (HA : uproductive (nts late) "A") by (prod_nt 0).
  assert (HS : uproductive (nts late) "S") by (prod_nt 0).
  apply tails_productive_all; [|reflexivity]. intros N HN'. cbn in HN'. intuition (subst; assumption).
Qed.
(** ... so [parse] returns, by c05_terminates, ... *)
Example late_returns l : exists o, returns late_gp (fun v => v) sem vec_next late_S l [] o.
Proof. apply (c05_terminates late late_gp late_S (fun v => v) sem vec_next l [] late_parser); [exact late_productive|right; right; exact late_lr1|apply case_ends]. Qed.
(** ... although the other two side conditions fail, ... *)
Lemma late_unreliable : ~ tails_plain (nts late) /\ ~ empty_direct (nts late).
Proof.
  assert (HC : unullable (nts late) "C").
  { eapply ud_step; [exact (uds (nts late) [] "C" 0 _ [] eq_refl)|constructor]. }
  assert (HD : unullable (nts late) "D").
  { eapply ud_step; [exact (uds (nts late) [] "D" 0 _ [] eq_refl)|]. exact HC. }
  split.
  - intros (R & HR & Hstep). destruct (Hstep "M" 0 _ "D" [] (HR "M" ltac:(exists "Z", 0; do 3 eexists; split; [reflexivity|split; [reflexivity|left; reflexivity]])) eq_refl eq_refl) as [H _]. exact (H HD).
  - intro H. destruct (H "M") as (p & q & Hp & Hq).
    + eapply ud_step; [exact (uds (nts late) [] "M" 0 _ [] eq_refl)|]. exact HD.
    + destruct p as [|[|p]]; vm_compute in Hp; try discriminate Hp. injection Hp as <-. discriminate Hq.
Qed.
(** ... and the error is late: the action of [A] runs after "b" was read. *)
Definition ab : list (rval + string) := map ok ["Token::A"; "Token::B"].
Lemma late_rejected : returns_with late_gp (fun v => v) sem vec_next late_S ab []
  {| oc_result := PParserError "b" ""; oc_iter := []; oc_world := ["()"] |} (events_vec late_gp late_S ab).
Proof. exists 300. split; vm_compute; reflexivity. Qed.
Theorem c07_refuted : ~ (forall (items : list (grammar_item string)) gp pr l o evs found expected, parser_of items gp pr ->
  ulr1_grammar (nts items) -> tails_productive (nts items) ->
  returns_with gp (fun v => v) sem vec_next pr l [] o evs -> oc_result o = PParserError found expected ->
  exists r pre, evs = (pre ++ [EvNext r])%list).
Proof.
  intro H. destruct (H late late_gp late_S ab _ _ _ _ late_parser late_lr1 late_productive late_rejected eq_refl) as (r & pre & He).
  assert (Hl : forall d, last (events_vec late_gp late_S ab) d = EvNext r).
  { intro d. rewrite He. apply last_last. }
  specialize (Hl (EvNext None)). vm_compute in Hl. discriminate Hl.
Qed.

(** ** C33: a repeated declaration

    The productions of all declarations of a name go to the last one; an entry point declared earlier is
    left without productions, silently. *)
Definition repeated : list (grammar_item string) :=
  [ tokens [unit_tok "a" "Token::A"; unit_tok "b" "Token::B"];
    rule true "S" "()" [([$"a"], "()")]; rule false "S" "()" [([$"b"], "()")] ].
Theorem c33_refuted : ~ (forall (items : list (grammar_item string)) gp pr N p tok s, expands items gp -> In pr (gp_parsers gp) ->
  In N (nts items) -> an_name N = pr_name pr -> In p (an_productions N) -> ap_symbols p = [ASTerminal s] -> class items tok = Some s ->
  exists o v, returns gp (fun v => v) (fun _ _ w => Some (RVTuple [], w)) vec_next pr [@inl rval string tok] tt o /\ oc_result o = POk v).
Proof.
  intro H. assert (He : expands repeated (module_of repeated)) by expand_it.
  destruct (H repeated _ (parser_named (module_of repeated) "S") (hd (Build_ast_non_terminal _ false "" "" []) (nts repeated))
    {| ap_symbols := [$"a"]; ap_action := Infallible "()" |} (RVUnit "Token::A") "a" He) as (o & v & Ho & Hv); try reflexivity; try in_list.
  assert (Hr : returns (module_of repeated) (fun v => v) (fun (_ : string) _ w => Some (RVTuple [], w)) vec_next (parser_named (module_of repeated) "S")
                 [@inl rval string (RVUnit "Token::A")] tt {| oc_result := PParserError "a" ""; oc_iter := []; oc_world := tt |}) by run_vec.
  pose proof (c00_deterministic _ _ _ _ _ _ _ _ _ Ho Hr) as E. rewrite E in Hv. discriminate.
Qed.

(** ** C09: end of input is never listed as expected, even where it is the only continuation *)
Definition single : list (grammar_item string) :=
  [ tokens [unit_tok "a" "Token::A"; unit_tok "b" "Token::B"]; rule true "S" "()" [([$"a"], "()")] ].
Theorem c09_end_not_listed : result_vec single "S" [ok "Token::A"] = Some (POk (RVTuple [])) /\
  result_vec single "S" [ok "Token::A"; ok "Token::B"] = Some (PParserError "b" "").
Proof. split; vm_compute; reflexivity. Qed.

(** ** C30: one-element tuple patterns

    For the pattern [(p,)] the classification function matches [(p,)] (src/codegen.rs:246) but the value
    function the parenthesised pattern [(p)] (src/codegen.rs:439), which matches another shape of value and
    selects the whole tuple instead of its field (rustc rejects the generated code if the types differ). *)
Definition single_tuple : list (grammar_item string) :=
  [ tokens [{| cv_from := "t"; cv_to := PatTuple [PatChoose "u64"] |}]; rule true "S" "u64" [(["x" ::= $"t"], "x")] ].
Definition single_tuple_gp : generated (lexpr string) := Eval vm_compute in module_of single_tuple.
Theorem c30_refuted : ~ (forall (items : list (grammar_item string)) gp tok i, expands items gp ->
  token_terminal_idx (gp_conversions gp) tok = Some i ->
  exists c fs, nth_error (cs items) i = Some c /\ pmatch (cv_to c) tok = Some fs /\ token_value (gp_conversions gp) tok = Some (i, fs)).
Proof.
  intro H. assert (He : expands single_tuple single_tuple_gp) by expand_it.
  first [ destruct (H single_tuple single_tuple_gp (RVTuple [RVOther 1]) 0 He eq_refl) as (c & fs & Hc & Hp & Hv);
          vm_compute in Hv; injection Hc as <-; vm_compute in Hp; congruence
        | destruct (H single_tuple single_tuple_gp (RVOther 1) 0 He eq_refl) as (c & fs & Hc & Hp & Hv);
          injection Hc as <-; vm_compute in Hp; discriminate ].
Qed.
