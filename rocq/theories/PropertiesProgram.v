(** * PropertiesProgram: C69, from the tokens of the macro call to calls of [parse]

    Everything together: Dsl.v reads the tokens, Macro.v computes the tables, Emit.v is the emitted code, RustTypes.v decides
    whether it compiles and Rust.v evaluates it. *)
From Coq Require Import NArith Ascii.
From Verif Require Import MacroProofs LowerTrees StageProofs PropertiesHygiene PropertiesGen DslProofs.
From Verif Require Export Program PropertiesDsl PropertiesCompile.
Local Open Scope string_scope. Local Open Scope list_scope.

Section Items.
Context {A : Type}.
Variable items : list (grammar_item A).
(** [emit_items] is [macro] followed by the templates. *)
Lemma emit_items_macro ho fuel :
  match emit_items ho fuel items, macro ho fuel items with
  | Ok (M, sg), Ok gp => exists te g, declared_tokens items = [te] /\ named items te g /\ M = emit te g gp /\ sg = emit_sigs te g gp
  | Panic p, Panic p' => p = p'
  | OutOfFuel, OutOfFuel => True
  | _, _ => False
  end.
Proof.
  unfold emit_items, macro. pose proof (collect_spec items acc0) as H. unfold acc0 in H. cbn [ia_token ia_state app] in H.
  cbv zeta in H. fold (@acc0 A) in H. unfold acc0 in H.
  destruct (foldM collect_item items _) as [acc|p|]; cbn [Base.bind]; [|exact eq_refl|contradiction].
  destruct H as (H1 & H2 & _). cbn [ia_nts app] in H1. destruct (ia_token acc) as [te|]; [|exact eq_refl].
  rewrite H1. destruct (lower (declared_nts items) (te_conversions te)) as [g|p|] eqn:El; cbn [Base.bind]; [|exact eq_refl|exact Logic.I].
  destruct (generate_lr1_parser ho fuel g te) as [gp|p|]; cbn [Base.bind]; [|exact eq_refl|exact Logic.I].
  exists te, g. split; [exact H2|]. split; [|auto]. split; [rewrite H2; left; reflexivity|]. unfold token_entries. rewrite H2. cbn [flat_map]. rewrite app_nil_r. exact El.
Qed.
Lemma emit_items_Ok ho fuel M sg : emit_items ho fuel items = Ok (M, sg) <->
  exists te g gp, declared_tokens items = [te] /\ named items te g /\ macro ho fuel items = Ok gp /\ M = emit te g gp /\ sg = emit_sigs te g gp.
Proof.
  pose proof (emit_items_macro ho fuel) as H. split.
  - intro E. rewrite E in H. destruct (macro ho fuel items) as [gp| |]; try contradiction. destruct H as (te & g & H1 & H2 & H3 & H4). exists te, g, gp. auto.
  - intros (te & g & gp & H1 & H2 & Hm & -> & ->). rewrite Hm in H. destruct (emit_items ho fuel items) as [[M sg]| |]; try contradiction.
    destruct H as (te' & g' & H3 & H4 & -> & ->). assert (te' = te) by congruence. subst te'. destruct H2 as [_ H2], H4 as [_ H4]. assert (g' = g) by congruence. subst g'. reflexivity.
Qed.
Lemma emit_items_Panic ho fuel p : emit_items ho fuel items = Panic p <-> macro ho fuel items = Panic p.
Proof. pose proof (emit_items_macro ho fuel) as H. destruct (emit_items ho fuel items) as [[M sg]| |], (macro ho fuel items) as [gp| |]; try contradiction; split; intro E; try discriminate; congruence. Qed.
Lemma emit_items_Fuel ho fuel : emit_items ho fuel items = OutOfFuel <-> macro ho fuel items = OutOfFuel.
Proof. pose proof (emit_items_macro ho fuel) as H. destruct (emit_items ho fuel items) as [[M sg]| |], (macro ho fuel items) as [gp| |]; try contradiction; split; intro E; try discriminate; reflexivity. Qed.
End Items.

Section Program.
Context {A : Type}.
Variable pty : list ttree -> option (ty * list ttree).
Variable pex : list ttree -> option (A * list ttree).
Variable ppa : list ttree -> option (string * list ttree).
Hypothesis Hsyn : syn_parsers pty pex ppa.
Notation written := (items_syntax (parses pty) (parses pex) (parses ppa) (expr_before pex)).
Notation ill_formed := (syntax_panics (parses pty) (parses pex) (parses ppa) (expr_before pex) (path_before ppa)).
Notation expand := (expand_tokens pty pex ppa).

(** *** The macro always ends, and what it becomes does not depend on the iteration orders of hash maps, up to the order of the
    entry points' items. *)
Theorem c69_total ts ho : hash_order_ok ho -> exists fuel x, x <> EFuel /\ forall fuel', fuel <= fuel' -> expand ho fuel' ts = x.
Proof.
  intro Hho. unfold expand_tokens. destruct (p_parser pty pex ppa ts) as [items r| | |] eqn:E.
  - destruct (c21_expansion_terminates items ho Hho) as (fuel & [(gp & H)|(p & H)]).
    + pose proof (emit_items_macro items ho fuel) as He. rewrite (H fuel (le_n _)) in He. destruct (emit_items ho fuel items) as [[M sg]| |] eqn:Ei; try contradiction.
      destruct He as (te & g & H1 & H2 & -> & ->). eexists fuel, (EModule _ _). split; [discriminate|]. intros f Hf.
      assert (Ef : emit_items ho f items = Ok (emit te g gp, emit_sigs te g gp)) by (apply emit_items_Ok; exists te, g, gp; auto). rewrite Ef. reflexivity.
    + exists fuel, (EPanic p). split; [discriminate|]. intros f Hf. rewrite (proj2 (emit_items_Panic items ho f p) (H f Hf)). reflexivity.
  - exists 0, ECompileError. split; [discriminate|auto].
  - exists 0, ESyntaxPanic. split; [discriminate|auto].
  - exfalso. exact (parser_total _ _ _ Hsyn _ E).
Qed.
Theorem c69_reproducible ts ho ho' fuel fuel' M sg : hash_order_ok ho -> hash_order_ok ho' ->
  expand ho fuel ts = EModule M sg -> expand ho' fuel' ts <> EFuel -> exists M' sg', expand ho' fuel' ts = EModule M' sg' /\ Permutation M' M.
Proof.
  intros Hho Hho' H Hf. unfold expand_tokens in *. destruct (p_parser pty pex ppa ts) as [items r| | |]; try discriminate.
  destruct (emit_items ho fuel items) as [[M0 sg0]| |] eqn:E; try discriminate. injection H as -> ->.
  apply emit_items_Ok in E. destruct E as (te & g & gp & H1 & H2 & Hm & -> & ->).
  destruct (c22_hash_order_irrelevant items ho ho' fuel fuel' gp Hho Hho' Hm) as (gp' & Hm' & E1 & E2 & E3 & E4 & E5 & E6 & _ & Hperm).
  { intro Hx. apply Hf. rewrite (proj2 (emit_items_Fuel items ho' fuel') Hx). reflexivity. }
  assert (Ei : emit_items ho' fuel' items = Ok (emit te g gp', emit_sigs te g gp')) by (apply emit_items_Ok; exists te, g, gp'; auto). rewrite Ei.
  do 2 eexists. split; [reflexivity|]. unfold emit, e_action_array, e_goto_array, e_expected, e_terminal_strs, e_parse_generic, e_loop_body, e_terminal, fn_decls. rewrite E1, E2, E3, E4, E5, E6.
  do 3 apply Permutation_app_head. apply Permutation_flat_map. exact Hperm.
Qed.
(** The four ways: *)
Theorem c69_cases ho fuel ts : hash_order_ok ho ->
  match expand ho fuel ts with
  | EModule M sg => exists items gp, written ts items /\ expands items gp
  | ECompileError => (forall items, ~ written ts items) /\ ~ ill_formed ts
  | ESyntaxPanic => ill_formed ts
  | EPanic p => exists items, written ts items /\ expansion_panics items p
  | EFuel => True
  end.
Proof.
  intro Hho. unfold expand_tokens. destruct (p_parser pty pex ppa ts) as [items r| | |] eqn:E.
  - destruct (c41_accepts_only_syntax _ _ _ Hsyn _ _ _ E) as [-> Hw]. destruct (emit_items ho fuel items) as [[M sg]|p|] eqn:Ei; [| |exact Logic.I].
    + apply emit_items_Ok in Ei. destruct Ei as (te & g & gp & _ & _ & Hm & _). exists items, gp. split; [exact Hw|]. exists ho, fuel. auto.
    + apply emit_items_Panic in Ei. exists items. split; [exact Hw|]. exists ho, fuel. auto.
  - apply (c44_errors_otherwise _ _ _ Hsyn). exact E.
  - apply (c44_panics_only _ _ _ Hsyn). exact E.
  - exact Logic.I.
Qed.

(** *** If the macro call with the grammar [items] becomes a module and it compiles, its parsers work. *)
Variables (ts : list ttree) (items : list (grammar_item A)) (ho : hash_order) (fuel : nat) (M : list (item A)) (sg : sigs) (te : token_enum).
Hypothesis Hwritten : written ts items.
Hypothesis Hho : hash_order_ok ho.
Hypothesis Hexpand : expand ho fuel ts = EModule M sg.
Hypothesis Hte : declared_tokens items = [te].
Lemma expanded : exists g gp, expands items gp /\ named items te g /\ M = emit te g gp /\ sg = emit_sigs te g gp.
Proof.
  pose proof Hexpand as H. unfold expand_tokens in H. rewrite (c41_reads_syntax _ _ _ Hsyn _ _ Hwritten) in H.
  destruct (emit_items ho fuel items) as [[M0 sg0]| |] eqn:E; try discriminate. injection H as -> ->. apply emit_items_Ok in E.
  destruct E as (te' & g & gp & H1 & H2 & Hm & -> & ->). assert (te' = te) by congruence. subst te'. exists g, gp. split; [exists ho, fuel; auto|auto].
Qed.
Hypothesis Hnames : distinct_names items.
Hypothesis Hplain : plain_patterns items.
Hypothesis Hown : own_token items te.
Variable U : user_types A.
Hypothesis Hcompiles : module_ok M sg U.

Section Pure.
Context {E V W I : Type}.
Variable part : rval -> V.
Variable uact : A -> list (string * val E V) -> W -> option (V * W).
Variable next : I -> option (rval + E) * I.
Variable N : ast_non_terminal A.
Hypothesis HN : In N (declared_nts items).
Hypothesis Hpub : an_pub N = true.
Notation parse_call := (call_fn M (pure_user part uact next)).
Theorem c69_value n d it w v it' w' : parse_call n (4 + d) (an_name N) "parse" [VIter] (it, w) = CVal (ok_val v) [VIter] (it', w') ->
  exists t, utree_of (nts items) (class items) t (ASNonTerminal (an_name N)) /\
    feeds_then next it (uyield t) None it' /\
    ueval (nts items) (fields items part) (on_bindings uact) t w = Some (BVal v, w').
Proof.
  destruct expanded as (g & gp & He & Hn & EM & Es). rewrite EM. rewrite EM, Es in Hcompiles.
  exact (c68_value items te g gp Hnames Hplain He Hn Hown U Hcompiles part uact next N HN Hpub n d it w v it' w').
Qed.
Theorem c69_sentences d it w toks it' : ulr1_grammar (nts items) -> tails_plain (nts items) ->
  (forall a l w, uact a l w <> None) -> feeds_then next it toks None it' ->
  sentence (nts items) (class items) (an_name N) toks <->
  exists n v w', parse_call n (4 + d) (an_name N) "parse" [VIter] (it, w) = CVal (ok_val v) [VIter] (it', w').
Proof.
  destruct expanded as (g & gp & He & Hn & EM & Es). rewrite EM. rewrite EM, Es in Hcompiles.
  exact (c68_sentences items te g gp Hnames Hplain He Hn Hown U Hcompiles part uact next N HN Hpub d it w toks it').
Qed.
(** [parse] decides, for tokens of the token type if rustc is right that the patterns cover it. *)
Theorem c69_decides (token : rval -> Prop) d it w toks it' : ulr1_grammar (nts items) -> tails_plain (nts items) -> all_productive (nts items) ->
  (forall rs, ut_covers U rs (TUser (te_type_name te)) -> forall tok, token tok -> exists r, In r rs /\ rmatch r tok <> None) ->
  (forall a l w, uact a l w <> None) -> feeds_then next it toks None it' -> (forall tok, In tok toks -> token tok) ->
  (sentence (nts items) (class items) (an_name N) toks /\
   exists n v w', parse_call n (4 + d) (an_name N) "parse" [VIter] (it, w) = CVal (ok_val v) [VIter] (it', w')) \/
  (~ sentence (nts items) (class items) (an_name N) toks /\
   exists n pre post found expected it2 w', toks = pre ++ post /\
     parse_call n (4 + d) (an_name N) "parse" [VIter] (it, w) = CVal (err_val found expected) [VIter] (it2, w') /\
     sentence_prefix (nts items) (class items) (an_name N) pre /\
     match post with
     | [] => found = "end-of-input"
     | tok :: _ => class items tok = Some found /\ ~ sentence_prefix (nts items) (class items) (an_name N) (pre ++ [tok])
     end).
Proof.
  destruct expanded as (g & gp & He & Hn & EM & Es). rewrite EM. rewrite EM, Es in Hcompiles. intros Hlr Htp Hall Hcov Htot Hfd Htok.
  apply (c68_decides items te g gp Hnames Hplain He Hn Hown U Hcompiles part uact next N HN Hpub d it w toks it' Hlr Htp Hall Htot Hfd).
  intros tok Hin. destruct (proj1 (c68_exactly items te g gp Hnames Hplain He Hn Hown U) Hcompiles) as [_ _ _ [_ _ P3 _]].
  destruct (Hcov _ P3 tok (Htok tok Hin)) as (r & Hr & Hm). apply in_map_iff in Hr. destruct Hr as (c & <- & Hc). exact (matched_class items Hplain tok c Hc Hm).
Qed.
End Pure.
Theorem c69_no_panic N {E V St} (X : user A E V St) n d u k u' (token : rval -> Prop) : In N (declared_nts items) -> an_pub N = true ->
  (forall v tok v', us_next X v = (Some (Some (inl tok)), v') -> token tok) ->
  (forall rs, ut_covers U rs (TUser (te_type_name te)) -> forall tok, token tok -> exists r, In r rs /\ rmatch r tok <> None) ->
  (forall a l u, fst (us_action X a l u) <> Returned) ->
  call_fn M X n (4 + d) (an_name N) "parse" [VIter] u = CPanic k u' -> k = KUser.
Proof.
  destruct expanded as (g & gp & He & Hn & EM & Es). rewrite EM. rewrite EM, Es in Hcompiles.
  exact (c68_no_panic items te g gp Hnames Hplain He Hn Hown U Hcompiles N X n d u k u' token).
Qed.
End Program.

(** ** A case, from tokens to decisions:
    [enum Token { "n" => Token::N(<usize>), "+" => Token::Plus }
     pub Sum: usize = { <s: Sum> "+" <n: "n"> => s, <n: "n"> => n };] *)
Definition sum_tokens : list ttree :=
  [TIdent "enum"; TIdent "Token";
   TGroup DBrace ([str "n"] ++ arrow ++ [TIdent "Token"] ++ dc ++ [TIdent "N"; TGroup DParen [lt; TIdent "usize"; gt]; cmma] ++
                  [str "+"] ++ arrow ++ [TIdent "Token"] ++ dc ++ [TIdent "Plus"]);
   TIdent "pub"; TIdent "Sum"; colon; TIdent "usize"; eqs;
   TGroup DBrace ([lt; TIdent "s"; colon; TIdent "Sum"; gt; str "+"; lt; TIdent "n"; colon; str "n"; gt] ++ arrow ++ [TIdent "s"; cmma] ++
                  [lt; TIdent "n"; colon; str "n"; gt] ++ arrow ++ [TIdent "n"]); semi].
Definition sum_items : list (grammar_item string) :=
  [tokens [val_tok "n" "Token::N" "usize"; unit_tok "+" "Token::Plus"];
   rule true "Sum" "usize" [(["s" ::= #"Sum"; $"+"; "n" ::= $"n"], "s"); (["n" ::= $"n"], "n")]].
Definition sum_te : token_enum := the_tokens sum_items.
Definition sum_nt : ast_non_terminal string := nth 0 (declared_nts sum_items) {| an_pub := false; an_name := ""; an_type := ""; an_productions := [] |}.
Definition sum_types : user_types string :=
  {| ut_action := fun a vs t => assoc_get a vs = Some t;
     ut_impl := fun tr t => tr <> "Default" /\ t = "Token";
     ut_tuple := fun c ts t => c = "Token::N" /\ ts = [TInt Usize] /\ t = TUser "Token";
     ut_struct := fun _ _ _ => False;
     ut_const := fun c t => c = "Token::Plus" /\ t = TUser "Token";
     ut_lit := fun _ _ => False;
     ut_covers := fun rs t => t = TUser "Token" /\ incl [RPPath "Token::Plus"; RPTupleStruct "Token::N" [RPWild]] rs |}.
Inductive sum_token : rval -> Prop := st_plus : sum_token (RVUnit "Token::Plus") | st_n : forall x, sum_token (RVCtor "Token::N" [x]).

Lemma sum_written : items_syntax (parses toy_type) (parses toy_expr) (parses toy_path) (expr_before toy_expr) sum_tokens sum_items.
Proof. apply (c41_accepts_only_syntax _ _ _ toy_syn sum_tokens sum_items []). vm_compute. reflexivity. Qed.
Lemma sum_names : distinct_names sum_items. Proof. one_name. Qed.
Lemma sum_plain : tails_plain (declared_nts sum_items).
Proof. apply (tails_check_plain _ ["Sum"] ["Sum"]). vm_compute. reflexivity. Qed.
Lemma sum_productive : all_productive (declared_nts sum_items).
Proof. assert (H : uproductive (declared_nts sum_items) "Sum") by (prod_nt 1). intros N [<-|[]]. exact H. Qed.
Lemma sum_lr1 : ulr1_grammar (declared_nts sum_items).
Proof.
  destruct (automaton sum_items) as [[[[g tbl] states] entries]| |] eqn:E; [|vm_compute in E; discriminate..].
  eapply automaton_clean; [exact sum_names|exact sum_plain|exact E|]. vm_compute in E. injection E as <- <- <- <-. vm_compute. reflexivity.
Qed.
Lemma sum_own : own_token sum_items sum_te.
Proof. constructor; [intros N HN _; each HN; cbn; split; discriminate|cbn; intuition discriminate]. Qed.
Lemma sum_promises : promises sum_items sum_te sum_types.
Proof.
  constructor.
  - intros N pr vs HN Hpr Hv. each HN; each Hpr; cbn [ap_symbols ap_action] in *; vars Hv; reflexivity.
  - intros c Hc. each Hc; cbn; [|apply po_path; cbn; tauto]. eapply po_enum; [cbn; tauto|]. constructor; [apply (po_choose sum_types "usize")|constructor].
  - split; [reflexivity|]. intros r Hr. cbn in *. tauto.
  - intros t Hw E. exfalso. assert (t = "usize") by (destruct Hw as [(N & HN & <-)|(c & Hc & Ht)]; [each HN; reflexivity|each Hc; each Ht; reflexivity]). subst t. discriminate E.
Qed.
Definition sum_named : named sum_items sum_te (lowered_or_nil sum_items).
Proof. split; [left; reflexivity|vm_compute; reflexivity]. Qed.
Lemma sum_used : well_used sum_items sum_te (lowered_or_nil sum_items) sum_types.
Proof.
  constructor.
  - apply usable_iff. vm_compute. reflexivity.
  - constructor; [intros N HN _; each HN; cbn; split; [intuition discriminate|discriminate]|cbn; intuition discriminate].
  - constructor; [intros N HN _; each HN; reflexivity|split; [constructor|intros a []]|discriminate].
  - exact sum_promises.
Qed.
Example case_c69_expands : exists M sg, expand_tokens toy_type toy_expr toy_path ho_id 100 sum_tokens = EModule M sg.
Proof.
  assert (H : match expand_tokens toy_type toy_expr toy_path ho_id 100 sum_tokens with EModule _ _ => true | _ => false end = true) by (vm_compute; reflexivity).
  destruct (expand_tokens _ _ _ _ _ _) as [M sg| | | |]; try discriminate H. eauto.
Qed.
Section CaseC69.
Variables (M : list (item string)) (sg : sigs).
Hypothesis H : expand_tokens toy_type toy_expr toy_path ho_id 100 sum_tokens = EModule M sg.
Lemma case_c69_compiles : module_ok M sg sum_types.
Proof.
  destruct (expanded toy_type toy_expr toy_path toy_syn sum_tokens sum_items ho_id 100 M sg sum_te sum_written ho_id_ok H eq_refl) as (g & gp & He & Hn & -> & ->).
  assert (Eg : g = lowered_or_nil sum_items) by (destruct Hn as [_ Hn], sum_named as [_ Hn']; congruence). subst g.
  apply (c68_exactly sum_items sum_te (lowered_or_nil sum_items) gp sum_names eq_refl He Hn sum_own sum_types). exact sum_used.
Qed.
(** [n], [n + n], .. are accepted, other sequences of tokens are errors. *)
Example case_c69 (uact : string -> list (string * val string rval) -> list nat -> option (rval * list nat)) toks :
  (forall a l w, uact a l w <> None) -> (forall tok, In tok toks -> sum_token tok) ->
  (sentence (nts sum_items) (class sum_items) "Sum" toks /\
   exists n v w', call_fn M (pure_user (fun v => v) uact vec_next) n 4 "Sum" "parse" [VIter] (map inl toks, []) = CVal (ok_val v) [VIter] ([], w')) \/
  (~ sentence (nts sum_items) (class sum_items) "Sum" toks /\
   exists n found expected it2 w', call_fn M (pure_user (fun v => v) uact vec_next) n 4 "Sum" "parse" [VIter] (map inl toks, []) = CVal (err_val found expected) [VIter] (it2, w')).
Proof.
  intros Htot Htok.
  destruct (c69_decides toy_type toy_expr toy_path toy_syn sum_tokens sum_items ho_id 100 M sg sum_te sum_written ho_id_ok H eq_refl sum_names eq_refl sum_own sum_types case_c69_compiles
    (fun v => v) uact vec_next sum_nt (or_introl eq_refl) eq_refl sum_token 0 (map inl toks) [] toks [] sum_lr1 sum_plain sum_productive) as [Hs|(Hns & n & _ & _ & f & x & it2 & w' & _ & Hc & _)]; auto.
  - intros rs [_ Hincl] tok Ht. destruct Ht as [|x].
    + exists (RPPath "Token::Plus"). split; [apply Hincl; cbn; tauto|]. cbn. discriminate.
    + exists (RPTupleStruct "Token::N" [RPWild]). split; [apply Hincl; cbn; tauto|]. cbn. discriminate.
  - exists []. split; [|reflexivity]. clear. induction toks as [|t toks IH]; [constructor|]. econstructor; [reflexivity|exact IH].
  - right. split; [exact Hns|]. exists n, f, x, it2, w'. exact Hc.
Qed.
End CaseC69.
