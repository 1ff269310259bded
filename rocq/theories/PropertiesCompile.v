(** * PropertiesCompile: C68, if the emitted module compiles, its parsers work

    C64 is about grammars with [usable_names]; C67 about grammars that moreover keep [free_types].  Both conditions are
    on the user, and parsegen checks neither.  But rustc does: if the module compiles, they hold. *)
From Coq Require Import NArith Ascii.
From Verif Require Import NamesProofs StageProofs PatternProofs EmitModule EmitRun EmitProofs EmitBinds EmitCompile PropertiesHygiene.
From Verif Require Export PropertiesEmit PropertiesTyped.
Local Open Scope string_scope. Local Open Scope list_scope.

(** Names as they can be written in a program in which the token type is the user's own type: identifiers are not empty,
    and the scope declares the token type, so it declares no other type with its name. *)
Record own_token {A} (items : list (grammar_item A)) (te : token_enum) : Prop := {
  ow_names : forall N, In N (declared_nts items) -> an_pub N = true -> an_name N <> "" /\ an_name N <> te_type_name te;
  ow_token : ~ In (te_type_name te) (own_types ++ prelude_types ++ ["R"; "E"])
}.
(** Everything the user has to see to *)
Record well_used {A} (items : list (grammar_item A)) (te : token_enum) (g : grammar (lexpr A)) (U : user_types A) : Prop := {
  wu_names : usable_names items te g;
  wu_types : free_types items te;
  wu_typable : typable items te;
  wu_promises : promises items te U
}.

Section Compile.
Context {A : Type}.
Variables (items : list (grammar_item A)) (te : token_enum) (g : grammar (lexpr A)) (gp : generated (lexpr A)).
Hypothesis Hnames : distinct_names items.
Hypothesis Hplain : plain_patterns items.
Hypothesis Hex : expands items gp.
Hypothesis Hnamed : named items te g.
Hypothesis Hown : own_token items te.
Variable U : user_types A.
Notation module := (emit te g gp).
Notation compiles := (module_ok module (emit_sigs te g gp) U).

(** *** Names: exactly as C52 and C65 need them *)
Theorem c68_names : compiles -> usable_names items te g /\ free_types items te.
Proof.
  intro H. destruct (c67_names items te g gp Hnames Hex Hnamed U H) as [H1 H2].
  pose proof (fns_length items te g gp Hex Hnamed) as Hl.
  assert (Hall : forall i, In i module -> item_ok module (emit_sigs te g gp) U i) by (apply Forall_forall; apply H).
  assert (Hpre : forall N, In N (nts items) -> an_pub N = true -> ~ taken te g (an_name N) /\ ~ In (an_name N) ["Some"; "None"; "Ok"; "Err"]).
  { intros N HN Hp. split; [exact (H1 N HN Hp)|]. intro Hin.
    assert (Hg : In (e_parse_generic te gp) module) by (unfold emit; rewrite !in_app_iff; cbn; tauto).
    apply (EmitCompile.generic_names te g gp U (Hall _ Hg) Hl _ Hin). unfold value_items. rewrite !in_app_iff. right. right.
    assert (Hn : In (an_name N) (map pr_name (gp_parsers gp))) by (apply (entry_name_In items gp Hnames Hex); eauto). tauto. }
  pose proof (resolvable_of items te g gp Hnames Hex Hnamed Hpre H2) as Hev.
  pose proof (prelude_free te g gp U Hev Hall) as Hfree.
  assert (Hout : forall x, In x (te_type_name te :: prelude_types) -> ~ In x (type_items gp)).
  { intros x [<-|Hx]; [|exact (Hfree x Hx)]. intro Hin. unfold type_items in Hin. apply in_app_or in Hin. destruct Hin as [Hin|Hin].
    - apply (ow_token _ _ Hown). apply in_or_app. left. exact Hin.
    - apply (entry_name_In items gp Hnames Hex) in Hin. destruct Hin as (N & HN & Hp & En). destruct (ow_names _ _ Hown N HN Hp) as [_ E]. congruence. }
  split; [split; [|split; [exact H2|]]|constructor; [|exact (ow_token _ _ Hown)]].
  - intros N HN Hp. split; [apply (ow_names _ _ Hown N HN Hp)|exact (Hpre N HN Hp)].
  - intros x Hx. destruct (binder_pops items te g gp Hnames Hex Hnamed x Hx) as (f & m & e & Hf & Hin). exact (no_value_stack te g gp U Hev Hout Hall f m x e Hf Hin).
  - intros N HN Hp. split; [|apply (ow_names _ _ Hown N HN Hp)]. intro Hin. apply (Hfree _ Hin). unfold type_items. apply in_or_app. right.
    apply (entry_name_In items gp Hnames Hex). eauto.
Qed.
(** *** The module compiles exactly if the user has seen to everything *)
Theorem c68_exactly : compiles <-> well_used items te g U.
Proof.
  split.
  - intro H. destruct (c68_names H) as [H1 H2]. destruct (c67_needs items te g gp Hnames Hplain Hex Hnamed U H1 H2 H) as [H3 H4]. constructor; assumption.
  - intros [H1 H2 H3 H4]. exact (c67_well_typed items te g gp Hnames Hplain Hex Hnamed U H1 H2 H3 H4).
Qed.

(** *** If it compiles, it works *)
Hypothesis Hc : compiles.
Let Hu : usable_names items te g := proj1 (c68_names Hc).

(** Its [parse] functions do what the model of Effects.v does. *)
Theorem c68_parse pr {E V St} (X : user A E V St) n d u : In pr (gp_parsers gp) ->
  call_fn module X n (4 + d) (pr_name pr) "parse" [VIter] u = call_of (x_parse gp (module_env gp X) n pr u).
Proof. exact (c64_parse items te g gp Hnames Hex Hnamed Hu pr X n d u). Qed.
(** There is one for every public non-terminal. *)
Theorem c68_entries N : In N (declared_nts items) -> an_pub N = true -> exists pr, In pr (gp_parsers gp) /\ pr_name pr = an_name N.
Proof.
  intros HN Hp. assert (Hn : In (an_name N) (map pr_name (gp_parsers gp))) by (apply (entry_name_In items gp Hnames Hex); eauto).
  apply in_map_iff in Hn. destruct Hn as (pr & E & Hpr). eauto.
Qed.

Section Pure.
Context {E V W I : Type}.
Variable part : rval -> V.
Variable uact : A -> list (string * val E V) -> W -> option (V * W).
Variable next : I -> option (rval + E) * I.
Variable N : ast_non_terminal A.
Hypothesis HN : In N (declared_nts items).
Hypothesis Hpub : an_pub N = true.
Notation parse_call := (call_fn module (pure_user part uact next)).
Theorem c68_value n d it w v it' w' : parse_call n (4 + d) (an_name N) "parse" [VIter] (it, w) = CVal (ok_val v) [VIter] (it', w') ->
  exists t, utree_of (nts items) (class items) t (ASNonTerminal (an_name N)) /\
    feeds_then next it (uyield t) None it' /\
    ueval (nts items) (fields items part) (on_bindings uact) t w = Some (BVal v, w').
Proof. destruct (c68_entries N HN Hpub) as (pr & Hpr & <-). exact (c64_value items te g gp Hnames Hex Hnamed Hu part uact next pr Hpr Hplain n d it w v it' w'). Qed.
Theorem c68_sentences d it w toks it' : ulr1_grammar (nts items) -> tails_plain (nts items) ->
  (forall a l w, uact a l w <> None) -> feeds_then next it toks None it' ->
  sentence (nts items) (class items) (an_name N) toks <->
  exists n v w', parse_call n (4 + d) (an_name N) "parse" [VIter] (it, w) = CVal (ok_val v) [VIter] (it', w').
Proof. destruct (c68_entries N HN Hpub) as (pr & Hpr & <-). exact (c64_exact items te g gp Hnames Hex Hnamed Hu part uact next pr Hpr Hplain d it w toks it'). Qed.
Theorem c68_decides d it w toks it' : ulr1_grammar (nts items) -> tails_plain (nts items) -> all_productive (nts items) ->
  (forall a l w, uact a l w <> None) -> feeds_then next it toks None it' -> (forall tok, In tok toks -> class items tok <> None) ->
  (sentence (nts items) (class items) (an_name N) toks /\
   exists n v w', parse_call n (4 + d) (an_name N) "parse" [VIter] (it, w) = CVal (ok_val v) [VIter] (it', w')) \/
  (~ sentence (nts items) (class items) (an_name N) toks /\
   exists n pre post found expected it2 w', toks = pre ++ post /\
     parse_call n (4 + d) (an_name N) "parse" [VIter] (it, w) = CVal (err_val found expected) [VIter] (it2, w') /\
     sentence_prefix (nts items) (class items) (an_name N) pre /\
     match post with
     | [] => found = "end-of-input"
     | tok :: _ => class items tok = Some found /\ ~ sentence_prefix (nts items) (class items) (an_name N) (pre ++ [tok])
     end).
Proof. destruct (c68_entries N HN Hpub) as (pr & Hpr & <-). exact (c64_decides items te g gp Hnames Hex Hnamed Hu part uact next pr Hpr Hplain d it w toks it'). Qed.
End Pure.

(** And they do not panic, unless the user's code does: rustc's check that the arms of a [match] are exhaustive is only
    needed to be right about the token type. *)
Lemma matched_class tok c : In c (token_entries items) -> rmatch (pattern_ignore (cv_to c)) tok <> None -> class items tok <> None.
Proof.
  intros Hin Hm Hnone. unfold token_class in Hnone. pose proof (token_functions_spec (token_entries items) tok Hplain) as H.
  destruct (first_match (token_entries items) tok) as [[s fs]|]; [discriminate|]. destruct H as [H _]. unfold token_terminal_idx in H.
  assert (Harms : forall k, option_map fst (match_arms (map (fun '(i, c) => (pattern_ignore (cv_to c), i)) (combine (seq k (List.length (token_entries items))) (token_entries items))) tok) <> None).
  { clear H. revert Hin. induction (token_entries items) as [|c' l IH]; [intros []|]. intros Hin k. cbn. destruct (rmatch (pattern_ignore (cv_to c')) tok) eqn:E; [discriminate|].
    destruct Hin as [->|Hin]; [congruence|]. apply (IH Hin). }
  apply (Harms 0). exact H.
Qed.
Theorem c68_no_panic N {E V St} (X : user A E V St) n d u k u' (token : rval -> Prop) : In N (declared_nts items) -> an_pub N = true ->
  (forall v tok v', us_next X v = (Some (Some (inl tok)), v') -> token tok) ->
  (forall rs, ut_covers U rs (TUser (te_type_name te)) -> forall tok, token tok -> exists r, In r rs /\ rmatch r tok <> None) ->
  (forall a l u, fst (us_action X a l u) <> Returned) ->
  call_fn module X n (4 + d) (an_name N) "parse" [VIter] u = CPanic k u' -> k = KUser.
Proof.
  intros HN Hp Htok Hcov Hnr H. destruct (c68_entries N HN Hp) as (pr & Hpr & En). rewrite <- En in H.
  destruct (c64_panics items te g gp Hnames Hex Hnamed Hu pr X n d u k u' Hpr Hplain Hnr H) as [->|(_ & tok & v & v' & Hn & Hno)]; [reflexivity|exfalso].
  destruct (proj1 c68_exactly Hc) as [_ _ _ [_ _ P3 _]]. destruct (Hcov _ P3 tok (Htok _ _ _ Hn)) as (r & Hr & Hm).
  apply in_map_iff in Hr. destruct Hr as (c & <- & Hin). exact (matched_class tok c Hin Hm Hno).
Qed.
End Compile.

(** ** Cases *)
Lemma arith_own : own_token arith arith_te.
Proof.
  constructor.
  - intros N HN Hp. each HN; try discriminate Hp. cbn. split; discriminate.
  - cbn. intuition discriminate.
Qed.
Example case_c68 U : module_ok arith_module (emit_sigs arith_te lowered_arith arith_gp) U <-> well_used arith arith_te lowered_arith U.
Proof. destruct arith_parser as (_ & Hplain & _ & _). exact (c68_exactly arith arith_te lowered_arith arith_gp arith_names Hplain arith_expands arith_named arith_own U). Qed.
(** A token of the arithmetic example *)
Inductive arith_token : rval -> Prop :=
| at_unit : forall c, In c ["Token::LParen"; "Token::RParen"; "Token::Plus"; "Token::Star"] -> arith_token (RVUnit c)
| at_int : forall x, arith_token (RVCtor "Token::Int" [x]).
Example case_c68_no_panic {E V St} (X : user string E V St) n d u k u' :
  (forall v tok v', us_next X v = (Some (Some (inl tok)), v') -> arith_token tok) -> (forall a l u, fst (us_action X a l u) <> Returned) ->
  call_fn arith_module X n (4 + d) "E" "parse" [VIter] u = CPanic k u' -> k = KUser.
Proof.
  intros Htok Hnr H. destruct arith_parser as (_ & Hplain & _ & _).
  eapply (c68_no_panic arith arith_te lowered_arith arith_gp arith_names Hplain arith_expands arith_named arith_own arith_types case_c67
    (nth 0 (declared_nts arith) {| an_pub := false; an_name := ""; an_type := ""; an_productions := [] |}) X n d u k u' arith_token); [left; reflexivity|reflexivity|exact Htok| |exact Hnr|exact H].
  intros rs [_ Hincl] tok Ht. destruct Ht as [c Hc|x].
  - exists (RPPath c). split; [apply Hincl; each Hc; cbn; tauto|]. cbn. rewrite String.eqb_refl. discriminate.
  - exists (RPTupleStruct "Token::Int" [RPWild]). split; [apply Hincl; cbn; tauto|]. cbn. discriminate.
Qed.

(** Grammars that parsegen accepts and rustc does not, whatever the user's types: an entry point called [Option], and a
    binder called [value_stack]. *)
Definition hides_option : list (grammar_item string) := [ tokens [unit_tok "a" "Token::A"]; rule true "Option" "usize" [([$"a"], "1")] ].
Definition hides_stack : list (grammar_item string) := [ tokens [val_tok "a" "Token::A" "usize"]; rule true "S" "usize" [(["value_stack" ::= $"a"], "value_stack")] ].
Definition never_compiles (items : list (grammar_item string)) : Prop :=
  distinct_names items /\ plain_patterns items /\ expands items (module_of items) /\ named items (the_tokens items) (lowered_or_nil items) /\ own_token items (the_tokens items) /\
  forall U, ~ module_ok (emit (the_tokens items) (lowered_or_nil items) (module_of items)) (emit_sigs (the_tokens items) (lowered_or_nil items) (module_of items)) U.
Lemma never_ok items : distinct_names items -> plain_patterns items -> expands items (module_of items) -> named items (the_tokens items) (lowered_or_nil items) -> own_token items (the_tokens items) ->
  ~ (usable_names items (the_tokens items) (lowered_or_nil items) /\ free_types items (the_tokens items)) -> never_compiles items.
Proof.
  intros H1 H2 H3 H4 H5 H6. unfold never_compiles. split; [exact H1|]. split; [exact H2|]. split; [exact H3|]. split; [exact H4|]. split; [exact H5|].
  intros U HU. apply H6. exact (c68_names items _ _ _ H1 H3 H4 H5 U HU).
Qed.
Ltac plain_own := constructor; [let HN := fresh in intros ? HN _; each HN; cbn; (split; discriminate)|cbn; intuition discriminate].
Theorem c68_refuted : never_compiles hides_option /\ never_compiles hides_stack.
Proof.
  split; (apply never_ok; [one_name|vm_compute; reflexivity|expand_it|split; [left; reflexivity|vm_compute; reflexivity]|plain_own|]).
  - intros [_ [H _]]. destruct (H _ (or_introl eq_refl) eq_refl) as [H' _]. apply H'. left. reflexivity.
  - intros [(_ & _ & H) _]. apply (H "value_stack"); [|reflexivity]. do 4 eexists. split; [left; reflexivity|]. split; [left; reflexivity|]. split; [left; reflexivity|]. split; reflexivity.
Qed.
