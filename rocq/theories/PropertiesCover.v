(** * PropertiesCover: C75, C76, exactly which sentences a parser accepts, and which parse tree it chooses

    Vocabulary: CoverSpec.v ([known_tree]: at each node of a parse tree the token that follows is among the known lookaheads;
    [chosen_tree]: and nothing else is to be done there),
    ComputedSpec.v ([computed]: the sets src/first.rs computes; [ffirst]: lookaheads from them), USpec.v, PropSpec.v. *)
From Verif Require Import UserPrefix UserLr1 InterleaveProofs MemoryProofs LrProofs ComputedProofs AddedProofs CoverProofs PropertiesHygiene.
From Verif Require Export CoverSpec PropertiesClasses.
Local Open Scope string_scope. Local Open Scope list_scope.

Section Any.
Context {A : Type}.
Variable items : list (grammar_item A).
Variable gp : generated (lexpr A).
Variable pr : parser_struct.
Hypothesis Hp : parser_of items gp pr.
Notation tree t := (utree_of (nts items) (class items) t (ASNonTerminal (pr_name pr))).
(** Lookaheads as src/first.rs computes them. *)
Notation known t := (known_tree (nts items) (class items) (ffirst (computed items)) (pr_name pr) t).
Notation chosen t := (chosen_tree (nts items) (class items) (ffirst (computed items)) (pr_name pr) t).

Lemma sets_sound l la x : ffirst (computed items) l la x -> uin_first (nts items) l la x.
Proof.
  apply ffirst_sound. destruct (expands_expansion items gp (proj1 (proj2 (proj2 Hp)))) as (g & tbl & states & entries & He).
  exact (stages_sets items g tbl states entries (proj1 Hp) (expansion_stages items _ _ _ _ _ He)).
Qed.
Lemma entry_declared : exists N, In N (nts items) /\ an_pub N = true /\ an_name N = pr_name pr.
Proof.
  assert (Hn : In (pr_name pr) (map pr_name (gp_parsers gp))) by (apply in_map; apply Hp).
  apply (entry_name_In items gp (proj1 Hp) (proj1 (proj2 (proj2 Hp)))) in Hn. exact Hn.
Qed.

(** ** C76: every accepted grammar

    [parse] returns what walking the chosen tree gives.  The lexer and the actions share a state. *)
Theorem c76_language {E V St} (inj : rval -> V) (usem : A -> list (string * bval V) -> St -> completion V * St)
  (next : St -> option (option (rval + E)) * St) (clone : E -> St -> option E * St) u v u' : no_return usem ->
  (exists n, x_parse gp (user_xenv gp inj usem next clone) n pr u = inr (XOutcome (POk v) u')) <->
  (exists t tk0 u0, tree t /\ chosen t /\ next u = (Some tk0, u0) /\ plays (nts items) (fields items inj) usem next t tk0 u0 (BVal v) None u').
Proof.
  intro Hnr. split.
  - intros (n & H). apply (proj1 (c59_effects items gp pr Hp E V St inj usem next clone Hnr n u)) in H. unfold einit in H.
    destruct (next u) as [[tk0|] u0] eqn:En; [|exfalso; clear - H; inversion H].
    destruct (built_ok _ _ _ _ _ _ _ _ _ tk0 u0 _ _ _ _ H (built_nil _ _ _ _ _ _ _ tk0 u0)) as (t & Ht & Hplay & Hc). exists t, tk0, u0. auto.
  - intros (t & tk0 & u0 & Ht & Hk & En & Hplay). destruct (cover_entry _ _ (map cv_from (cs items)) _ _ _ _ clone _ t tk0 u0 v u' Ht Hplay Hk) as (n & Hm).
    exists n. apply (proj1 (c59_effects items gp pr Hp E V St inj usem next clone Hnr n u)). unfold einit. rewrite En. exact Hm.
Qed.
(** At every moment the trees built so far are chosen as far as one can see: the last lookahead is the current token. *)
Theorem c76_running {E V St} (inj : rval -> V) (usem : A -> list (string * bval V) -> St -> completion V * St)
  (next : St -> option (option (rval + E)) * St) (clone : E -> St -> option E * St) n u st : no_return usem ->
  x_parse gp (user_xenv gp inj usem next clone) n pr u = inl st ->
  exists tk0 u0 forest syms, next u = (Some tk0, u0) /\ uforest_of (nts items) (class items) forest syms /\
    plays_all (nts items) (fields items inj) usem next forest tk0 u0 (rev (map payload (xs_values st))) (xs_token st) (xs_user st) /\
    forall la, klook (class items) (xs_token st) la ->
      covered_all (nts items) (class items) (kreduces_by (nts items) (ffirst (computed items)) (pr_name pr)) [] la forest syms.
Proof.
  intros Hnr H. destruct (effects_machine items gp pr Hp E V St inj usem next clone Hnr n u) as (y & Hm & _ & Hy). rewrite H in Hy.
  destruct y as [c|o]; [|contradiction]. destruct Hy as (E1 & E2 & E3 & _). unfold einit in Hm.
  destruct (next u) as [[tk0|] u0] eqn:En; [|exfalso; inversion Hm].
  destruct (built_moves _ _ _ _ _ _ _ _ _ tk0 u0 _ _ _ Hm (built_nil _ _ _ _ _ _ _ tk0 u0)) as (forest & H1 & H2 & H3).
  exists tk0, u0, forest, (rev (map fst (ec_stack c))). rewrite E1, E2, E3. auto.
Qed.
(** At most one tree is chosen for some tokens, however many parse trees they have. *)
Theorem c76_unique t t' : tree t -> tree t' -> uyield t = uyield t' -> chosen t -> chosen t' -> t = t'.
Proof.
  apply chosen_unique. intros g la n p m q (H1 & _) (H2 & _). destruct entry_declared as (N & HN & Hpub & Epr).
  pose proof (proj1 (c60_conflicts items (proj1 Hp)) gp (proj1 (proj2 (proj2 Hp))) N g HN Hpub) as Hno. rewrite Epr in Hno.
  destruct (string_dec n m) as [->|Hne]; [|exfalso; apply Hno; left; exists n, p, m, q, la; repeat split; auto; congruence].
  destruct (Nat.eq_dec p q) as [->|Hne]; [auto|exfalso; apply Hno; left; exists m, p, m, q, la; repeat split; auto; congruence].
Qed.
(** With actions that do not panic, on a stream of tokens that ends. *)
Theorem c76_sentences {E V W I} (inj : rval -> V) (usem : A -> list (string * bval V) -> W -> option (V * W)) (next : I -> option (rval + E) * I) it w toks it' :
  (forall a b w, usem a b w <> None) -> feeds_then next it toks None it' ->
  (exists v w', returns gp inj usem next pr it w {| oc_result := POk v; oc_iter := it'; oc_world := w' |}) <->
  (exists t, tree t /\ uyield t = toks /\ chosen t).
Proof.
  intros Htot (it1 & Hf & Hend). destruct (next it) as [tk0 it0] eqn:En. split.
  - intros (v & w' & n & H). apply c56_pure in H. cbn [oc_result oc_iter oc_world] in H.
    destruct (proj1 (c76_language inj (pure_sem usem) (pure_next next) pure_clone (it, w) v (it', w') (pure_no_return usem)) (ex_intro _ n H)) as (t & tk1 & u1 & Ht & Hk & En1 & Hplay).
    rewrite (pure_next_eq _ _ _ _ _ En) in En1. injection En1 as <- <-. exists t. split; [exact Ht|]. split; [|exact Hk].
    destruct (proj1 (pure_plays_feeds (nts items) (fields items inj) usem next) _ _ _ _ _ _ Hplay it En) as (it2 & Hf2 & Hn2). cbn [fst] in Hn2.
    symmetry. exact (feeds_ends _ _ _ _ _ _ _ _ Hf Hend Hf2 Hn2).
  - intros (t & Ht & <- & Hk).
    destruct (proj1 (pure_plays (nts items) (class items) (fields items inj) usem next Htot) _ _ Ht it it1 tk0 it0 w Hf En) as (b & w' & Hplay & Hb).
    destruct (Hb _ eq_refl) as (v & ->). rewrite Hend in Hplay. cbn [fst snd] in Hplay.
    destruct (proj2 (c76_language inj (pure_sem usem) (pure_next next) pure_clone (it, w) v (it', w') (pure_no_return usem))) as (n & H).
    { exists t, tk0, (it0, w). split; [exact Ht|]. split; [exact Hk|]. split; [exact (pure_next_eq _ _ _ _ _ En)|exact Hplay]. }
    exists v, w', n. apply c56_pure. exact H.
Qed.

(** ** C75: LR(1) grammars *)
Hypothesis Hlr : ulr1_grammar (nts items).
Lemma entry_lr1 : items_lr1 (nts items) (pr_name pr).
Proof. destruct entry_declared as (N & HN & Hpub & Epr). intro gamma. rewrite <- Epr. exact (Hlr N gamma HN Hpub). Qed.
(** What is known is chosen. *)
Theorem c76_lr1 t : known t <-> chosen t.
Proof. exact (known_chosen _ _ _ _ sets_sound entry_lr1 t). Qed.

(** *** The lexer and the actions share a state: what [parse] returns is what walking a tree gives whose lookaheads are all known. *)
Theorem c75_language {E V St} (inj : rval -> V) (usem : A -> list (string * bval V) -> St -> completion V * St)
  (next : St -> option (option (rval + E)) * St) (clone : E -> St -> option E * St) u v u' : no_return usem ->
  (exists n, x_parse gp (user_xenv gp inj usem next clone) n pr u = inr (XOutcome (POk v) u')) <->
  (exists t tk0 u0, tree t /\ known t /\ next u = (Some tk0, u0) /\ plays (nts items) (fields items inj) usem next t tk0 u0 (BVal v) None u').
Proof.
  intro Hnr. rewrite (c76_language inj usem next clone u v u' Hnr). split; intros (t & tk0 & u0 & H1 & H2 & H3); exists t, tk0, u0; (split; [exact H1|]); (split; [apply c76_lr1; exact H2|exact H3]).
Qed.

(** *** With actions that do not panic, on a stream of tokens that ends. *)
Theorem c75_sentences {E V W I} (inj : rval -> V) (usem : A -> list (string * bval V) -> W -> option (V * W)) (next : I -> option (rval + E) * I) it w toks it' :
  (forall a b w, usem a b w <> None) -> feeds_then next it toks None it' ->
  (exists v w', returns gp inj usem next pr it w {| oc_result := POk v; oc_iter := it'; oc_world := w' |}) <->
  (exists t, tree t /\ uyield t = toks /\ known t).
Proof.
  intros Htot Hf. rewrite (c76_sentences inj usem next it w toks it' Htot Hf). split; intros (t & H1 & H2 & H3); exists t; (split; [exact H1|]); (split; [exact H2|apply c76_lr1; exact H3]).
Qed.

(** *** All sentences are accepted as soon as the generator has every lookahead of every production ... *)
Notation complete := (all_lookaheads (nts items) (ffirst (computed items)) (pr_name pr)).
Theorem c75_complete {E V W I} (inj : rval -> V) (usem : A -> list (string * bval V) -> W -> option (V * W)) (next : I -> option (rval + E) * I) it w toks it' :
  (forall a b w, usem a b w <> None) -> feeds_then next it toks None it' -> complete ->
  (exists v w', returns gp inj usem next pr it w {| oc_result := POk v; oc_iter := it'; oc_world := w' |}) <-> sentence (nts items) (class items) (pr_name pr) toks.
Proof.
  intros Htot Hf Hall. rewrite (c75_sentences inj usem next it w toks it' Htot Hf). split.
  - intros (t & Ht & Hy & _). exists t. auto.
  - intros (t & Ht & Hy). exists t. split; [exact Ht|]. split; [exact Hy|]. apply all_covered_entry; auto.
Qed.
(** ... and only then, if each symbol derives something and each token entry that is used matches some token. *)
Theorem c75_all {E V W I} (inj : rval -> V) (usem : A -> list (string * bval V) -> W -> option (V * W)) (next : I -> option (rval + E) * I) w :
  (forall a b w, usem a b w <> None) -> (forall toks, exists it it', feeds_then next it toks None it') ->
  productive_symbols (nts items) ->
  (forall n p q s, uproduction (nts items) n p = Some q -> In (ASTerminal s) (body q) -> exists tok, class items tok = Some s) ->
  (forall toks it it', feeds_then next it toks None it' -> sentence (nts items) (class items) (pr_name pr) toks ->
     exists v w', returns gp inj usem next pr it w {| oc_result := POk v; oc_iter := it'; oc_world := w' |}) <-> complete.
Proof.
  intros Htot Hfeed Hprod Hcl. split.
  - intro Hall. apply (covered_lookaheads (nts items) (class items)); [exact Hprod|exact Hcl|]. intros t Ht.
    destruct (Hfeed (uyield t)) as (it & it' & Hf). destruct (proj1 (c75_sentences inj usem next it w (uyield t) it' Htot Hf) (Hall _ _ _ Hf (ex_intro _ t (conj Ht eq_refl)))) as (t' & Ht' & Hy & Hk).
    rewrite <- (c13_unambiguous items gp pr inj usem next Hp t' t Hlr Ht' Ht Hy). exact Hk.
  - intros Hall toks it it' Hf Hs. apply (c75_complete inj usem next it w toks it' Htot Hf Hall). exact Hs.
Qed.
(** This holds if the tails of right-hand sides are plain (C14). *)
Theorem c75_plain : tails_plain (nts items) -> complete.
Proof.
  intro Htp. destruct (expands_expansion items gp (proj1 (proj2 (proj2 Hp)))) as (g & tbl & states & entries & He).
  pose proof (proj2 (c59_lookaheads _ _ (stages_sets items g tbl states entries (proj1 Hp) (expansion_stages items _ _ _ _ _ He))) Htp) as Hex. clear He.
  assert (Hv : forall gamma lhs p k la, ulr1_valid (nts items) (pr_name pr) gamma lhs p k la -> uvalid_by (nts items) (ffirst (computed items)) (pr_name pr) gamma lhs p k la).
  { induction 1 as [|gamma lhs p k la l n q l' la' Hv IH Hl Hk Hq Hf|gamma lhs p k la l X Hv IH Hl Hk]; [constructor| |eapply ulv_move; eauto].
    eapply ulv_closure; [exact IH|exact Hl|exact Hk|exact Hq|]. destruct lhs as [m|].
    - destruct (urhs_some _ _ _ _ _ Hl) as (q0 & Hq0 & <-). replace (k + 1) with (S k) in * by (clear; lia). apply (Hex _ _ _ _ _ _ Hq0). exact Hf.
    - cbn in Hl. destruct p; [|discriminate]. injection Hl as <-. destruct k as [|k]; [|destruct k; discriminate]. cbn in Hf |- *. destruct Hf as [(t & r & _ & Hd)|(_ & ->)]; [|constructor].
      exfalso. clear - Hd. inversion Hd as [|a b c Hs]; subst. inversion Hs as [l n p q r' Hq E0]. destruct l; discriminate. }
  intros gamma n p la (l & Hl & H). exists l. split; [exact Hl|]. apply Hv. exact H.
Qed.
End Any.

(** *** C76 of the emitted code: if the module compiles, [parse] of a public non-terminal. *)
Section Emitted.
Context {A : Type}.
Variables (items : list (grammar_item A)) (te : token_enum) (g : grammar (lexpr A)) (gp : generated (lexpr A)).
Hypothesis Hnames : distinct_names items.
Hypothesis Hplain : plain_patterns items.
Hypothesis Hex : expands items gp.
Hypothesis Hnamed : named items te g.
Hypothesis Hown : own_token items te.
Variable U : user_types A.
Hypothesis Hcompiles : module_ok (emit te g gp) (emit_sigs te g gp) U.
Variable N : ast_non_terminal A.
Hypothesis HN : In N (declared_nts items).
Hypothesis Hpub : an_pub N = true.
Context {E V St : Type}.
Variable X : user A E V St.
Hypothesis Hnr : no_return (action_sem X).
Theorem c76_emitted d u v u' :
  (exists n, call_fn (emit te g gp) X n (4 + d) (an_name N) "parse" [VIter] u = CVal (ok_val v) [VIter] u') <->
  (exists t tk0 u0, utree_of (nts items) (class items) t (ASNonTerminal (an_name N)) /\ chosen_tree (nts items) (class items) (ffirst (computed items)) (an_name N) t /\
     us_next X u = (Some tk0, u0) /\ plays (nts items) (fields items (us_part X)) (action_sem X) (us_next X) t tk0 u0 (BVal v) None u').
Proof.
  destruct (c68_entries items gp Hnames Hex N HN Hpub) as (pr & Hpr & <-).
  rewrite <- (c76_language items gp pr (conj Hnames (conj Hplain (conj Hex Hpr))) (us_part X) (action_sem X) (us_next X) (us_clone X) u v u' Hnr).
  split; intros (n & H); exists n.
  - rewrite (c68_parse items te g gp Hnames Hex Hnamed Hown U Hcompiles pr X n d u Hpr) in H. unfold module_env in H.
    destruct (x_parse gp _ n pr u) as [st|[r u1]]; [discriminate|]. unfold call_of in H. cbn [xo_result xo_user] in H.
    destruct r as [x|e|f x|p]; cbn [result_val] in H; try discriminate. unfold ok_val in H. injection H as -> ->. reflexivity.
  - rewrite (c68_parse items te g gp Hnames Hex Hnamed Hown U Hcompiles pr X n d u Hpr). unfold module_env. rewrite H. reflexivity.
Qed.
End Emitted.

(** ** Cases *)
Definition unit_sem (e : string) (b : list (string * bval rval)) (w : list string) : option (rval * list string) := Some (RVTuple [], e :: w).
Lemma sem_total a b w : unit_sem a b w <> None. Proof. discriminate. Qed.
Lemma vec_feeds toks : feeds_then vec_next (map inl toks) toks None [].
Proof. exists []. split; [|reflexivity]. induction toks as [|tok toks IH]; cbn; [constructor|]. econstructor; [reflexivity|exact IH]. Qed.

(** [hidden] (Findings.v) is LR(1), but its sentence [a b c] has a node whose lookahead is not known. *)
Example case_c75_unknown : ulr1_grammar (nts hidden) /\ utree_of (nts hidden) (class hidden) abc_tree (ASNonTerminal "P") /\
  ~ known_tree (nts hidden) (class hidden) (ffirst (computed hidden)) "P" abc_tree /\
  ~ all_lookaheads (nts hidden) (ffirst (computed hidden)) "P".
Proof.
  assert (Ht : utree_of (nts hidden) (class hidden) abc_tree (ASNonTerminal "P")) by (unfold abc_tree; prove_tree).
  assert (Hc : ~ known_tree (nts hidden) (class hidden) (ffirst (computed hidden)) "P" abc_tree).
  { intro Hc. assert (Hrej : returns hidden_gp (fun v => v) unit_sem vec_next hidden_P abc [] {| oc_result := PParserError "b" "c"; oc_iter := [inl (RVUnit "Token::C")]; oc_world := [] |}) by run_vec.
    destruct (proj2 (c75_sentences hidden hidden_gp hidden_P hidden_parser hidden_lr1 (fun v => v) unit_sem vec_next abc [] (uyield abc_tree) [] sem_total (vec_feeds (uyield abc_tree))))
      as (v & w' & Hr); [exists abc_tree; auto|].
    pose proof (c00_deterministic hidden_gp hidden_P _ _ _ _ _ _ _ Hr Hrej) as He. discriminate. }
  split; [exact hidden_lr1|]. split; [exact Ht|]. split; [exact Hc|]. intro Ha. apply Hc. apply all_covered_entry; auto.
Qed.
(** Its sentence [a c] is accepted, so the lookaheads of its tree are known. *)
Example case_c75_known : exists t, utree_of (nts hidden) (class hidden) t (ASNonTerminal "P") /\ uyield t = [RVUnit "Token::A"; RVUnit "Token::C"] /\
  known_tree (nts hidden) (class hidden) (ffirst (computed hidden)) "P" t.
Proof.
  apply (c75_sentences hidden hidden_gp hidden_P hidden_parser hidden_lr1 (fun v => v) unit_sem vec_next (map inl [RVUnit "Token::A"; RVUnit "Token::C"]) [] _ [] sem_total (vec_feeds _)).
  eexists _, _. run_vec.
Qed.

(** A grammar where src/first.rs misses a token of FIRST(B), but which still has all lookaheads: they come from another production. *)
Definition covers : list (grammar_item string) :=
  [ tokens [unit_tok "a" "Token::A"; unit_tok "c" "Token::C"; unit_tok "d" "Token::D"; unit_tok "f" "Token::F"; unit_tok "g" "Token::G"];
    rule true "S" "()" [([#"A"; #"B"], "()"); ([#"A"; #"C"; $"d"; $"g"], "()")];
    rule false "A" "()" [([$"a"], "()")];
    rule false "B" "()" [([#"C"; $"d"; $"f"], "()")];
    rule false "C" "()" [([$"c"], "()"); ([], "()")] ].
Definition covers_gp : generated (lexpr string) := Eval vm_compute in module_of covers.
Definition covers_S : parser_struct := Eval vm_compute in parser_named covers_gp "S".
Lemma covers_parser : parser_of covers covers_gp covers_S. Proof. prove_parser_of. Qed.
Definition covers_g : grammar (lexpr string) := Eval vm_compute in fst (fst (fst (stages_data_of covers))).
Definition covers_tbl : first_table := Eval vm_compute in snd (fst (fst (stages_data_of covers))).
Definition covers_states : list lr1_state := Eval vm_compute in snd (fst (stages_data_of covers)).
Definition covers_entries : list (nat * nat) := Eval vm_compute in snd (stages_data_of covers).
Lemma covers_stages : stages covers covers_g covers_tbl covers_states covers_entries.
Proof. prove_stages. Qed.
Lemma covers_supported : supported (nts covers) (cs covers).
Proof. apply lower_ok_iff. exists covers_g. vm_compute. reflexivity. Qed.
Lemma covers_lr1 : ulr1_grammar (nts covers).
Proof.
  set (tbl := [ {| fs_empty := false; fs_terminals := [0] |}; {| fs_empty := false; fs_terminals := [0] |};
                {| fs_empty := false; fs_terminals := [0] |}; {| fs_empty := false; fs_terminals := [1; 2] |};
                {| fs_empty := true; fs_terminals := [1] |} ]).
  destruct (lower (nts covers) (cs covers)) as [g| |] eqn:Eg; [|vm_compute in Eg; discriminate..].
  destruct (generate_lr1_automaton ho_id 100 g tbl) as [(states & entries)| |] eqn:Ea.
  - assert (Hc : forallb (clean_state g) states = true /\ first_check g tbl = true).
    { vm_compute in Eg. injection Eg as <-. vm_compute in Ea. injection Ea as <- <-. split; vm_compute; reflexivity. }
    destruct Hc as [Hc1 Hc2].
    refine (clean_lr1_any covers _ ho_id 100 ho_id_ok g tbl states entries Eg Ea (first_check_tails g tbl Hc2) Hc1). prove_distinct.
  - vm_compute in Eg. injection Eg as <-. vm_compute in Ea. discriminate.
  - vm_compute in Eg. injection Eg as <-. vm_compute in Ea. discriminate.
Qed.
Lemma covers_not_plain : ~ tails_plain (nts covers).
Proof.
  intro Htp. assert (H2 : ~ ffirst (computed covers) [#"B"] None (Some "c")).
  { intro H. assert (Ht : ~ f_terms (computed covers) "B" "c").
    { intro H'. apply (computed_terms covers (proj1 covers_parser) _ _ _ _ covers_stages) in H'. destruct H' as (n & j & H1 & H2 & H3).
      vm_compute in H1. injection H1 as <-. vm_compute in H2. destruct H2 as [<-|[]]. vm_compute in H3. discriminate. }
    inversion H; subst; [contradiction|]. match goal with H : ffirst _ [] _ _ |- _ => inversion H end. }
  apply H2. refine (proj2 (proj2 (c59_lookaheads _ _ (c59_sets covers (proj1 covers_parser) covers_supported)) Htp "S" 0 _ 0 None (Some "c") eq_refl) _).
  left. exists "c", [$"d"; $"f"]. split; [reflexivity|].
  eapply ud_step; [exact (uds (nts covers) [] "B" 0 _ [] eq_refl)|]. eapply ud_step; [exact (uds (nts covers) [] "C" 0 _ [$"d"; $"f"] eq_refl)|]. apply ud_refl.
Qed.
Definition covers_list : list (string * nat * list ast_symbol) :=
  [("S", 0, [#"A"; #"B"]); ("S", 1, [#"A"; #"C"; $"d"; $"g"]); ("A", 0, [$"a"]); ("B", 0, [#"C"; $"d"; $"f"]); ("C", 0, [$"c"]); ("C", 1, [])].
Lemma covers_prods n p q : uproduction (nts covers) n p = Some q -> In (n, p, ap_symbols q) covers_list.
Proof.
  intro H. destruct (Decide.uproduction_In _ _ _ _ H) as (N & HN & <- & _). cbn in HN. destruct HN as [<-|[<-|[<-|[<-|[]]]]]; cbn in H;
    (destruct p as [|[|p]]; [| |destruct p; discriminate]); try discriminate; injection H as <-; cbn; auto 8.
Qed.
Lemma covers_node t n : utree_of (nts covers) (class covers) t (#n) ->
  exists p kids ss, t = UNode n p kids /\ In (n, p, ss) covers_list /\ uforest_of (nts covers) (class covers) kids ss.
Proof. intro H. inversion H; subst. exists p, kids, (ap_symbols pr). split; [reflexivity|]. split; [apply covers_prods; auto|assumption]. Qed.
Lemma covers_tok tok s : class covers tok = Some s ->
  In (s, tok) [("a", RVUnit "Token::A"); ("c", RVUnit "Token::C"); ("d", RVUnit "Token::D"); ("f", RVUnit "Token::F"); ("g", RVUnit "Token::G")].
Proof.
  unfold token_class. intro H. destruct tok; cbn -[String.eqb In] in H; try discriminate.
  repeat match type of H with context [String.eqb ?a ?b] => destruct (String.eqb_spec a b) as [<-|_]; [cbn in H; injection H as <-; cbn; auto 8|] end. discriminate.
Qed.
Lemma covers_leaf t s : utree_of (nts covers) (class covers) t ($s) -> exists tok, t = ULeaf tok /\
  In (s, tok) [("a", RVUnit "Token::A"); ("c", RVUnit "Token::C"); ("d", RVUnit "Token::D"); ("f", RVUnit "Token::F"); ("g", RVUnit "Token::G")].
Proof. intro H. inversion H; subst. eexists. split; [reflexivity|]. apply covers_tok. auto. Qed.
Ltac covers_in := match goal with H : In _ _ |- _ => cbn in H; repeat destruct H as [H|H]; try contradiction; try discriminate; injection H as; subst end.
Ltac covers_tree := repeat match goal with
  | H : utree_of _ _ _ (#_) |- _ => apply covers_node in H; destruct H as (? & ? & ? & ? & ? & H); subst; covers_in
  | H : utree_of _ _ _ ($_) |- _ => apply covers_leaf in H; destruct H as (? & ? & H); subst; covers_in
  | H : uforest_of _ _ _ [] |- _ => inversion H; subst; clear H
  | H : uforest_of _ _ _ (_ :: _) |- _ => inversion H; subst; clear H
  end.
Lemma covers_sentences toks : sentence (nts covers) (class covers) "S" toks ->
  In toks [map RVUnit ["Token::A"; "Token::D"; "Token::F"]; map RVUnit ["Token::A"; "Token::C"; "Token::D"; "Token::F"];
           map RVUnit ["Token::A"; "Token::D"; "Token::G"]; map RVUnit ["Token::A"; "Token::C"; "Token::D"; "Token::G"]].
Proof. intros (t & Ht & <-). covers_tree; cbn; auto. Qed.
Lemma covers_body n p q s : uproduction (nts covers) n p = Some q -> In s (body q) -> In s [$"a"; $"c"; $"d"; $"f"; $"g"; #"A"; #"B"; #"C"].
Proof.
  intros H Hs. apply covers_prods in H. cbn in H. repeat destruct H as [H|H]; try contradiction; injection H as _ _ E; unfold body in Hs; rewrite <- E in Hs; cbn in Hs; intuition (subst; cbn; auto 9).
Qed.
Example case_c75_all : all_lookaheads (nts covers) (ffirst (computed covers)) "S" /\ ~ tails_plain (nts covers).
Proof.
  split; [|exact covers_not_plain].
  apply (c75_all (E := string) covers covers_gp covers_S covers_parser covers_lr1 (fun v => v) unit_sem vec_next []).
  - exact sem_total.
  - intro toks. exists (map inl toks), []. apply vec_feeds.
  - assert (HC : uderives (nts covers) [#"C"] []) by (eapply ud_step; [exact (uds (nts covers) [] "C" 1 _ [] eq_refl)|constructor]).
    assert (HA : uderives (nts covers) [#"A"] (map ASTerminal ["a"])) by (eapply ud_step; [exact (uds (nts covers) [] "A" 0 _ [] eq_refl)|constructor]).
    assert (HB : uderives (nts covers) [#"B"] (map ASTerminal ["d"; "f"])).
    { eapply ud_step; [exact (uds (nts covers) [] "B" 0 _ [] eq_refl)|]. eapply ud_step; [exact (uds (nts covers) [] "C" 1 _ [$"d"; $"f"] eq_refl)|constructor]. }
    intros n p q s Hq Hs. apply (covers_body _ _ _ _ Hq) in Hs. cbn in Hs. repeat destruct Hs as [<-|Hs]; try contradiction.
    all: try (eexists [_]; cbn; constructor; fail). + eauto. + eauto. + exists []. exact HC.
  - intros n p q s Hq Hs. apply (covers_body _ _ _ _ Hq) in Hs. cbn in Hs. repeat destruct Hs as [Hs|Hs]; try contradiction; try discriminate; injection Hs as <-.
    + exists (RVUnit "Token::A"). reflexivity.
    + exists (RVUnit "Token::C"). reflexivity.
    + exists (RVUnit "Token::D"). reflexivity.
    + exists (RVUnit "Token::F"). reflexivity.
    + exists (RVUnit "Token::G"). reflexivity.
  - intros toks it it' (it1 & Hf & Hn) Hs. assert (Eit : it = map inl toks /\ it' = []).
    { clear - Hf Hn. induction Hf as [it|it tok it1 toks it2 Hn' Hf IH]; [destruct it; [injection Hn as <-; auto|discriminate]|]. destruct it as [|y it]; [discriminate|]. cbn in Hn'. injection Hn' as -> <-.
      destruct (IH Hn) as (-> & ->). auto. }
    destruct Eit as (-> & ->). apply covers_sentences in Hs. cbn in Hs. destruct Hs as [<-|[<-|[<-|[<-|[]]]]]; eexists _, _; run_vec.
Qed.
(** Its sentence [a c d f] is accepted, although FIRST(B) lacks "c". *)
Example case_c75_complete : exists v w', returns covers_gp (fun v => v) unit_sem vec_next covers_S (map ok ["Token::A"; "Token::C"; "Token::D"; "Token::F"]) []
  {| oc_result := POk v; oc_iter := []; oc_world := w' |}.
Proof.
  apply (c75_complete covers covers_gp covers_S covers_parser covers_lr1 (fun v => v) unit_sem vec_next _ _ (map RVUnit ["Token::A"; "Token::C"; "Token::D"; "Token::F"]) [] sem_total).
  - exact (vec_feeds (map RVUnit ["Token::A"; "Token::C"; "Token::D"; "Token::F"])).
  - exact (proj1 case_c75_all).
  - exists (UNode "S" 0 [UNode "A" 0 [ULeaf (RVUnit "Token::A")]; UNode "B" 0 [UNode "C" 0 [ULeaf (RVUnit "Token::C")]; ULeaf (RVUnit "Token::D"); ULeaf (RVUnit "Token::F")]]).
    split; [prove_tree|reflexivity].
Qed.
(** C declarations (C56), whose lexer looks at the names declared so far: the lookaheads of the tree of [;] are known. *)
Example case_c75_language : exists t tk0 u0, utree_of (nts cdecl) (class cdecl) t (ASNonTerminal "P") /\
  known_tree (nts cdecl) (class cdecl) (ffirst (computed cdecl)) "P" t /\ c_next (CSt [";"] [] [] []) = (Some tk0, u0) /\
  exists v u', plays (nts cdecl) (fields cdecl (fun v => v)) c_sem c_next t tk0 u0 (BVal v) None u'.
Proof.
  destruct case_c70_complete as (n & Hn).
  destruct (proj1 (c75_language cdecl cdecl_gp cdecl_P cdecl_parser cdecl_lr1 (fun v => v) c_sem c_next c_clone _ _ _ c_no_return) (ex_intro _ n Hn)) as (t & tk0 & u0 & H1 & H2 & H3 & H4).
  exists t, tk0, u0. eauto 8.
Qed.
Example case_c75_plain : all_lookaheads (nts beyond) (ffirst (computed beyond)) "S".
Proof. exact (c75_plain beyond beyond_gp beyond_S beyond_parser beyond_plain). Qed.

(** ** The dangling else (Findings.v, [c16_refuted]): an ambiguous grammar that is accepted

    [if if x else x] has two parse trees; the one with the [else] at the inner [if] is chosen. *)
Notation t_if := (RVUnit "Token::If"). Notation t_else := (RVUnit "Token::Else"). Notation t_x := (RVUnit "Token::X").
Definition x_stmt : utree rval := UNode "S" 2 [ULeaf t_x].
Definition inner_else : utree rval := UNode "E" 0 [UNode "S" 0 [ULeaf t_if; UNode "S" 1 [ULeaf t_if; x_stmt; ULeaf t_else; x_stmt]]].
Definition outer_else : utree rval := UNode "E" 0 [UNode "S" 1 [ULeaf t_if; UNode "S" 0 [ULeaf t_if; x_stmt]; ULeaf t_else; x_stmt]].
Notation dtree t s := (utree_of (nts dangling) (class dangling) t s).
Lemma dangling_prods n p q : uproduction (nts dangling) n p = Some q ->
  In (n, p, ap_symbols q) [("E", 0, [#"S"]); ("S", 0, [$"if"; #"S"]); ("S", 1, [$"if"; #"S"; $"else"; #"S"]); ("S", 2, [$"x"])].
Proof.
  intro H. destruct (Decide.uproduction_In _ _ _ _ H) as (N & HN & <- & _). cbn in HN. destruct HN as [<-|[<-|[]]]; cbn in H;
    (destruct p as [|[|[|p]]]; [| | |destruct p; discriminate]); try discriminate; injection H as <-; cbn; auto.
Qed.
Lemma dangling_leaf t s : dtree t ($s) -> exists tok, t = ULeaf tok /\ In (s, tok) [("if", t_if); ("else", t_else); ("x", t_x)].
Proof.
  intro H. inversion H as [|tok s' Hc|]; subst. exists tok. split; [reflexivity|]. unfold token_class in Hc. destruct tok; cbn -[String.eqb In] in Hc; try discriminate.
  repeat match type of Hc with context [String.eqb ?a ?b] => destruct (String.eqb_spec a b) as [<-|_]; [cbn in Hc; injection Hc as <-; cbn; auto|] end. discriminate.
Qed.
Lemma dangling_cases t : dtree t (#"S") ->
  (exists s, t = UNode "S" 0 [ULeaf t_if; s] /\ dtree s (#"S")) \/
  (exists s1 s2, t = UNode "S" 1 [ULeaf t_if; s1; ULeaf t_else; s2] /\ dtree s1 (#"S") /\ dtree s2 (#"S")) \/ t = x_stmt.
Proof.
  intro H. inversion H as [| |n p kids q Hq Hk]; subst. apply dangling_prods in Hq. cbn in Hq. destruct Hq as [E|[E|[E|[E|[]]]]]; try discriminate; injection E as <- E; rewrite <- E in Hk; clear E.
  - inversion Hk as [|t1 ? ? ? T1 K1]; subst. inversion K1 as [|t2 ? ? ? T2 K2]; subst. inversion K2; subst.
    apply dangling_leaf in T1. destruct T1 as (tok & -> & Hi). cbn in Hi. destruct Hi as [Hi|[Hi|[Hi|[]]]]; try discriminate. injection Hi as <-. left. eauto.
  - inversion Hk as [|t1 ? ? ? T1 K1]; subst. inversion K1 as [|t2 ? ? ? T2 K2]; subst. inversion K2 as [|t3 ? ? ? T3 K3]; subst. inversion K3 as [|t4 ? ? ? T4 K4]; subst. inversion K4; subst.
    apply dangling_leaf in T1. destruct T1 as (tok & -> & Hi). cbn in Hi. destruct Hi as [Hi|[Hi|[Hi|[]]]]; try discriminate. injection Hi as <-.
    apply dangling_leaf in T3. destruct T3 as (tok & -> & Hi). cbn in Hi. destruct Hi as [Hi|[Hi|[Hi|[]]]]; try discriminate. injection Hi as <-. right. left. eauto 8.
  - inversion Hk as [|t1 ? ? ? T1 K1]; subst. inversion K1; subst. apply dangling_leaf in T1. destruct T1 as (tok & -> & Hi). cbn in Hi. destruct Hi as [Hi|[Hi|[Hi|[]]]]; try discriminate. injection Hi as <-. auto.
Qed.
(** A statement that starts with [x] is [x]. *)
Lemma dangling_x t r rest : dtree t (#"S") -> uyield t ++ rest = t_x :: r -> t = x_stmt /\ rest = r.
Proof.
  intros H E. destruct (dangling_cases t H) as [(s & -> & _)|[(s1 & s2 & -> & _)| ->]]; try discriminate. cbn in E. injection E as ->. auto.
Qed.
Lemma dangling_two t : dtree t (#"E") -> uyield t = [t_if; t_if; t_x; t_else; t_x] -> t = inner_else \/ t = outer_else.
Proof.
  intros H E. inversion H as [| |n p kids q Hq Hk]; subst. apply dangling_prods in Hq. cbn in Hq. destruct Hq as [E1|[E1|[E1|[E1|[]]]]]; try discriminate. injection E1 as <- E1. rewrite <- E1 in Hk; clear E1.
  inversion Hk as [|t1 ? ? ? T1 K1]; subst. inversion K1; subst. cbn in E. rewrite app_nil_r in E.
  destruct (dangling_cases _ T1) as [(s & -> & Ts)|[(s1 & s2 & -> & Ts1 & Ts2)| ->]]; cbn in E; try discriminate.
  - left. injection E as E. rewrite app_nil_r in E. destruct (dangling_cases _ Ts) as [(s' & -> & Ts')|[(s1 & s2 & -> & Ts1 & Ts2)| ->]]; cbn in E; try discriminate; injection E as E; rewrite ?app_nil_r in E.
    + rewrite <- (app_nil_r (uyield s')) in E. destruct (dangling_x _ _ _ Ts' E) as (_ & E'). discriminate.
    + destruct (dangling_x _ _ _ Ts1 E) as (-> & E'). injection E' as E'. rewrite <- (app_nil_r (uyield s2)) in E'. destruct (dangling_x _ _ _ Ts2 E') as (-> & _). reflexivity.
  - right. injection E as E. rewrite ?app_nil_r in E. destruct (dangling_cases _ Ts1) as [(s' & -> & Ts')|[(s3 & s4 & -> & Ts3 & Ts4)| ->]]; cbn in E; try discriminate; injection E as E; rewrite ?app_nil_r in E.
    + destruct (dangling_x _ _ _ Ts' E) as (-> & E'). injection E' as E'. rewrite <- (app_nil_r (uyield s2)) in E'. destruct (dangling_x _ _ _ Ts2 E') as (-> & _). reflexivity.
    + rewrite <- !app_assoc in E. destruct (dangling_x _ _ _ Ts3 E) as (-> & E'). injection E' as E'. destruct (dangling_x _ _ _ Ts4 E') as (_ & E''). discriminate.
Qed.
Example case_c76_ambiguous : dtree inner_else (#"E") /\ dtree outer_else (#"E") /\ uyield inner_else = uyield outer_else /\
  chosen_tree (nts dangling) (class dangling) (ffirst (computed dangling)) "E" inner_else /\
  ~ chosen_tree (nts dangling) (class dangling) (ffirst (computed dangling)) "E" outer_else.
Proof.
  assert (H1 : dtree inner_else (#"E")) by (unfold inner_else, x_stmt; prove_tree).
  assert (H2 : dtree outer_else (#"E")) by (unfold outer_else, x_stmt; prove_tree).
  assert (Hno : ~ chosen_tree (nts dangling) (class dangling) (ffirst (computed dangling)) "E" outer_else).
  { intro H. unfold chosen_tree, outer_else in H. inversion H as [|? ? ? ? ? ? Q1 C1 _]; subst. injection Q1 as <-. cbn in C1.
    inversion C1 as [|? ? ? ? ? ? C2 _]; subst. inversion C2 as [|? ? ? ? ? ? Q2 C3 _]; subst. injection Q2 as <-. cbn in C3.
    inversion C3 as [|? ? ? ? ? ? _ C4]; subst. inversion C4 as [|? ? ? ? ? ? C5 _]; subst. inversion C5 as [|? ? ? ? ? ? Q3 _ R]; subst. injection Q3 as <-. cbn in R.
    destruct R as (_ & R & _). apply R. clear. exists "else". split; [reflexivity|].
    assert (H0 : uvalid_by (nts dangling) (ffirst (computed dangling)) "E" [] (Some "E") 0 0 None).
    { eapply ulv_closure with (lhs := None) (p := 0) (k := 0) (la := None) (C := "E"); [constructor|reflexivity|reflexivity|reflexivity|constructor]. }
    assert (H1 : uvalid_by (nts dangling) (ffirst (computed dangling)) "E" [] (Some "S") 1 0 None).
    { eapply ulv_closure with (lhs := Some "E") (p := 0) (k := 0) (la := None) (C := "S"); [exact H0|reflexivity|reflexivity|reflexivity|constructor]. }
    pose proof (ulv_move _ _ _ _ _ _ _ _ _ _ H1 eq_refl eq_refl) as H2. cbn in H2.
    assert (H3 : uvalid_by (nts dangling) (ffirst (computed dangling)) "E" [$"if"] (Some "S") 1 0 (Some "else")).
    { eapply ulv_closure with (lhs := Some "S") (p := 1) (k := 1) (la := None) (C := "S"); [exact H2|reflexivity|reflexivity|reflexivity|constructor]. }
    pose proof (ulv_move _ _ _ _ _ _ _ _ _ _ H3 eq_refl eq_refl) as B1. cbn in B1.
    pose proof (ulv_move _ _ _ _ _ _ _ _ _ _ B1 eq_refl eq_refl) as B2. cbn in B2.
    exists (Some "S"), 1, 2, (Some "else"). eexists. split; [exact B2|]. split; reflexivity. }
  split; [exact H1|]. split; [exact H2|]. split; [reflexivity|]. split; [|exact Hno].
  destruct (proj1 (c76_sentences (E := string) dangling dangling_gp dangling_E dangling_parser (fun v => v) unit_sem vec_next (map inl (uyield inner_else)) [] (uyield inner_else) [] sem_total (vec_feeds _)))
    as (t & Ht & Hy & Hc); [eexists _, _; run_vec|].
  destruct (dangling_two t Ht Hy) as [-> | ->]; [exact Hc|contradiction].
Qed.
