(** * Properties: the property theorems about generated parsers (C01-C14, C34-C36, C40)

    Vocabulary: PropSpec.v ([parser_of], [returns], [running], [feeds_then]), Spec.v (parse trees,
    sentences, values), USpec.v (grammar classes).  Notation used below, for a macro input [items]:
    - [nts items]: the declared non-terminals; [class items tok]: the token entry that [tok] belongs to;
    - [fields items inj tok]: the values its pattern selects.
    Each theorem is followed by a concrete case on a grammar of tests/tests.rs (Grammars.v). *)
From Verif Require Export PropRun Grammars.

Notation nts items := (declared_nts items).
Notation class items := (token_class (token_entries items)).
Notation fields items inj := (fun tok => map inj (token_fields (token_entries items) tok)).

Section Run.
Context {A E V W I : Type}.
Variable items : list (grammar_item A).                                   (* the macro input *)
Variable gp : generated (lexpr A).                                        (* the module it expands to *)
Variable pr : parser_struct.                                              (* an entry point of the module *)
Variable inj : rval -> V.
Variable usem : A -> list (string * bval V) -> W -> option (V * W).       (* the user's actions *)
Variable next : I -> option (rval + E) * I.                               (* the user's token iterator *)
Variable it : I.                                                          (* its initial state *)
Variable w : W.                                                           (* the world before the call *)
Notation returns := (returns gp inj usem next pr it w).
Notation returns_with := (returns_with gp inj usem next pr it w).
Notation running := (running gp inj usem next pr it w).

Hypothesis Hp : parser_of items gp pr.

Local Lemma summary o evs : returns_with o evs -> exists toks r,
  feeds_then next it toks r (oc_iter o) /\ user_outcome items inj usem next (pr_name pr) it w o toks r /\
  nexts_of evs = map (fun t => Some (inl t)) toks ++ [r] /\
  (forall er, oc_result o = PLexerError er <-> r = Some (inr er)) /\
  (forall er, r = Some (inr er) -> exists pre, evs = pre ++ [EvNext r]) /\
  (tails_reliable (nts items) -> forall f x, oc_result o = PParserError f x ->
     (exists pre, evs = pre ++ [EvNext r]) /\
     (forall (next' : I -> option (rval + E) * I) it0' er it', feeds_then next' it0' toks (Some (inr er)) it' ->
        PropSpec.returns gp inj usem next' pr it0' w {| oc_result := PLexerError er; oc_iter := it'; oc_world := oc_world o |}) /\
     exists listed, error_report E I items gp inj usem pr w toks (oc_world o) x listed).
Proof. destruct Hp as (H1 & H2 & H3 & H4). intro H. eapply (run_summary items H1 H2 gp H3 inj usem next pr H4); eauto. Qed.

(** [Entry::parse] is a function: it returns at most once. *)
Theorem c00_deterministic o o' : returns o -> returns o' -> o = o'.
Proof. apply returns_fun. Qed.

(** C01: if [Entry::parse] returns [Ok], the iterator returned a sentence of [Entry] and then [None]. *)
Theorem c01_accepted_is_sentence o v : returns o -> oc_result o = POk v ->
  exists toks, feeds_then next it toks None (oc_iter o) /\ sentence (nts items) (class items) (pr_name pr) toks.
Proof.
  intros (fuel & Hf) Hv. destruct (summary o _ (ex_intro _ fuel (conj Hf eq_refl))) as (toks & r & Hfd & Hu & _).
  destruct Hu as (? & ? & ? & ? & ? & _ & _ & _ & _ & _ & _ & Hm). rewrite Hv in Hm. destruct Hm as (-> & tr & Ht & Hy & _).
  exists toks. split; auto. exists tr; auto.
Qed.

(** C02: the value is that of a parse tree of the consumed tokens: children left to right, then the
    production's action, once; the side effects ([oc_world o]) are those of this evaluation. *)
Theorem c02_value_of_tree o v : returns o -> oc_result o = POk v ->
  exists t, utree_of (nts items) (class items) t (ASNonTerminal (pr_name pr)) /\
    feeds_then next it (uyield t) None (oc_iter o) /\
    ueval (nts items) (fields items inj) usem t w = Some (BVal v, oc_world o).
Proof.
  intros (fuel & Hf) Hv. destruct (summary o _ (ex_intro _ fuel (conj Hf eq_refl))) as (toks & r & Hfd & Hu & _).
  destruct Hu as (? & ? & ? & ? & ? & _ & _ & _ & _ & _ & _ & Hm). rewrite Hv in Hm. destruct Hm as (-> & tr & Ht & Hy & He).
  exists tr. rewrite Hy. auto.
Qed.

(** C03: [Ok] is returned only after the iterator returned [None]; before that it returned tokens, all of
    them consumed (they are the yield of the tree of C02), and it is left in the state after the [None]. *)
Theorem c03_whole_input o evs v : returns_with o evs -> oc_result o = POk v ->
  exists toks, nexts_of evs = map (fun t => Some (inl t)) toks ++ [None] /\
    feeds_then next it toks None (oc_iter o) /\ sentence (nts items) (class items) (pr_name pr) toks.
Proof.
  intros H Hv. destruct (summary o evs H) as (toks & r & Hfd & Hu & Hn & _).
  destruct Hu as (? & ? & ? & ? & ? & _ & _ & _ & _ & _ & _ & Hm). rewrite Hv in Hm. destruct Hm as (-> & tr & Ht & Hy & _).
  exists toks. split; auto. split; auto. exists tr; auto.
Qed.

(** C04: the only panics are those of a user action, called on the values of the children of a
    production, and a token no entry of [enum Token] matches (excluded by rustc's exhaustiveness check). *)
Theorem c04_no_panic o p : returns o -> oc_result o = PPanic p ->
  (p = UserPanic /\ exists n k q kids vs w1 w2, uproduction (nts items) n k = Some q /\
     uforest_of (nts items) (class items) kids (ap_symbols q) /\
     uevals (nts items) (fields items inj) usem kids w1 = Some (vs, w2) /\ oc_world o = w2 /\
     usem (action_expr (ap_action q)) (ubindings (ap_symbols q) vs) w2 = None) \/
  (p = NoTokenMatch /\ exists toks tok, feeds_then next it toks (Some (inl tok)) (oc_iter o) /\ class items tok = None).
Proof.
  intros (fuel & Hf) Hv. destruct (summary o _ (ex_intro _ fuel (conj Hf eq_refl))) as (toks & r & Hfd & Hu & _).
  destruct Hu as (? & ? & ? & ? & ? & _ & _ & _ & _ & _ & _ & Hm). rewrite Hv in Hm. destruct p; try contradiction.
  - right. split; auto. destruct Hm as (_ & tok & -> & Hc). eauto.
  - left. split; auto. destruct Hm as (Hw & n & k & q & l & kids & bs & w2 & H1 & H2 & H3 & H4 & H5).
    rewrite <- Hw in *. exists n, k, q, kids, bs, w2, (oc_world o). auto.
Qed.

(** C05: [Entry::parse] returns on every iterator that ends. *)
Theorem c05_terminates : tails_productive (nts items) ->
  tails_plain (nts items) \/ empty_direct (nts items) \/ ulr1_grammar (nts items) ->
  ends next it -> exists o, returns o.
Proof.
  intros Hpr [H|[H|H]] He; [eapply terminates; eauto; split; auto..|eapply terminates_lr; eauto].
Qed.

(** C06: an [Err(e)] the parser reads is returned at once, without running an action or calling [next()]
    again; conversely a [LexerError(e)] was read from the iterator.  [running]: the same for a run that
    has not returned yet, it returns in the next iteration. *)
Theorem c06_lexer_error o evs : returns_with o evs ->
  (forall e, In (EvNext (Some (inr e))) evs -> oc_result o = PLexerError e /\ exists pre, evs = pre ++ [EvNext (Some (inr e))]) /\
  (forall e, oc_result o = PLexerError e -> In (EvNext (Some (inr e))) evs /\
     exists toks, feeds_then next it toks (Some (inr e)) (oc_iter o)).
Proof.
  intros H. destruct (summary o evs H) as (toks & r & Hfd & Hu & Hn & Hiff & Hlast & _). split.
  - intros e He. assert (Hin : In (Some (inr e)) (nexts_of evs)).
    { unfold nexts_of. apply in_flat_map. eexists. split; [exact He|left; reflexivity]. }
    rewrite Hn in Hin. apply in_app_iff in Hin. destruct Hin as [Hin|[Hr|[]]].
    + apply in_map_iff in Hin. destruct Hin as (t & Ht & _). discriminate.
    + split; [apply Hiff; auto|]. rewrite <- Hr. eapply Hlast; eauto.
  - intros e He. apply Hiff in He. subst r. destruct (Hlast e eq_refl) as (pre & ->). split; [apply in_app_iff; right; left; auto|eauto].
Qed.
Theorem c06_lexer_error_running n it' w' evs e : running n it' w' evs -> In (EvNext (Some (inr e))) evs ->
  returns {| oc_result := PLexerError e; oc_iter := it'; oc_world := w' |}.
Proof.
  intros (st & Hit & <- & <- & <-) Hin.
  destruct (run_prefix_st items gp pr Hp inj usem next it w _ _ Hit) as (toks & syms & forest & vs & rest & Hfd & Hn & _ & _ & _ & _ & Hne).
  assert (Hi2 : In (Some (inr e)) (nexts_of (parse_events gp (user_env gp inj usem next) n pr it w))).
  { unfold nexts_of. apply in_flat_map. eexists. split; [exact Hin|left; reflexivity]. }
  rewrite Hn in Hi2. apply in_app_iff in Hi2. destruct Hi2 as [Hi2|[Hi2|[]]].
  { apply in_map_iff in Hi2. destruct Hi2 as (t & Ht & _). discriminate. }
  exists (n + 1). unfold parse. revert Hit. generalize (init_pstate (user_env gp inj usem next) pr it w) as s0.
  clear Hin Hfd Hn. induction n as [|n IH]; intros s0 Hit; cbn [iterations Nat.add run] in *.
  - injection Hit as ->. unfold step. rewrite Hi2. destruct (ps_states st) eqn:Es; [congruence|reflexivity].
  - destruct (step gp (user_env gp inj usem next) pr s0) as [s1|]; [|discriminate]. auto.
Qed.

(** C07: between reading the offending token (or end of input) and returning [ParserError], no action
    runs and [next()] is not called; so no token is shifted either: the offending token is the last one read. *)
Theorem c07_error_immediate o evs found expected : tails_reliable (nts items) ->
  returns_with o evs -> oc_result o = PParserError found expected ->
  exists toks r pre, feeds_then next it toks r (oc_iter o) /\ evs = pre ++ [EvNext r] /\
    nexts_of pre = map (fun t => Some (inl t)) toks /\
    match r with Some (inl tok) => class items tok = Some found | None => found = "end-of-input"%string | Some (inr _) => False end.
Proof.
  intros Hr H Hv. destruct (summary o evs H) as (toks & r & Hfd & Hu & Hn & _ & _ & Hs).
  destruct (Hs Hr _ _ Hv) as ((pre & Hpre) & _). exists toks, r, pre. split; auto. split; auto. split.
  - rewrite Hpre in Hn. unfold nexts_of in Hn. rewrite flat_map_app in Hn. cbn in Hn. apply app_inj_tail in Hn. apply Hn.
  - destruct Hu as (? & ? & ? & ? & ? & _ & _ & _ & _ & _ & _ & Hm). rewrite Hv in Hm. destruct Hm as (_ & Hm).
    destruct r as [[tok|er]|]; auto.
Qed.

(** C08: [found] is the first entry of [enum Token] that matches the offending token, or [end-of-input]. *)
Theorem c08_found o found expected : returns o -> oc_result o = PParserError found expected ->
  exists toks r, feeds_then next it toks r (oc_iter o) /\
    match r with
    | Some (inl tok) => exists fs, first_match (token_entries items) tok = Some (found, fs)
    | None => found = "end-of-input"%string
    | Some (inr _) => False
    end.
Proof.
  intros (fuel & Hf) Hv. destruct (summary o _ (ex_intro _ fuel (conj Hf eq_refl))) as (toks & r & Hfd & Hu & _).
  exists toks, r. split; auto.
  destruct Hu as (? & ? & ? & ? & ? & _ & _ & _ & _ & _ & _ & Hm). rewrite Hv in Hm. destruct Hm as (_ & Hm).
  destruct r as [[tok|er]|]; auto. unfold token_class in Hm. destruct (first_match (token_entries items) tok) as [[s fs]|]; [|discriminate].
  cbn in Hm. injection Hm as ->. eauto.
Qed.

(** C09: see [error_report] in PropSpec.v. *)
Theorem c09_expected o found expected : tails_reliable (nts items) ->
  returns o -> oc_result o = PParserError found expected ->
  exists toks r listed, feeds_then next it toks r (oc_iter o) /\
    error_report E I items gp inj usem pr w toks (oc_world o) expected listed.
Proof.
  intros Hr (fuel & Hf) Hv. destruct (summary o _ (ex_intro _ fuel (conj Hf eq_refl))) as (toks & r & Hfd & Hu & Hn & _ & _ & Hs).
  destruct (Hs Hr _ _ Hv) as (_ & _ & listed & Hl). exists toks, r, listed. auto.
Qed.

(** C10: the calls of [next()]: one for each consumed token and one for the lookahead; all but the last
    returned a token, so none follows a [None] or an [Err]. *)
Theorem c10_one_lookahead o evs : returns_with o evs ->
  exists toks r syms forest, nexts_of evs = map (fun t => Some (inl t)) toks ++ [r] /\ feeds_then next it toks r (oc_iter o) /\
    uforest_of (nts items) (class items) forest syms /\ flat_map uyield forest = toks.
Proof.
  intros H. destruct (summary o evs H) as (toks & r & Hfd & Hu & Hn & _).
  destruct Hu as (syms & forest & ? & ? & ? & _ & _ & Hfo & Hy & _). exists toks, r, syms, forest. auto.
Qed.
Theorem c10_one_lookahead_running n it' w' evs : running n it' w' evs ->
  exists toks r syms forest, nexts_of evs = map (fun t => Some (inl t)) toks ++ [r] /\ feeds_then next it toks r it' /\
    uforest_of (nts items) (class items) forest syms /\ flat_map uyield forest = toks.
Proof.
  intros H. destruct (run_prefix items gp pr Hp inj usem next it w _ _ _ _ H) as (toks & r & syms & forest & vs & rest & H1 & H2 & H3 & H4 & _).
  exists toks, r, syms, forest. auto.
Qed.

(** C11: for LR(1) grammars in [tails_plain], every sentence of [Entry] is accepted, and the value and
    side effects are those of its parse tree; [PPanic UserPanic] if evaluating the tree panics. *)
Theorem c11_complete t it' : ulr1_grammar (nts items) -> tails_plain (nts items) ->
  utree_of (nts items) (class items) t (ASNonTerminal (pr_name pr)) -> feeds_then next it (uyield t) None it' ->
  exists o, returns o /\
    match ueval (nts items) (fields items inj) usem t w with
    | Some (BVal v, w') => o = {| oc_result := POk v; oc_iter := it'; oc_world := w' |}
    | _ => oc_result o = PPanic UserPanic
    end.
Proof. intros. eapply complete; eauto. Qed.

(** C12: for LR(1) grammars with plain tails (and with actions that do not panic), [parse] accepts exactly the sentences of
    [Entry]; in particular for LR(1) grammars without empty productions. *)
Theorem c12_exact toks it' : ulr1_grammar (nts items) -> tails_plain (nts items) ->
  (forall a b w, usem a b w <> None) -> feeds_then next it toks None it' ->
  sentence (nts items) (class items) (pr_name pr) toks <-> exists v w', returns {| oc_result := POk v; oc_iter := it'; oc_world := w' |}.
Proof.
  intros Hlr Hne Htot Hfd. split.
  - intros (t & Ht & Hy). subst toks.
    destruct (complete items gp pr Hp inj usem next it w Hlr Hne t it' Ht Hfd) as (o & Ho & Hm).
    assert (Hev : forall t s, utree_of (nts items) (class items) t s -> forall w0, ueval (nts items) (fields items inj) usem t w0 <> None).
    { assert (Hboth : (forall t s, utree_of (nts items) (class items) t s -> forall w0, ueval (nts items) (fields items inj) usem t w0 <> None) /\
        (forall ts ss, uforest_of (nts items) (class items) ts ss -> forall w0, ueval_list (ueval (nts items) (fields items inj) usem) ts w0 <> None)).
      { apply utree_uforest_ind.
        - intros t0 b s _ IH w0. apply IH.
        - intros tok s _ w0. cbn. discriminate.
        - intros nt p kids q Hq _ IH w0. cbn. rewrite Hq. destruct (ueval_list _ kids w0) as [[vs w1]|] eqn:Ek; [|exfalso; eapply IH; eauto].
          destruct (usem _ _ w1) as [[v w2]|] eqn:Eu; [discriminate|exfalso; eapply Htot; eauto].
        - intros w0. cbn. discriminate.
        - intros t0 ts s ss _ IHt _ IHs w0. cbn. destruct (ueval _ _ _ t0 w0) as [[v w1]|] eqn:Et; [|exfalso; eapply IHt; eauto].
          destruct (ueval_list _ ts w1) as [[vs w2]|] eqn:Es; [discriminate|exfalso; eapply IHs; eauto]. }
      apply Hboth. }
    destruct (ueval _ _ usem t w) as [[b w']|] eqn:Eu; [|exfalso; eapply Hev; eauto].
    destruct (nt_value (nts items) (class items) (fields items inj) usem (pr_name pr) t w b w' Eu Ht) as (x & ->).
    subst o. eauto.
  - intros (v & w' & Ho). destruct (c01_accepted_is_sentence _ v Ho eq_refl) as (toks' & Hfd' & Hs).
    assert (toks' = toks); [|subst; auto]. destruct Hfd as (i1 & F1 & N1), Hfd' as (i2 & F2 & N2). cbn in N2. clear - F1 N1 F2 N2.
    revert toks' F2. induction F1 as [it|it tok it1 toks it2 Hn Hf IH]; intros toks' F2; inversion F2; subst; auto; try congruence.
    rewrite Hn in H. injection H as <- <-. f_equal. auto.
Qed.

Theorem c12_exact_no_empty toks it' : ulr1_grammar (nts items) -> no_empty_production (nts items) ->
  (forall a b w, usem a b w <> None) -> feeds_then next it toks None it' ->
  sentence (nts items) (class items) (pr_name pr) toks <-> exists v w', returns {| oc_result := POk v; oc_iter := it'; oc_world := w' |}.
Proof. intros Hlr Hne. exact (c12_exact toks it' Hlr (no_empty_tails_plain items Hne)). Qed.

(** C13: such grammars (indeed all accepted LR(1) grammars) are unambiguous. *)
Theorem c13_unambiguous t t' : ulr1_grammar (nts items) ->
  utree_of (nts items) (class items) t (ASNonTerminal (pr_name pr)) ->
  utree_of (nts items) (class items) t' (ASNonTerminal (pr_name pr)) -> uyield t = uyield t' -> t = t'.
Proof. intros Hl H1 H2 Hy. exact (unique items gp pr Hp inj usem next Hl t t' H1 H2 Hy). Qed.

(** C35: at any point of a run, the consumed tokens are the yield of a forest whose roots start a
    sentential form of [Entry]. *)
Theorem c35_viable_prefix o : returns o ->
  exists toks r syms forest rest, feeds_then next it toks r (oc_iter o) /\
    uforest_of (nts items) (class items) forest syms /\ flat_map uyield forest = toks /\
    uderives (nts items) [ASNonTerminal (pr_name pr)] (syms ++ rest).
Proof.
  intros (fuel & Hf). destruct (summary o _ (ex_intro _ fuel (conj Hf eq_refl))) as (toks & r & Hfd & Hu & _).
  destruct Hu as (syms & forest & ? & ? & ? & _ & _ & Hfo & Hy & _ & (rest & Hd) & _). exists toks, r, syms, forest, rest. auto.
Qed.
Theorem c35_viable_prefix_running n it' w' evs : running n it' w' evs ->
  exists toks r syms forest rest, feeds_then next it toks r it' /\
    uforest_of (nts items) (class items) forest syms /\ flat_map uyield forest = toks /\
    uderives (nts items) [ASNonTerminal (pr_name pr)] (syms ++ rest).
Proof.
  intros H. destruct (run_prefix items gp pr Hp inj usem next it w _ _ _ _ H) as (toks & r & syms & forest & vs & rest & H1 & H2 & H3 & H4 & H5 & H6).
  exists toks, r, syms, forest, rest. auto.
Qed.

(** C36: whenever [parse] stops, and at any point before, the side effects performed are those of
    evaluating, left to right, a forest of complete subtrees whose leaves are the consumed tokens. *)
Theorem c36_effects o : returns o ->
  exists toks r syms forest vs, feeds_then next it toks r (oc_iter o) /\
    uforest_of (nts items) (class items) forest syms /\ flat_map uyield forest = toks /\
    uevals (nts items) (fields items inj) usem forest w = Some (vs, oc_world o).
Proof.
  intros (fuel & Hf). destruct (summary o _ (ex_intro _ fuel (conj Hf eq_refl))) as (toks & r & Hfd & Hu & _).
  destruct Hu as (syms & forest & it1 & vs & w1 & _ & _ & Hfo & Hy & He & _ & Hm).
  destruct (oc_result o) as [v|er|f x|p] eqn:Er.
  - destruct Hm as (-> & tr & Ht & Hyt & Het). exists toks, None, [ASNonTerminal (pr_name pr)], [tr], [BVal v].
    split; auto. split; [constructor; [auto|constructor]|]. split; [cbn; rewrite app_nil_r; auto|].
    unfold uevals. cbn [ueval_list]. rewrite Het. reflexivity.
  - destruct Hm as (-> & ->). exists toks, (Some (inr er)), syms, forest, vs. auto.
  - destruct Hm as (-> & _). exists toks, r, syms, forest, vs. auto.
  - destruct p; try contradiction; destruct Hm as (-> & _); exists toks, r, syms, forest, vs; auto.
Qed.
Theorem c36_effects_running n it' w' evs : running n it' w' evs ->
  exists toks r syms forest vs, feeds_then next it toks r it' /\
    uforest_of (nts items) (class items) forest syms /\ flat_map uyield forest = toks /\
    uevals (nts items) (fields items inj) usem forest w = Some (vs, w').
Proof.
  intros H. destruct (run_prefix items gp pr Hp inj usem next it w _ _ _ _ H) as (toks & r & syms & forest & vs & rest & H1 & H2 & H3 & H4 & H5 & H6).
  exists toks, r, syms, forest, vs. auto.
Qed.

(** C40 (correct prefix): for LR(1) grammars in [tails_plain] whose non-terminals all derive something,
    what was consumed always starts a sentence; on a [ParserError], the consumed tokens together with the
    offending one do not, and [expected] lists exactly the entries that could have come next. *)
Theorem c40_correct_prefix o : ulr1_grammar (nts items) -> tails_plain (nts items) -> all_productive (nts items) ->
  returns o ->
  exists toks r, feeds_then next it toks r (oc_iter o) /\
    sentence_prefix (nts items) (class items) (pr_name pr) toks /\
    forall found expected, oc_result o = PParserError found expected ->
      match r with
      | Some (inl tok) => class items tok = Some found /\ ~ sentence_prefix (nts items) (class items) (pr_name pr) (toks ++ [tok])
      | Some (inr _) => False
      | None => found = "end-of-input"%string /\ ~ sentence (nts items) (class items) (pr_name pr) toks
      end /\
      exists listed, expected = listing items listed /\
        forall s, In s (map cv_from (token_entries items)) -> (listed s = true <->
          exists ws, Forall2 (fun tok s => class items tok = Some s) toks ws /\ string_prefix (nts items) (pr_name pr) (ws ++ [s])).
Proof.
  destruct Hp as (H1 & H2 & H3 & H4). intros Hl Ht Ha Ho.
  exact (correct_prefix items H1 H2 gp H3 inj usem next pr H4 it w Hl Ht Ha o Ho).
Qed.
(** Together: on such grammars, with actions that do not panic, [parse] decides.  An iterator with the tokens [toks] and no lexer
    error is answered with [Ok] if they are a sentence, and else with the [ParserError] at the first token with which what
    was read is not the start of a sentence (or at the end). *)
Lemma fed_prefix toks it' toks' r it2 : feeds_then next it toks None it' -> feeds_then next it toks' r it2 ->
  exists post, toks = toks' ++ post /\ match post with [] => r = None /\ it2 = it' | tok :: _ => r = Some (inl tok) end.
Proof.
  intros (i1 & F1 & N1) (i2 & F2 & N2). revert toks' F2. induction F1 as [i|i tok i3 toks i4 Hn Hf IH]; intros toks' F2; inversion F2; subst.
  - exists []. split; [reflexivity|]. rewrite N1 in N2. injection N2 as <- <-. auto.
  - congruence.
  - exists (tok :: toks). split; [reflexivity|]. rewrite Hn in N2. injection N2 as <- _. reflexivity.
  - rewrite Hn in H. injection H as <- <-. destruct (IH N1 _ H0) as (post & -> & Hm). exists post. split; [reflexivity|exact Hm].
Qed.
Theorem c40_decides toks it' : ulr1_grammar (nts items) -> tails_plain (nts items) -> all_productive (nts items) ->
  (forall a b w, usem a b w <> None) -> feeds_then next it toks None it' -> (forall tok, In tok toks -> class items tok <> None) ->
  (sentence (nts items) (class items) (pr_name pr) toks /\
   exists v w', returns {| oc_result := POk v; oc_iter := it'; oc_world := w' |}) \/
  (~ sentence (nts items) (class items) (pr_name pr) toks /\
   exists pre post found expected it2 w', toks = pre ++ post /\
     returns {| oc_result := PParserError found expected; oc_iter := it2; oc_world := w' |} /\
     sentence_prefix (nts items) (class items) (pr_name pr) pre /\
     match post with
     | [] => found = "end-of-input"%string
     | tok :: _ => class items tok = Some found /\ ~ sentence_prefix (nts items) (class items) (pr_name pr) (pre ++ [tok])
     end).
Proof.
  intros Hl Ht Ha Htot Hfd Hcl.
  assert (Hpt : tails_productive (nts items)).
  { destruct Hp as (H1 & _ & H3 & _). destruct (expands_data items gp H3) as (? & ? & _ & ti & g & ? & ? & ? & ? & Hlow & _). exact (all_productive_tails items H1 ti g Hlow Ha). }
  destruct (c05_terminates Hpt (or_introl Ht)) as (o & Ho); [do 3 eexists; split; [exact Hfd|auto]|].
  destruct (oc_result o) as [v|er|f x|p] eqn:Er.
  - left. destruct (c01_accepted_is_sentence o v Ho Er) as (toks' & Hfd' & Hs). destruct (fed_prefix _ _ _ _ _ Hfd Hfd') as ([|tok post] & -> & Hm); [|discriminate].
    destruct Hm as [_ Hi]. rewrite app_nil_r. split; [exact Hs|]. exists v, (oc_world o). destruct o as [r i x]. cbn in *. subst. exact Ho.
  - exfalso. destruct Ho as (fuel & Hf). destruct (c06_lexer_error o _ (ex_intro _ fuel (conj Hf eq_refl))) as [_ H6]. destruct (H6 er Er) as (_ & toks' & Hfd').
    destruct (fed_prefix _ _ _ _ _ Hfd Hfd') as ([|tok post] & _ & Hm); [destruct Hm; discriminate|discriminate].
  - right. assert (Hns : ~ sentence (nts items) (class items) (pr_name pr) toks).
    { intros (t & Htr & Hy). subst toks. destruct (c11_complete t it' Hl Ht Htr Hfd) as (o' & Ho' & Hm). rewrite (c00_deterministic _ _ Ho' Ho) in Hm.
      destruct (ueval _ _ usem t w) as [[[l|v] w']|]; rewrite Hm in Er; discriminate Er. }
    split; [exact Hns|]. destruct (c40_correct_prefix o Hl Ht Ha Ho) as (toks' & r & Hfd' & Hpre & Hm). destruct (Hm f x Er) as [Hm' _]. clear Hm.
    destruct (fed_prefix _ _ _ _ _ Hfd Hfd') as (post & -> & Hr). exists toks', post, f, x, (oc_iter o), (oc_world o).
    split; [reflexivity|]. split; [destruct o as [r' i z]; cbn in *; subst; exact Ho|]. split; [exact Hpre|]. destruct post as [|tok post].
    + destruct Hr as [-> _]. apply Hm'.
    + subst r. exact Hm'.
  - exfalso. destruct (c04_no_panic o p Ho Er) as [(_ & n & k & q & kids & vs & w1 & w2 & _ & _ & _ & _ & Hno)|(_ & toks' & tok & Hfd' & Hno)]; [exact (Htot _ _ _ Hno)|].
    destruct (fed_prefix _ _ _ _ _ Hfd Hfd') as ([|tok' post] & -> & Hm); [destruct Hm; discriminate|]. injection Hm as ->. apply (Hcl tok'); [|exact Hno]. apply in_or_app. right. left. reflexivity.
Qed.
End Run.

(** ** Concrete runs that meet the hypotheses of the theorems above *)
Notation arith_returns l o := (returns_with arith_gp (fun v => v) sem vec_next arith_E l [] o).
Notation parens_returns l o := (returns_with parens_gp (fun v => v) sem vec_next parens_Entry l [] o).
Ltac run_it := exists 300; split; vm_compute; reflexivity.
Definition events_vec (gp : generated (lexpr string)) (pr : parser_struct) (l : list (rval + string)) : list (event rval string) :=
  parse_events gp (user_env gp (fun v => v) sem vec_next) 300 pr l [].

(** C01-C03, C10, C36: [1 + 2 * 3] is accepted with value 7; the actions run are recorded in the world. *)
Example case_accept : arith_returns [int 1; PLUS; int 2; STAR; int 3]
  {| oc_result := POk (RVOther 7); oc_iter := [];
     oc_world := ["e"; "e + t"; "t * f"; "i"; "f"; "i"; "t"; "f"; "i"]%string |}
  (events_vec arith_gp arith_E [int 1; PLUS; int 2; STAR; int 3]).
Proof. run_it. Qed.
(** C07-C09, C40: [( ( )] fails at end of input, [1 + * 2] at [*]. *)
Example case_error : parens_returns [LP; LP; RP]
  {| oc_result := PParserError "end-of-input" ")"; oc_iter := []; oc_world := ["0"]%string |}
  (events_vec parens_gp parens_Entry [LP; LP; RP]).
Proof. run_it. Qed.
Example case_error_token : arith_returns [int 1; PLUS; STAR; int 2]
  {| oc_result := PParserError "*" "(, int"; oc_iter := [int 2]; oc_world := ["t"; "f"; "i"]%string |}
  (events_vec arith_gp arith_E [int 1; PLUS; STAR]).
Proof. run_it. Qed.
(** C06: a lexer error in the middle. *)
Example case_lexer_error : arith_returns [int 1; PLUS; inr "bad"%string; int 3]
  {| oc_result := PLexerError "bad"%string; oc_iter := [int 3]; oc_world := ["t"; "f"; "i"]%string |}
  (events_vec arith_gp arith_E [int 1; PLUS; inr "bad"%string]).
Proof. run_it. Qed.
Example case_lexer_error_running : exists evs,
  running arith_gp (fun v => v) sem vec_next arith_E [int 1; inr "bad"%string] [] 1 [] [] evs /\
  In (EvNext (Some (inr "bad"%string))) evs.
Proof. eexists. split; [eexists; vm_compute; repeat split; reflexivity|vm_compute; auto]. Qed.
(** C04: an action that panics, and a token no entry matches. *)
Definition bug_1_gp : generated (lexpr string) := Eval vm_compute in module_of bug_1.
Definition bug_1_Test1 : parser_struct := Eval vm_compute in parser_named bug_1_gp "Test1".
Lemma bug_1_parser : parser_of bug_1 bug_1_gp bug_1_Test1. Proof. prove_parser_of. Qed.
Example case_user_panic : returns bug_1_gp (fun v => v) sem vec_next bug_1_Test1 [] []
  {| oc_result := PPanic UserPanic; oc_iter := []; oc_world := [] |}.
Proof. exists 300. vm_compute. reflexivity. Qed.
Example case_no_match : arith_returns [int 1; ok "Token::Unknown"]
  {| oc_result := PPanic NoTokenMatch; oc_iter := []; oc_world := [] |}
  (events_vec arith_gp arith_E [int 1; ok "Token::Unknown"]).
Proof. run_it. Qed.
(** C05: [vec![..].into_iter()] always ends. *)
Example case_ends : forall l, ends vec_next l.
Proof.
  induction l as [|[t|e] l (toks & r & it' & (it1 & F & N) & Hr)].
  - exists [], None, []. split; [exists []; split; [constructor|reflexivity]|auto].
  - exists (t :: toks), r, it'. split; [exists it1; split; [econstructor; [reflexivity|exact F]|exact N]|exact Hr].
  - exists [], (Some (inr e)), l. split; [exists (inr e :: l); split; [constructor|reflexivity]|eauto].
Qed.
(** C35, C36: after 5 iterations on [1 + 2]. *)
Example case_running : exists it' w' evs,
  running arith_gp (fun v => v) sem vec_next arith_E [int 1; PLUS; int 2] [] 5 it' w' evs /\ w' = ["t"; "f"; "i"]%string.
Proof. do 3 eexists. split; [eexists; vm_compute; repeat split; reflexivity|reflexivity]. Qed.
(** C11-C13: a parse tree of [1 + 2] (see [arith_lr1], [arith_plain], [parens_lr1], [parens_plain] and
    [arith_productive] in Grammars.v for the grammar classes). *)
Definition tree_1_plus_2 : utree rval :=
  UNode "E" 0 [UNode "E1" 0 [UNode "E1" 1 [UNode "T" 1 [UNode "F" 1 [ULeaf (RVCtor "Token::Int" [RVOther 1])]]];
    ULeaf (RVUnit "Token::Plus"); UNode "T" 1 [UNode "F" 1 [ULeaf (RVCtor "Token::Int" [RVOther 2])]]]]%string.
Ltac prove_tree := repeat first
  [ apply ut_named | apply ut_leaf; vm_compute; reflexivity
  | (eapply ut_node; [vm_compute; reflexivity|]) | apply uf_nil | apply uf_cons ].
Example case_tree : utree_of (nts arith) (class arith) tree_1_plus_2 (ASNonTerminal "E") /\
  feeds_then (E := string) vec_next [int 1; PLUS; int 2] (uyield tree_1_plus_2) None [].
Proof.
  split; [unfold tree_1_plus_2; prove_tree|]. exists []. split; [|reflexivity].
  repeat (econstructor; [reflexivity|]). constructor.
Qed.
Example case_no_empty : no_empty_production (nts arith).
Proof.
  intros n p pr H Hs.
  pose proof (all_productions_spec (nts arith) (fun _ q => match ap_symbols q with [] => false | _ => true end) n p pr eq_refl H) as Hc.
  cbn beta in Hc. rewrite Hs in Hc. discriminate.
Qed.
(** C12 for a grammar with an empty production ([Balanced -> epsilon | ...], tests/tests.rs). *)
Example case_c12_parens toks : sentence (nts parens) (class parens) "Entry"%string toks <->
  exists v w', returns parens_gp (fun v => v) (fun _ _ w => Some (RVUnit "()"%string, w)) (vec_next) parens_Entry (map inl toks) 0
    {| oc_result := POk v; oc_iter := []; oc_world := w' |}.
Proof.
  apply (c12_exact parens parens_gp parens_Entry (fun v => v) (fun _ _ w => Some (RVUnit "()"%string, w)) vec_next (map inl toks) 0 parens_parser toks [] parens_lr1 parens_plain).
  - discriminate.
  - exists []. split; [|reflexivity]. induction toks as [|t toks IH]; [constructor|]. econstructor; [reflexivity|exact IH].
Qed.
