(** * PropertiesComputed: every accepted grammar (C59, C60)

    The FIRST sets of src/first.rs are not always the true ones (C14, C16, C20, C23).  They are sets of the kind
    described in ComputedSpec.v, and the macro and its parsers are exact relative to them: no side
    condition on the grammar is needed here. *)
From Verif Require Import ComputedProofs PropertiesEffects PropertiesKnuth PropertiesGen Findings Lookahead.
From Verif Require Export ComputedSpec PropertiesCode.
Local Open Scope string_scope. Local Open Scope list_scope.

(** ** C59: a generated parser is the LR(1) machine of the computed FIRST sets *)

(** These contain nothing wrong, and account for every production. *)
Theorem c59_sets {A} (items : list (grammar_item A)) : distinct_names items -> supported (nts items) (cs items) ->
  first_sets (nts items) (computed items).
Proof.
  intros Hn Hs. destruct (stages_exist items Hs) as (g & tbl & states & entries & Hst). exact (stages_sets items g tbl states entries Hn Hst).
Qed.

(** Lookaheads from such sets are true lookaheads; on [tails_plain] grammars they are all of them. *)
Theorem c59_lookaheads {A} (nts : list (ast_non_terminal A)) F : first_sets nts F ->
  (forall l la x, ffirst F l la x -> uin_first nts l la x) /\
  (tails_plain nts -> forall n p pr k la x, uproduction nts n p = Some pr ->
     (ffirst F (skipn (S k) (body pr)) la x <-> uin_first nts (skipn (S k) (body pr)) la x)).
Proof. intro HF. split; [exact (ffirst_sound nts F HF)|exact (ffirst_exact nts F HF)]. Qed.

(** The sets the macro uses, with lookaheads that agree. *)
Lemma computed_up_down {A} (items : list (grammar_item A)) g tbl states entries : distinct_names items -> stages items g tbl states entries ->
  lookahead_up items g tbl (first_la tbl) (ffirst (computed items)) /\ lookahead_down items g tbl (first_la tbl) (ffirst (computed items)).
Proof.
  intros Hn Hst. destruct (stages_data items _ _ _ _ Hst) as (ti & Hlow & Hwf & Haut & Hso & _).
  split; [exact (computed_up items Hn g tbl states entries Hst ti Hlow Hso)|exact (computed_down items Hn g tbl states entries Hst)].
Qed.

(** [parse] returns an outcome after a series of calls exactly if the machine of these sets does, and goes on
    forever exactly if the machine does, for all actions, iterators and worlds. *)
Theorem c59_machine {A} (items : list (grammar_item A)) gp : distinct_names items -> plain_patterns items -> expands items gp ->
  exists nt_no no variant, numbering items gp nt_no no variant /\
  forall pr, In pr (gp_parsers gp) ->
  forall (E V W I : Type) (inj : rval -> V) (usem : A -> list (string * bval V) -> W -> option (V * W)) (next : I -> option (rval + E) * I) it w,
  (forall o evs, returns_with gp inj usem next pr it w o evs <->
     exists kevs, kreturns_by (nts items) (ffirst (computed items)) (map cv_from (cs items)) (class items) (fields items inj) usem next (pr_name pr) it w o kevs /\
       evs = map (rendered no pr) kevs) /\
  (forall n it' w' evs, running gp inj usem next pr it w n it' w' evs <->
     exists c kevs, kruns_by (nts items) (ffirst (computed items)) (class items) (fields items inj) usem next (pr_name pr) it w n c kevs /\
       kc_iter c = it' /\ kc_world c = w' /\ evs = map (rendered no pr) kevs).
Proof.
  intros Hn Hpl Hexp. destruct (expands_expansion items gp Hexp) as (g & tbl & states & entries & He).
  destruct (computed_up_down items g tbl states entries Hn (expansion_stages items _ _ _ _ _ He)) as (Hlu & Hld).
  destruct (expansion_data items _ _ _ _ _ He) as (ti & act & H1 & H2 & H3 & H4 & _ & ho & fl & Hho & H5 & H6 & H7).
  exact (knuth_by items gp ho fl ti g tbl states entries act Hho H1 H2 H3 H6 H4 H7 H5 _ _ Hlu Hld Hn Hpl Hexp).
Qed.

(** The machine of the computed FIRST sets, with user code that shares a state. *)
Lemma effects_machine {A} (items : list (grammar_item A)) gp pr : parser_of items gp pr ->
  forall (E V St : Type) (inj : rval -> V) (usem : A -> list (string * bval V) -> St -> completion V * St)
    (next : St -> option (option (rval + E)) * St) (clone : E -> St -> option E * St), no_return usem ->
  forall n u, exists y,
    emoves_by (nts items) (ffirst (computed items)) (map cv_from (cs items)) (class items) (fields items inj) usem next clone (pr_name pr) n (einit next u) y /\
    (forall y', emoves_by (nts items) (ffirst (computed items)) (map cv_from (cs items)) (class items) (fields items inj) usem next clone (pr_name pr) n (einit next u) y' -> y' = y) /\
    match x_parse gp (user_xenv gp inj usem next clone) n pr u, y with
    | inl st, inl c => xs_token st = ec_token c /\ xs_user st = ec_user c /\ map payload (xs_values st) = map snd (ec_stack c) /\
        List.length (xs_states st) = S (List.length (ec_stack c))
    | inr o, inr o' => o = o'
    | _, _ => False
    end.
Proof.
  intros Hp E V St inj usem next clone Hnr n u.
  destruct (expands_expansion items gp (proj1 (proj2 (proj2 Hp)))) as (g & tbl & states & entries & He).
  destruct (computed_up_down items g tbl states entries (proj1 Hp) (expansion_stages items _ _ _ _ _ He)) as (Hlu & Hld).
  destruct (expansion_data items _ _ _ _ _ He) as (ti & act & H1 & H2 & H3 & _).
  exact (effects_knuth_by items gp pr Hp inj usem next clone Hnr ti g tbl states entries act H1 H2 H3 _ _ Hlu Hld n u).
Qed.

(** The same with user code that shares a state and may panic anywhere (as in C56). *)
Theorem c59_effects {A} (items : list (grammar_item A)) gp pr : parser_of items gp pr ->
  forall (E V St : Type) (inj : rval -> V) (usem : A -> list (string * bval V) -> St -> completion V * St)
    (next : St -> option (option (rval + E)) * St) (clone : E -> St -> option E * St), no_return usem ->
  let xparse := x_parse gp (user_xenv gp inj usem next clone) in
  let moves := emoves_by (nts items) (ffirst (computed items)) (map cv_from (cs items)) (class items) (fields items inj) usem next clone (pr_name pr) in
  forall n u,
  (forall o, xparse n pr u = inr o <-> moves n (einit next u) (inr o)) /\
  (forall tk u', (exists st, xparse n pr u = inl st /\ xs_token st = tk /\ xs_user st = u') <->
                 (exists c, moves n (einit next u) (inl c) /\ ec_token c = tk /\ ec_user c = u')).
Proof.
  intros Hp E V St inj usem next clone Hnr xparse moves n u.
  destruct (effects_machine items gp pr Hp E V St inj usem next clone Hnr n u) as (y & Y1 & Y2 & Y3).
  fold moves in Y1, Y2. fold xparse in Y3. split.
  - intro o. split; intro H.
    + rewrite H in Y3. destruct y as [c|o']; [contradiction|]. subst o'. exact Y1.
    + apply Y2 in H. subst y. destruct (xparse n pr u) as [st|o']; [contradiction|]. congruence.
  - intros tk u'. split.
    + intros (st & H & <- & <-). rewrite H in Y3. destruct y as [c|o']; [|contradiction]. destruct Y3 as (-> & -> & _). eauto.
    + intros (c & H & <- & <-). apply Y2 in H. subst y. destruct (xparse n pr u) as [st|o']; [|contradiction]. destruct Y3 as (<- & <- & _). eauto.
Qed.

(** ** C60: which grammars are accepted

    Conflicts are reported exactly for the items of the computed FIRST sets. *)
Theorem c60_conflicts {A} (items : list (grammar_item A)) : distinct_names items ->
  (forall gp, expands items gp -> no_reported_conflict_by (nts items) (ffirst (computed items))) /\
  (forall p, expansion_panics items p -> conflict_panic p -> ~ no_reported_conflict_by (nts items) (ffirst (computed items))).
Proof.
  intro Hn. split.
  - intros gp He. destruct (expands_expansion items gp He) as (g & tbl & states & entries & He').
    pose proof (expansion_stages items _ _ _ _ _ He') as Hst. destruct (computed_up_down items g tbl states entries Hn Hst) as (_ & Hld).
    destruct (stages_data items _ _ _ _ Hst) as (ti & Hlow & Hwf & Haut & _).
    destruct (expansion_data items _ _ _ _ _ He') as (_ & act & _ & _ & _ & Hnd & _).
    exact (no_detected_no_reported items Hn ti g Hlow tbl states entries Haut _ _ Hld Hnd).
  - intros p Hp Hc Hnr. destruct (panic_cases items p Hp) as [(_ & ->)|[(_ & ->)|[(_ & _ & ->)|[(_ & _ & Hd)|(_ & _ & _ & [[-> _]|[[-> _]|(_ & g & tbl & states & entries & Hst & Hnd)]])]]]];
      try contradiction.
    + destruct p; contradiction.
    + destruct (stages_data items _ _ _ _ Hst) as (ti & Hlow & Hwf & Haut & _). apply Hnd.
      destruct (computed_up_down items g tbl states entries Hn Hst) as (Hlu & _).
      exact (no_reported_no_detected items Hn ti g Hlow tbl _ _ Haut _ _ Hlu Hnr).
Qed.
(** So a grammar whose numbers fit is accepted exactly if: it has one token enum and at most one user state
    type, uses only what is declared and supported, has no raw names in the wrong places, and has no reported
    conflict. *)
Theorem c60_accepted {A} (items : list (grammar_item A)) : distinct_names items -> ~ too_large items ->
  ((exists gp, expands items gp) <->
   List.length (declared_tokens items) = 1 /\ List.length (declared_states items) <= 1 /\ supported (nts items) (cs items) /\
   ~ raw_token_type items /\ ~ raw_entry_point items /\ no_reported_conflict_by (nts items) (ffirst (computed items))).
Proof.
  intros Hn Hsmall. split.
  - intros (gp & He). pose proof (proj1 (c60_conflicts items Hn) gp He) as H6. destruct (c39_raw_names items gp He) as (H4 & H5).
    destruct He as (ho & fl & Hho & Hm). pose proof (macro_unfold ho fl items) as Hu. rewrite Hm in Hu. destruct Hu as (te & g & Hte & Hst & Hl & _).
    rewrite Hte. split; [reflexivity|]. split; [exact Hst|]. rewrite (token_entries_one items te Hte). split; [apply lower_ok_iff; eauto|]. auto.
  - intros (H1 & H2 & H3 & H4 & H5 & H6). destruct (proj1 (c22_expands_or_panics items)) as [(gp & H)|(p & Hp)]; [eauto|]. exfalso.
    destruct (panic_cases items p Hp) as [(H & _)|[(H & _)|[(H & _)|[(_ & _ & Hd)|(_ & _ & _ & [[_ H]|[[_ [H|H]]|(Hc & _)]])]]]]; try contradiction; try lia.
    + rewrite H in H1. discriminate.
    + exact (lowering_diagnostic_unsupported _ _ _ Hd H3).
    + apply (proj2 (c60_conflicts items Hn) p Hp); [apply is_conflict_panic; exact Hc|exact H6].
Qed.

(** ** C23, for every grammar

    The state reached by [gamma] consists of the items that are valid for [gamma] with the lookaheads of the
    computed FIRST table. *)
Theorem c23_computed {A} (items : list (grammar_item A)) g tbl states entries n e gamma it :
  stages items g tbl states entries -> distinct_names items -> In (n, e) entries ->
  ((exists s, follow states e gamma = Some s /\ holds states s it) <->
   valid_by g (first_la tbl) n gamma (it_nt it) (it_prod it) (it_cursor it) (it_la it)).
Proof.
  intros Hst Hn He. destruct (computed_up_down items g tbl states entries Hn Hst) as (Hlu & Hld).
  destruct (stages_data items _ _ _ _ Hst) as (ti & Hlow & Hwf & Haut & _). split.
  - intros (s & Hf & st & Hs & Hi). apply follow_path in Hf. destruct Hf as (ss & Hp).
    destruct (valid_items g tbl states entries Haut n e He _ _ Hp) as (s' & ss' & st' & E & Hs' & _ & Hv). injection E as -> ->.
    assert (st' = st) by congruence; subst st'. apply Hv in Hi. destruct Hi as (d & Hd).
    pose proof (b_sound items g tbl _ _ Hlu n d _ it Hd) as H. rewrite rev_involutive in H. exact H.
  - intro Hv. destruct (b_complete items g tbl _ _ Hld n gamma _ _ _ _ Hv) as (d & Hd).
    destruct (valid_path g tbl states entries Haut n e He d _ _ Hd) as (ss & Hp).
    destruct (valid_items g tbl states entries Haut n e He _ _ Hp) as (s & ss' & st & -> & Hs & _ & Hi).
    exists s. split; [apply follow_path; eauto|]. exists st. split; auto. apply Hi. destruct it. exists d. exact Hd.
Qed.

(** ** Cases: grammars where the computed sets are not the true ones *)
Definition hidden_g : grammar (lexpr string) := Eval vm_compute in fst (fst (fst (stages_data_of hidden))).
Definition hidden_tbl : first_table := Eval vm_compute in snd (fst (fst (stages_data_of hidden))).
Definition hidden_states : list lr1_state := Eval vm_compute in snd (fst (stages_data_of hidden)).
Definition hidden_entries : list (nat * nat) := Eval vm_compute in snd (stages_data_of hidden).
Lemma hidden_stages : stages hidden hidden_g hidden_tbl hidden_states hidden_entries.
Proof. prove_stages. Qed.
Lemma hidden_supported : supported (nts hidden) (cs hidden).
Proof. apply lower_ok_iff. exists hidden_g. vm_compute. reflexivity. Qed.
(** FIRST(S) should contain "b". *)
Lemma hidden_sets : ~ f_terms (computed hidden) "S" "b" /\ f_terms (computed hidden) "S" "c" /\ f_empty (computed hidden) "B".
Proof.
  destruct hidden_parser as (Hn & _). split; [|split].
  - intro H. apply (computed_terms hidden Hn _ _ _ _ hidden_stages) in H. destruct H as (n & j & H1 & H2 & H3).
    vm_compute in H1. injection H1 as <-. vm_compute in H2. destruct H2 as [<-|[]]. vm_compute in H3. discriminate.
  - apply (computed_terms hidden Hn _ _ _ _ hidden_stages). exists 3, 2. split; [reflexivity|]. split; [left; reflexivity|reflexivity].
  - apply (computed_empty hidden Hn _ _ _ _ hidden_stages). exists 4. split; reflexivity.
Qed.
Example case_c59_first : uin_first (nts hidden) [ASNonTerminal "S"] None (Some "b") /\ ~ ffirst (computed hidden) [ASNonTerminal "S"] None (Some "b").
Proof.
  split.
  - left. exists "b", [ASTerminal "c"]. split; [reflexivity|].
    eapply ud_step; [exact (uds (nts hidden) [] "S" 0 _ [] eq_refl)|].
    eapply ud_step; [exact (uds (nts hidden) [] "B" 0 _ [ASTerminal "c"] eq_refl)|]. apply ud_refl.
  - destruct hidden_sets as (H1 & _ & _). intro H. inversion H; subst; [contradiction|]. match goal with H : ffirst _ [] _ _ |- _ => inversion H end.
Qed.
Example case_c59_not_plain : ~ tails_plain (nts hidden).
Proof.
  intro Htp. destruct case_c59_first as (H1 & H2). apply H2.
  refine (proj2 (proj2 (c59_lookaheads _ _ (c59_sets hidden (proj1 hidden_parser) hidden_supported)) Htp "P" 0 _ 0 None (Some "b") eq_refl) _). exact H1.
Qed.
(** So the machine of the computed sets rejects the sentence [a b c], as the parser does. *)
Example case_c59 : exists kevs,
  kreturns_by (nts hidden) (ffirst (computed hidden)) (map cv_from (cs hidden)) (class hidden) (fields hidden (fun v => v)) sem vec_next "P" abc []
    {| oc_result := PParserError "b" "c"; oc_iter := [inl (RVUnit "Token::C")]; oc_world := [] |} kevs.
Proof.
  destruct hidden_parser as (Hn & Hpl & He & Hin). destruct (c59_machine hidden hidden_gp Hn Hpl He) as (nn & no & va & _ & H).
  destruct (H hidden_P Hin string rval (list string) (list (rval + string)) (fun v => v) sem vec_next abc []) as (H1 & _).
  destruct abc_rejected as (fuel & Hf).
  destruct (proj1 (H1 {| oc_result := PParserError "b" "c"; oc_iter := [inl (RVUnit "Token::C")]; oc_world := [] |} (events_vec hidden_gp hidden_P abc)))
    as (kevs & Hk & _); [exists 300; split; vm_compute; reflexivity|]. eauto.
Qed.
(** On [late] the error comes after a reduction on "b". *)
Example case_c59_late : exists kevs,
  kreturns_by (nts late) (ffirst (computed late)) (map cv_from (cs late)) (class late) (fields late (fun v => v)) sem vec_next "S" ab []
    {| oc_result := PParserError "b" ""; oc_iter := []; oc_world := ["()"] |} kevs /\ List.length kevs = 3.
Proof.
  destruct late_parser as (Hn & Hpl & He & Hin). destruct (c59_machine late late_gp Hn Hpl He) as (nn & no & va & _ & H).
  destruct (H late_S Hin string rval (list string) (list (rval + string)) (fun v => v) sem vec_next ab []) as (H1 & _).
  destruct (proj1 (H1 _ _) late_rejected) as (kevs & Hk & Hev). exists kevs. split; [exact Hk|].
  rewrite <- (map_length (rendered no late_S) kevs), <- Hev. vm_compute. reflexivity.
Qed.
(** With effects: "b" is rejected by the same rule. *)
Lemma sem_no_return : no_return (St := list (rval + string) * list string) (pure_sem sem).
Proof. intros a b u. unfold pure_sem. destruct (sem a b (snd u)) as [(v & w)|]; discriminate. Qed.
Example case_c59_effects : exists n,
  emoves_by (nts hidden) (ffirst (computed hidden)) (map cv_from (cs hidden)) (class hidden) (fields hidden (fun v => v))
    (pure_sem sem) (pure_next vec_next) pure_clone "P" n (einit (pure_next vec_next) (abc, []))
    (inr (XOutcome (PParserError "b" "c") ([inl (RVUnit "Token::C")], []))).
Proof.
  exists 10. apply (proj1 (c59_effects hidden hidden_gp hidden_P hidden_parser string rval _ (fun v => v) (pure_sem sem) (pure_next vec_next) pure_clone sem_no_return 10 (abc, []))).
  vm_compute. reflexivity.
Qed.

(** [hidden] and [unseen] are accepted; the latter has a reduce/reduce conflict ([c15_refuted]), but not for
    the computed sets.  [rr_grammar] is rejected. *)
Example case_c60 : no_reported_conflict_by (nts unseen) (ffirst (computed unseen)) /\ ~ no_reported_conflict (nts unseen).
Proof.
  assert (Hd : distinct_names unseen) by prove_distinct. split.
  - apply (proj1 (c60_conflicts unseen Hd) (module_of unseen)). expand_it.
  - intro H. apply (H (hd (Build_ast_non_terminal _ false "" "" []) (nts unseen)) [ASTerminal "a"]); [left; reflexivity|reflexivity|].
    left. exact unseen_conflict.
Qed.
Example case_c60_rejected : ~ no_reported_conflict_by (nts rr_grammar) (ffirst (computed rr_grammar)).
Proof.
  assert (Hd : distinct_names rr_grammar) by prove_distinct.
  apply (proj2 (c60_conflicts rr_grammar Hd) (PReduceReduce 4 None 2 0 3 0)); [|exact Logic.I].
  exists ho_id, 100. split; [exact ho_id_ok|vm_compute; reflexivity].
Qed.
Example case_c60_accepted : ~ too_large hidden /\ no_reported_conflict_by (nts hidden) (ffirst (computed hidden)).
Proof.
  destruct hidden_parser as (Hn & Hpl & He & Hin). assert (Hs : ~ too_large hidden).
  { intros [H|[H|[H|[(N & pr & HN & Hpr & H)|(g & tbl & states & entries & Hst & H)]]]].
    - vm_compute in H. discriminate.
    - vm_compute in H. discriminate.
    - vm_compute in H. discriminate.
    - cbn in HN. repeat (destruct HN as [<-|HN]; [cbn in Hpr; repeat (destruct Hpr as [<-|Hpr]; [vm_compute in H; apply H; reflexivity|]); contradiction|]). contradiction.
    - destruct (stages_same hidden _ _ _ _ _ _ _ _ hidden_stages Hst) as (_ & _ & <- & _). vm_compute in H. discriminate. }
  split; [exact Hs|]. apply (proj1 (c60_accepted hidden Hn Hs)). eauto.
Qed.
(** The initial state of [hidden] lacks the valid item [A -> . "a", "b"] but holds [A -> . "a", "c"]. *)
Example case_c23_computed :
  valid_by hidden_g (first_la hidden_tbl) 1 [] 2 0 0 (Some 2) /\ ~ valid_by hidden_g (first_la hidden_tbl) 1 [] 2 0 0 (Some 1).
Proof.
  pose proof (fun it => c23_computed hidden _ _ _ _ 1 0 [] it hidden_stages (proj1 hidden_parser) (or_introl eq_refl)) as H. split.
  - apply (H {| it_nt := 2; it_prod := 0; it_cursor := 0; it_la := Some 2 |}). exists 0. split; [reflexivity|].
    eexists. split; [reflexivity|]. cbn. tauto.
  - intro Hv. apply (H {| it_nt := 2; it_prod := 0; it_cursor := 0; it_la := Some 1 |}) in Hv. destruct Hv as (s & Hf & st & Hs & Hi).
    cbn in Hf. injection Hf as <-. cbn in Hs. injection Hs as <-. cbn in Hi. intuition discriminate.
Qed.
