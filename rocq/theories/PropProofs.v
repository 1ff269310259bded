(** * PropProofs: proofs of the user-level properties of generated parsers *)
From Verif Require Export PropSpec UserConflict GenPanics RunTrace RunLock RunLive RunComplete UserProofs Termination Determinism GenShape.

Lemma ends_finite {Tok E I} (next : I -> option (Tok + E) * I) it : ends next it -> finite_stream next it.
Proof.
  intros (toks & r & it' & (it1 & Hf & Hn) & Hr). exists toks, it1, r, it'. split; auto. split; auto.
  intros tok ->. destruct Hr as [Hr|(e & Hr)]; discriminate.
Qed.

Lemma feeds_then_intro {Tok E I} (next : I -> option (Tok + E) * I) it toks it1 r it' :
  feeds next it toks it1 -> next it1 = (r, it') -> feeds_then next it toks r it'.
Proof. exists it1; auto. Qed.

Lemma feeds_fun {Tok E I} (next : I -> option (Tok + E) * I) it toks it1 : feeds next it toks it1 ->
  forall toks' it1', feeds next it toks' it1' -> (exists x, toks' = toks ++ x) \/ (exists x, toks = toks' ++ x).
Proof.
  induction 1 as [it|it tok it1 toks it2 Hn Hf IH]; intros toks' it1' H'.
  - left. exists toks'; auto.
  - inversion H' as [|x tok' itx toks2 ity Hn' Hf']; subst.
    + right. exists (tok :: toks); auto.
    + rewrite Hn in Hn'. inversion Hn'; subst. destruct (IH _ _ Hf') as [(x & ->)|(x & ->)]; [left|right]; exists x; auto.
Qed.
Lemma feeds_det {Tok E I} (next : I -> option (Tok + E) * I) it toks it1 : feeds next it toks it1 ->
  forall it1', feeds next it toks it1' -> it1 = it1'.
Proof.
  induction 1 as [it|it tok it1 toks it2 Hn Hf IH]; intros it1' H'; inversion H'; subst; auto. apply IH. congruence.
Qed.

Section P.
Context {A : Type}.
Variable items : list (grammar_item A).
Notation nts := (declared_nts items).
Notation cs := (token_entries items).
Hypothesis Hnames : distinct_names items.
Hypothesis Hplain : plain_patterns items.
Variable gp : generated (lexpr A).
Hypothesis Hexp : expands items gp.
Notation class := (token_class cs).

Lemma expands_data : exists ho fuel, hash_order_ok ho /\ exists ti g tbl states entries act,
    lowered nts cs ti g /\ wf_grammar g /\ generated_ok g cs tbl states entries act gp /\
    generate_first_table ho fuel g = Ok tbl /\ no_detected_conflict g states /\
    generate_lr1_automaton ho fuel g tbl = Ok (states, entries) /\
    generate_lr1_parser ho fuel g (the_tokens items) = Ok gp.
Proof.
  destruct Hexp as (ho & fuel & Hho & Hm). exists ho, fuel. split; auto.
  destruct (macro_ok ho Hho fuel items gp Hm) as (ti & g & tbl & states & entries & act & H1 & H2 & H3 & H4 & H5 & H6 & H7 & H8).
  exists ti, g, tbl, states, entries, act. repeat (split; [assumption|]). assumption.
Qed.

Context {E V W I : Type}.
Variable inj : rval -> V.
Variable usem : A -> list (string * bval V) -> W -> option (V * W).
Variable next : I -> option (rval + E) * I.
Variable pr : parser_struct.
Hypothesis Hpr : In pr (gp_parsers gp).
Variable it0 : I.
Variable w0 : W.
Notation fields := (fun tok => map inj (token_fields cs tok)).
Notation ret := (returns gp inj usem next pr it0 w0).
Notation retw := (returns_with gp inj usem next pr it0 w0).

Lemma returns_fun o o' : ret o -> ret o' -> o = o'.
Proof. intros (f & H) (f' & H'). unfold parse in *. eapply run_fun; eauto. Qed.

Notation error_report := (error_report E I items gp inj usem pr w0).
Notation enumerate_from k l := (combine (seq k (List.length l)) l).
Lemma filter_enumerate (f : nat -> bool) (h : string -> bool) (l : list string) : forall k,
  (forall i s, nth_error l i = Some s -> f (k + i) = h s) ->
  map snd (filter (fun x => f (fst x)) (enumerate_from k l)) = filter h l.
Proof.
  induction l as [|s l IH]; intros k H; [reflexivity|]. cbn [List.length seq combine filter fst].
  pose proof (H 0 s eq_refl) as H0. rewrite Nat.add_0_r in H0. rewrite H0.
  assert (Hr : map snd (filter (fun x => f (fst x)) (enumerate_from (S k) l)) = filter h l).
  { apply IH. intros i t Hi. rewrite <- (H (S i) t Hi). f_equal. lia. }
  destruct (h s); cbn [map snd]; rewrite Hr; reflexivity.
Qed.

Definition index_of (s : string) : option nat := option_map fst (find (fun x => String.eqb (snd x) s) (enumerate (map cv_from cs))).
Definition by_name (f : nat -> bool) (s : string) : bool := match index_of s with Some i => f i | None => false end.

Lemma index_of_nth i s : NoDup (map cv_from cs) -> nth_error (map cv_from cs) i = Some s -> index_of s = Some i.
Proof.
  intros Hnd Hi. unfold index_of, enumerate.
  assert (H : forall l k i, NoDup l -> nth_error l i = Some s -> option_map fst (find (fun x => String.eqb (snd x) s) (enumerate_from k l)) = Some (k + i)).
  { clear. induction l as [|a l IH]; intros k i Hnd Hi; [destruct i; discriminate|]. inversion Hnd; subst.
    cbn [List.length seq combine find snd]. destruct i as [|i]; cbn in Hi.
    - inversion Hi; subst. rewrite String.eqb_refl. cbn. f_equal. lia.
    - destruct (String.eqb_spec a s) as [->|_]; [exfalso; apply H1; eapply nth_error_In; eauto|].
      rewrite (IH (S k) i) by auto. f_equal. lia. }
  rewrite (H _ _ _ Hnd Hi). reflexivity.
Qed.

Lemma run_data o evs : retw o evs -> exists ho fl, hash_order_ok ho /\ exists ti g tbl states entries act N i e n st c b,
    lowered nts cs ti g /\ wf_grammar g /\ generated_ok g cs tbl states entries act gp /\
    generate_first_table ho fl g = Ok tbl /\ generate_lr1_automaton ho fl g tbl = Ok (states, entries) /\
    In (N, i) (slots 0 nts) /\ an_pub N = true /\ pr_name pr = an_name N /\
    parser_for g (gp_sem_actions gp) entries pr (S i) e /\
    trace gp pr (user_env gp inj usem next) it0 w0 n st c b /\
    step gp (user_env gp inj usem next) pr st = inr o /\
    user_outcome items inj usem next (pr_name pr) it0 w0 o c (ps_token st) /\
    nexts_of evs = map (fun t => Some (inl t)) c ++ [ps_token st] /\
    (forall er, oc_result o = PLexerError er <-> ps_token st = Some (inr er)) /\
    (forall er, ps_token st = Some (inr er) -> exists pre, evs = pre ++ [EvNext (ps_token st)]) /\
    (b = true -> forall f x, oc_result o = PParserError f x -> exists pre, evs = pre ++ [EvNext (ps_token st)]).
Proof.
  intros (fuel & H & <-). destruct expands_data as (ho & fl & Hho & ti & g & tbl & states & entries & act & H1 & H2 & H3 & H4 & _ & H6 & _).
  exists ho, fl. split; auto.
  destruct (parser_entry items gp ti g tbl states entries act H1 H3 pr Hpr) as (N & i & e & HN & Hpub & Hnm & _ & Hpf).
  pose proof (env_tokens_ok items Hplain gp ti g tbl states entries act H1 H3 inj usem next) as Htok.
  destruct (parse_stop g H2 cs tbl states entries act gp H3 pr (S i) e Hpf _ Htok it0 w0 fuel o H)
    as (n & st & c & b & Q1 & Q2 & Q3 & Q4 & Q5 & Q6 & Q7).
  exists ti, g, tbl, states, entries, act, N, i, e, n, st, c, b. repeat (split; [assumption|]).
  split; [|repeat (split; [assumption|]); assumption].
  eapply (outcome_up items Hnames Hplain gp ti g tbl states entries act H1 H3 inj usem next it0 w0); eauto.
Qed.

Lemma returns_events o : ret o -> exists evs, retw o evs.
Proof. intros (fuel & H). eexists. exists fuel. split; [exact H|reflexivity]. Qed.
Lemma returns_with_returns o evs : retw o evs -> ret o.
Proof. intros (fuel & H & _). exists fuel; auto. Qed.

(** The description of a run shared by the properties. *)
Lemma run_summary o evs : retw o evs -> exists toks r,
  feeds_then next it0 toks r (oc_iter o) /\
  user_outcome items inj usem next (pr_name pr) it0 w0 o toks r /\
  nexts_of evs = map (fun t => Some (inl t)) toks ++ [r] /\
  (forall er, oc_result o = PLexerError er <-> r = Some (inr er)) /\
  (forall er, r = Some (inr er) -> exists pre, evs = pre ++ [EvNext r]) /\
  (tails_reliable nts -> forall f x, oc_result o = PParserError f x ->
     (exists pre, evs = pre ++ [EvNext r]) /\
     (forall (next' : I -> option (rval + E) * I) it0' er it', feeds_then next' it0' toks (Some (inr er)) it' ->
        returns gp inj usem next' pr it0' w0 {| oc_result := PLexerError er; oc_iter := it'; oc_world := oc_world o |}) /\
     exists listed, error_report toks (oc_world o) x listed).
Proof.
  intro H. destruct (run_data o evs H) as (ho & fl & Hho & ti & g & tbl & states & entries & act & N & i & e & n & st & c & b & H1 & H2 & H3 & H4 & H5 & HN & Hpub & Hnm & Hpf & Htr & Hst & Hu & Q1 & Q2 & Q3 & Q4).
  exists c, (ps_token st). pose proof Hu as (syms & forest & it1 & vs & w1 & F & Nx & _).
  split; [exists it1; auto|]. split; auto. split; auto. split; auto. split; auto.
  intros Hrel f x Hx.
  pose proof (reliable_inhabited items Hnames ti g H1 ho Hho fl tbl H4 Hrel) as Hinh.
  pose proof (env_tokens_ok items Hplain gp ti g tbl states entries act H1 H3 inj usem next) as Htok.
  destruct (parser_error_state g H2 cs tbl states entries act gp H3 pr (S i) e Hpf _ Htok it0 w0 Hinh _ _ _ _ _ _ _ Htr Hst Hx)
    as (-> & la & s & ss & Hss & Hla & Ha & Hfd & Hex & Hoo).
  assert (Hw : oc_world o = ps_world st) by (rewrite Hoo; reflexivity). rewrite Hw.
  assert (Hsame : forall next', same_functions (user_env gp inj usem next) (user_env gp inj usem next')) by (intro; repeat split).
  split; [eapply Q4; eauto|]. split.
  - intros next' it0' er it' (it1' & F' & N').
    eapply (replace_by_lexer_error g H2 cs tbl states entries act gp H3 pr (S i) e Hpf _ _ (Hsame next') Htok it0 it0' w0); eauto.
  - assert (Hnd : NoDup (map cv_from cs)) by (apply (ti_dup _ _ _ (lo_ti _ _ _ _ H1))).
    assert (Hterm : g_terminals g = map cv_from cs) by (apply (lo_terms _ _ _ _ H1)).
    assert (Hby : forall i0 s0, nth_error (map cv_from cs) i0 = Some s0 -> shiftable act s i0 = by_name (shiftable act s) s0).
    { intros i0 s0 Hi0. unfold by_name. rewrite (index_of_nth _ _ Hnd Hi0). reflexivity. }
    exists (by_name (shiftable act s)). split.
    + rewrite Hex, err_expected_filter, Hterm. unfold listing, join. f_equal. apply filter_enumerate. exact Hby.
    + intros next' it0' tok s0 it' Hc (it1' & F' & N').
      rewrite (env_class items gp g tbl states entries act H3 inj usem next) in Hc.
      destruct (e_tok_idx (user_env gp inj usem next) tok) as [t|] eqn:Et; [|discriminate].
      rewrite <- (Hby _ _ Hc).
      pose proof (replace_token g H2 cs tbl states entries act gp H3 pr (S i) e Hpf _ _ (Hsame next') Htok it0 it0' w0 Hinh _ _ _ _ _ Htr Hss tok t it1' it' Et F' N') as Hrt.
      destruct (shiftable act s t).
      * intros o' (fuel' & Ho'). destruct (Hrt _ _ Ho') as [Hp|(more & it3 & tk' & F3 & N3)]; [left; auto|].
        right. exists more, tk', it3. auto.
      * destruct Hrt as (fuel' & found' & Hfd' & Hp). exists fuel'. rewrite Hterm, Hc in Hfd'. inversion Hfd'; subst found'.
        rewrite Hex. exact Hp.
Qed.
End P.
