(** * TimeProofs: the bound of RunLinear.v for generated parsers *)
From Verif Require Export RunLinear PropRun.

Section Time.
Context {A : Type}.
Variable items : list (grammar_item A).
Notation nts := (declared_nts items).
Notation cs := (token_entries items).
Variable gp : generated (lexpr A).
Hypothesis Hnames : distinct_names items.
Hypothesis Hplain : plain_patterns items.
Hypothesis Hexp : expands items gp.

Definition linear (K : nat) : Prop := forall (E V W I : Type) (inj : rval -> V) (usem : A -> list (string * bval V) -> W -> option (V * W))
  (next : I -> option (rval + E) * I) pr it w n st, In pr (gp_parsers gp) ->
  iterations gp (user_env gp inj usem next) pr n (init_pstate (user_env gp inj usem next) pr it w) = Some st ->
  exists evs toks, parse_events gp (user_env gp inj usem next) n pr it w = evs /\ List.length evs = S n /\
    nexts_of evs = map (fun t => Some (inl t)) toks ++ [ps_token st] /\ S (S n) <= K * S (List.length toks).

Lemma esteps_length {E V W I} (env : env_t (lexpr A) rval E V W I) pr n st evs st' :
  esteps gp pr env n st evs st' -> List.length evs = n.
Proof.
  induction 1 as [st|n st evs st1 st2 H H1 IH]; [reflexivity|]. rewrite app_length, IH.
  destruct (step_inl_events gp pr env _ _ H) as [(-> & _)|(a & -> & _)]; reflexivity.
Qed.

Lemma linear_bound : tails_productive nts -> tails_plain nts \/ empty_direct nts \/ ulr1_grammar nts -> exists K, linear K.
Proof.
  intros Hprod Hcond.
  destruct (gp_parsers gp) as [|pr0 prs] eqn:Eprs; [exists 0; intros E V W I inj usem next pr it w n st Hpr; rewrite Eprs in Hpr; destruct Hpr|].
  assert (Hp0 : parser_of items gp pr0) by (repeat split; auto; rewrite Eprs; left; reflexivity).
  destruct (expands_data items gp Hexp) as (ho & fl & Hho & ti & g & tbl & states & entries & act & H1 & H2 & H3 & H4 & _ & H6 & _).
  assert (Hend : reductions_end g states entries act).
  { destruct Hcond as [H|[H|H]].
    - eapply (reductions_end_inhabited g H2 cs tbl states entries act gp H3).
      apply (reliable_inhabited items Hnames ti g H1 ho Hho fl tbl H4). split; auto.
    - eapply (reductions_end_inhabited g H2 cs tbl states entries act gp H3).
      apply (reliable_inhabited items Hnames ti g H1 ho Hho fl tbl H4). split; auto.
    - assert (Hlr1 : lr1_grammar g) by (eapply lr1_up; eauto).
      pose proof (tails_productive_down items gp pr0 Hp0 ti g H1 Hprod) as Hpg.
      exact (reductions_end_lr1 g H2 cs tbl states entries act gp H3 (first_table_sound g ho (hok_terms ho Hho) fl tbl H4) Hlr1 Hpg). }
  destruct (bound_exists g cs tbl states entries act gp H3 Hend) as (K & HK).
  exists (K + K * (K + 2) + 3).
  intros E V W I inj usem next pr it w n st Hpr Hit.
  assert (Hp : parser_of items gp pr) by (repeat split; auto).
  destruct (parser_entry items gp ti g tbl states entries act H1 H3 pr Hpr) as (N & i & e & HN & Hpub & Hnm & _ & Hpf).
  pose proof (env_tokens_ok items Hplain gp ti g tbl states entries act H1 H3 inj usem next) as Htok.
  destruct (iterations_steps gp pr inj usem next _ _ _ Hit) as (evs & Hes & Hev).
  destruct (steps_trace g H2 cs tbl states entries act gp H3 pr (S i) e Hpf _ Htok it w _ _ (esteps_steps _ _ _ _ _ _ _ Hes)) as (c & b & Htr).
  destruct (trace_events g H2 cs tbl states entries act gp H3 pr (S i) e Hpf _ Htok it w _ _ _ _ Htr) as (evs' & He' & Hnx & _).
  assert (evs' = evs).
  { assert (Hf : forall n st e1 s1, esteps gp pr (user_env gp inj usem next) n st e1 s1 -> forall e2 s2, esteps gp pr (user_env gp inj usem next) n st e2 s2 -> e1 = e2).
    { clear. induction 1 as [st|n st evs st1 st2 Hs Hes IH]; intros e2 s2 H'; inversion H' as [|? ? evs' st1' ? Hs' Hes']; subst; auto.
      rewrite Hs in Hs'. injection Hs' as <-. f_equal. eauto. }
    eapply Hf; eauto. }
  subst evs'.
  exists (parse_events gp (user_env gp inj usem next) n pr it w), c. split; [reflexivity|]. unfold parse_events. rewrite Hev.
  split; [simpl; f_equal; eapply esteps_length; eauto|]. split; [exact Hnx|].
  destruct (trace_account g H2 cs tbl states entries act gp H3 pr (S i) e Hpf _ Htok it w K HK _ _ _ _ Htr) as (Hb & _).
  rewrite Nat.mul_add_distr_r, Nat.mul_add_distr_r.
  assert (Hx : K * (K + 2) * S (List.length c) = K * (K + 2) + K * (K + 2) * List.length c) by ring. rewrite Hx.
  assert (K <= K * S (List.length c)) by lia. lia.
Qed.
End Time.
