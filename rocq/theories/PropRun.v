(** * PropRun: runs that have not returned yet; liveness and completeness at user level *)
From Verif Require Export UserPrefix RunTerm.

Lemma ltree_inj {A Tok} (nts : list (ast_non_terminal A)) (class : Tok -> option string) :
  (forall t s, utree_of nts class t s -> forall t', utree_of nts class t' s -> ltree nts t = ltree nts t' -> t = t') /\
  (forall ts ss, uforest_of nts class ts ss -> forall ts', uforest_of nts class ts' ss ->
     map (ltree nts) ts = map (ltree nts) ts' -> ts = ts').
Proof.
  apply utree_uforest_ind.
  - intros t b s _ IH t' H' Heq. inversion H'; subst. auto.
  - intros tok s Hc t' H' Heq. inversion H'; subst. cbn in Heq. congruence.
  - intros nm p kids pr Hp _ IH t' H' Heq. inversion H' as [| |nm' p' kids' pr' Hp' Hk']; subst. cbn in Heq.
    injection Heq as Hpp Hkk. subst p'. assert (pr' = pr) by congruence. subst pr'. f_equal. apply IH; auto.
  - intros ts' H' _. inversion H'; auto.
  - intros t ts s ss _ IHt _ IHs ts' H' Heq. inversion H'; subst. cbn in Heq. injection Heq as E1 E2. f_equal; auto.
Qed.

Section PropRun.
Context {A : Type}.
Variable items : list (grammar_item A).
Notation nts := (declared_nts items).
Notation cs := (token_entries items).
Variable gp : generated (lexpr A).
Variable pr : parser_struct.
Hypothesis Hp : parser_of items gp pr.
Notation class := (token_class cs).
Context {E V W I : Type}.
Variable inj : rval -> V.
Variable usem : A -> list (string * bval V) -> W -> option (V * W).
Variable next : I -> option (rval + E) * I.
Variable it0 : I.
Variable w0 : W.
Notation env := (user_env gp inj usem next).
Notation fields := (fun tok => map inj (token_fields cs tok)).

Let Hnames : distinct_names items := proj1 Hp.
Let Hplain : plain_patterns items := proj1 (proj2 Hp).
Let Hexp : expands items gp := proj1 (proj2 (proj2 Hp)).
Let Hpr : In pr (gp_parsers gp) := proj2 (proj2 (proj2 Hp)).

Lemma iterations_steps n : forall st st', iterations gp env pr n st = Some st' -> exists evs,
  esteps gp pr env n st evs st' /\ run_events gp env n pr st = evs.
Proof.
  induction n as [|n IH]; intros st st' H; cbn [iterations run_events] in *.
  - inversion H; subst. exists []. split; [constructor|reflexivity].
  - destruct (step gp env pr st) as [st1|o] eqn:Es; [|discriminate].
    destruct (IH _ _ H) as (evs & H1 & <-). eexists. split; [econstructor; eauto|reflexivity].
Qed.

(** A run in progress: what was read, the completed subtrees and their effects. *)
Lemma run_prefix_st n st : iterations gp env pr n (init_pstate env pr it0 w0) = Some st -> exists toks syms forest vs rest,
  let it' := ps_iter st in let w' := ps_world st in let r := ps_token st in
  let evs := parse_events gp env n pr it0 w0 in
  feeds_then next it0 toks r it' /\ nexts_of evs = map (fun t => Some (inl t)) toks ++ [r] /\
  uforest_of nts class forest syms /\ flat_map uyield forest = toks /\
  uevals nts fields usem forest w0 = Some (vs, w') /\
  uderives nts [ASNonTerminal (pr_name pr)] (syms ++ rest) /\ ps_states st <> [].
Proof.
  intros Hit.
  destruct (expands_data items gp Hexp) as (ho & fl & Hho & ti & g & tbl & states & entries & act & H1 & H2 & H3 & H4 & _ & H6 & _).
  destruct (parser_entry items gp ti g tbl states entries act H1 H3 pr Hpr) as (N & i & e & HN & Hpub & Hnm & _ & Hpf).
  pose proof (env_tokens_ok items Hplain gp ti g tbl states entries act H1 H3 inj usem next) as Htok.
  destruct (iterations_steps _ _ _ Hit) as (evs & Hes & Hev).
  destruct (steps_trace g H2 cs tbl states entries act gp H3 pr (S i) e Hpf _ Htok it0 w0 _ _ (esteps_steps _ _ _ _ _ _ _ Hes)) as (c & b & Htr).
  destruct (trace_inv g H2 cs tbl states entries act gp H3 pr (S i) e Hpf _ Htok it0 w0 _ _ _ _ Htr) as (pi & ts & Hi).
  destruct (trace_events g H2 cs tbl states entries act gp H3 pr (S i) e Hpf _ Htok it0 w0 _ _ _ _ Htr) as (evs' & He' & Hnx & _).
  assert (evs' = evs).
  { assert (Hf : forall n st e1 s1, esteps gp pr env n st e1 s1 -> forall e2 s2, esteps gp pr env n st e2 s2 -> e1 = e2).
    { clear. induction 1 as [st|n st evs st1 st2 Hs Hes IH]; intros e2 s2 H'; inversion H' as [|? ? evs' st1' ? Hs' Hes']; subst; auto.
      rewrite Hs in Hs'. injection Hs' as <-. f_equal. eauto. }
    eapply Hf; eauto. }
  subst evs'.
  destruct (viable_prefix g H2 tbl states entries (gn_aut _ _ _ _ _ _ _ H3) (S i) e (Hentry g entries gp pr (S i) e Hpf) _ _ (in_path _ _ _ _ _ _ _ _ _ _ Hi)) as (r & Hr).
  assert (Hpriv : forall n, In (NT n) (rev pi) -> is_private g n).
  { intros m Hm. apply in_rev in Hm. eapply path_private; eauto. eapply in_path; eauto. }
  destruct (sentential_up items Hnames ti g H1 N i (rev pi) r HN Hpub Hr Hpriv) as (ss & Hss & Hun & rest & Hd).
  destruct (u_forest_up items Hnames gp ti g tbl states entries act H1 H3 inj usem next _ _ _ (in_wf _ _ _ _ _ _ _ _ _ _ Hi) Hss) as (uf & Huf & Hlt).
  destruct (in_eval _ _ _ _ _ _ _ _ _ _ Hi) as (bs & Hbs & _).
  destruct (in_iter _ _ _ _ _ _ _ _ _ _ Hi) as (it1 & F & Nx).
  exists c, ss, uf, bs, rest. cbv zeta. split; [exists it1; auto|]. split.
  { unfold parse_events. rewrite Hev. exact Hnx. }
  split; auto. split.
  { rewrite <- (uyields_lt items uf), Hlt. apply (in_yield _ _ _ _ _ _ _ _ _ _ Hi). }
  split.
  { rewrite <- (u_evals items Hnames Hplain gp ti g tbl states entries act H1 H3 inj usem next _ _ _ _ Huf Hss), Hlt. exact Hbs. }
  rewrite Hnm. split; [exact Hd|]. pose proof (in_path _ _ _ _ _ _ _ _ _ _ Hi) as Hpth. inversion Hpth; discriminate.
Qed.

Lemma run_prefix n it' w' evs : running gp inj usem next pr it0 w0 n it' w' evs -> exists toks r syms forest vs rest,
  feeds_then next it0 toks r it' /\ nexts_of evs = map (fun t => Some (inl t)) toks ++ [r] /\
  uforest_of nts class forest syms /\ flat_map uyield forest = toks /\
  uevals nts fields usem forest w0 = Some (vs, w') /\
  uderives nts [ASNonTerminal (pr_name pr)] (syms ++ rest).
Proof.
  intros (st & Hit & <- & <- & <-). destruct (run_prefix_st _ _ Hit) as (toks & syms & forest & vs & rest & H).
  exists toks, (ps_token st), syms, forest, vs, rest. cbv zeta in H. tauto.
Qed.

(** [parse] returns on every stream that ends. *)
Lemma terminates : tails_reliable nts -> ends next it0 -> exists o, returns gp inj usem next pr it0 w0 o.
Proof.
  intros Hrel Hend.
  destruct (expands_data items gp Hexp) as (ho & fl & Hho & ti & g & tbl & states & entries & act & H1 & H2 & H3 & H4 & _ & H6 & _).
  destruct (parser_entry items gp ti g tbl states entries act H1 H3 pr Hpr) as (N & i & e & HN & Hpub & Hnm & _ & Hpf).
  pose proof (env_tokens_ok items Hplain gp ti g tbl states entries act H1 H3 inj usem next) as Htok.
  pose proof (reliable_inhabited items Hnames ti g H1 ho Hho fl tbl H4 Hrel) as Hinh.
  destruct (parse_terminates g H2 cs tbl states entries act gp H3 pr (S i) e Hpf env Htok it0 w0 Hinh (ends_finite _ _ Hend)) as (fuel & o & Ho).
  exists o, fuel. exact Ho.
Qed.

(** ** LR(1) grammars *)
Hypothesis Hlr : ulr1_grammar nts.

(** Productivity of tails, in the lowered grammar. *)
Lemma tails_productive_down ti g : lowered nts cs ti g -> tails_productive nts -> tails_productive_g g.
Proof.
  intros Hlow Hprod n p q X l m Hp' Hr Hin. destruct (tail_up items Hnames ti g Hlow _ _ _ _ _ _ Hp' Hr Hin) as (nm & Hm & Ht).
  destruct (Hprod _ Ht) as (w & Hw).
  destruct (derives_down items Hnames ti g Hlow _ _ Hw [NT m]) as (Ys & Hd & HY).
  { constructor; [apply sym_rel_nt; auto|constructor]. }
  assert (exists w', Ys = map T w') as (w' & ->).
  { clear - HY. remember (map ASTerminal w) as u eqn:Eu. revert w Eu.
    induction HY as [|s Y us Ys Hs HY IH]; intros w Eu; [exists []; reflexivity|].
    destruct w as [|t w]; [discriminate|]. injection Eu as -> ->.
    destruct (IH w eq_refl) as (w' & ->). destruct Hs as (i & _ & ->). exists (i :: w'). reflexivity. }
  exists w'. exact Hd.
Qed.

Lemma terminates_lr : tails_productive nts -> ends next it0 -> exists o, returns gp inj usem next pr it0 w0 o.
Proof.
  intros Hprod Hend.
  destruct (expands_data items gp Hexp) as (ho & fl & Hho & ti & g & tbl & states & entries & act & H1 & H2 & H3 & H4 & _ & H6 & _).
  destruct (parser_entry items gp ti g tbl states entries act H1 H3 pr Hpr) as (N & i & e & HN & Hpub & Hnm & _ & Hpf).
  pose proof (env_tokens_ok items Hplain gp ti g tbl states entries act H1 H3 inj usem next) as Htok.
  pose proof (first_table_sound g ho (hok_terms ho Hho) fl tbl H4) as Hsound.
  assert (Hlr1 : lr1_grammar g) by (eapply lr1_up; eauto).
  destruct (parse_terminates_lr1 g H2 cs tbl Hsound states entries act gp H3 pr (S i) e Hpf Hlr1
              (tails_productive_down ti g H1 Hprod) env Htok it0 w0 (ends_finite _ _ Hend)) as (fuel & o & Ho).
  exists o, fuel. exact Ho.
Qed.

Lemma unique t t' : utree_of nts class t (ASNonTerminal (pr_name pr)) -> utree_of nts class t' (ASNonTerminal (pr_name pr)) ->
  uyield t = uyield t' -> t = t'.
Proof.
  intros Ht Ht' Hy.
  destruct (expands_data items gp Hexp) as (ho & fl & Hho & ti & g & tbl & states & entries & act & H1 & H2 & H3 & H4 & _ & H6 & _).
  destruct (parser_entry items gp ti g tbl states entries act H1 H3 pr Hpr) as (N & i & e & HN & Hpub & Hnm & _ & Hpf).
  assert (Hlr1 : lr1_grammar g) by (eapply lr1_up; eauto).
  rewrite Hnm in Ht, Ht'.
  destruct (entry_down nts cs ti g H1 Hnames _ class (env_class items gp g tbl states entries act H3 inj usem next) (tok_fields env) usem N i t HN Hpub Ht) as (Hw & Hy1 & _).
  destruct (entry_down nts cs ti g H1 Hnames _ class (env_class items gp g tbl states entries act H3 inj usem next) (tok_fields env) usem N i t' HN Hpub Ht') as (Hw' & Hy2 & _).
  pose proof (entry_is g cs tbl states entries act gp H3 pr (S i) e Hpf) as HS.
  destruct (entry_prod g H2 cs tbl states entries act gp H3 pr (S i) e Hpf) as (m & q & Hq & Hr).
  assert (Heq : ltree nts t = ltree nts t').
  { eapply (lr1_unambiguous g H2 (S i) HS _ m q Hq Hr Hlr1).
    - inversion Hw as [|? ? ? q' Hq' Hk]; subst. assert (q' = q) by congruence. subst q'. rewrite Hr in Hk. inversion Hk; subst. eassumption.
    - inversion Hw' as [|? ? ? q' Hq' Hk]; subst. assert (q' = q) by congruence. subst q'. rewrite Hr in Hk. inversion Hk; subst. eassumption.
    - simpl in Hy1, Hy2. rewrite app_nil_r in Hy1, Hy2. congruence. }
  eapply (proj1 (ltree_inj nts class)); eauto.
Qed.

Hypothesis Htp : tails_plain nts.

Lemma complete t itf : utree_of nts class t (ASNonTerminal (pr_name pr)) ->
  feeds_then next it0 (uyield t) None itf ->
  exists o, returns gp inj usem next pr it0 w0 o /\
    match ueval nts fields usem t w0 with
    | Some (BVal v, w) => o = {| oc_result := POk v; oc_iter := itf; oc_world := w |}
    | _ => oc_result o = PPanic UserPanic
    end.
Proof.
  intros Ht (it1 & F & Nx).
  destruct (expands_data items gp Hexp) as (ho & fl & Hho & ti & g & tbl & states & entries & act & H1 & H2 & H3 & H4 & _ & H6 & _).
  destruct (parser_entry items gp ti g tbl states entries act H1 H3 pr Hpr) as (N & i & e & HN & Hpub & Hnm & _ & Hpf).
  pose proof (env_tokens_ok items Hplain gp ti g tbl states entries act H1 H3 inj usem next) as Htok.
  pose proof (tails_plain_complete items Hnames ti g H1 ho Hho fl tbl H4 Htp) as Hcomp.
  pose proof (first_table_sound g ho (hok_terms ho Hho) fl tbl H4) as Hsound.
  assert (Hno : no_override g states act).
  { eapply (lr1_no_override g H2 tbl Hsound states entries (gn_aut _ _ _ _ _ _ _ H3)); [eapply lr1_up; eauto|apply (gn_act _ _ _ _ _ _ _ H3)]. }
  rewrite Hnm in Ht.
  destruct (entry_down nts cs ti g H1 Hnames _ class (env_class items gp g tbl states entries act H3 inj usem next) (tok_fields env) usem N i t HN Hpub Ht) as (Hw & Hy & He).
  destruct (complete_parse g H2 cs tbl states entries act gp H3 pr (S i) e Hpf env Htok it0 w0 Hcomp Hno _ _ it1 itf Hw Hy F Nx) as (fuel & o & Ho & Hm).
  exists o. split; [exists fuel; exact Ho|].
  replace (ueval nts fields usem t w0) with (eval_tree g (tok_fields env) (e_sem env) (Node (S i) 0 [ltree nts t]) w0); [exact Hm|].
  etransitivity; [exact (He w0)|]. apply ueval_ext. exact (env_fields items Hplain gp g tbl states entries act H3 inj usem next).
Qed.

End PropRun.
