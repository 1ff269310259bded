(** * RunTrace: the order of [next()] calls and semantic action calls *)
From Verif Require Export RunLock RunComplete.

(** Results of the [next()] calls in a list of events. *)
Definition nexts {Tok E} (evs : list (event Tok E)) : list (option (Tok + E)) :=
  flat_map (fun v => match v with EvNext r => [r] | EvCall _ => [] end) evs.

Section Trace.
Context {A Tok E V W I : Type}.
Variable g : grammar A.
Hypothesis Hwf : wf_grammar g.
Variable conv : list conversion.
Variable tbl : first_table.
Variable states : list lr1_state.
Variable entries : list (nat * nat).
Variable act : nat -> option nat -> option aact.
Variable gp : generated A.
Hypothesis Hgen : generated_ok g conv tbl states entries act gp.
Variable pr : parser_struct.
Variables nt0 e : nat.
Hypothesis Hpf : parser_for g (gp_sem_actions gp) entries pr nt0 e.
Variable env : env_t A Tok E V W I.
Hypothesis Htok : tokens_ok g env.
Variable it0 : I.
Variable w0 : W.
Notation pst := (pstate Tok E V W I).
Notation ev := (event Tok E).
Notation trace := (trace gp pr env it0 w0).

Inductive esteps : nat -> pst -> list ev -> pst -> Prop :=
| es_0 : forall st, esteps 0 st [] st
| es_S : forall n st evs st1 st2, step gp env pr st = inl st1 -> esteps n st1 evs st2 ->
    esteps (S n) st (step_events gp env pr st ++ evs) st2.

Lemma esteps_steps n st evs st' : esteps n st evs st' -> steps gp env pr n st st'.
Proof. induction 1; econstructor; eauto. Qed.
Lemma esteps_snoc n st evs st1 : esteps n st evs st1 -> forall st2, step gp env pr st1 = inl st2 ->
  esteps (S n) st (evs ++ step_events gp env pr st1) st2.
Proof.
  induction 1 as [st|n st evs st1 st2 H H1 IH]; intros st3 Hs.
  - simpl. rewrite <- (app_nil_r (step_events gp env pr st)). econstructor; eauto. constructor.
  - rewrite <- app_assoc. econstructor; eauto.
Qed.
Lemma esteps_run n st evs st' : esteps n st evs st' -> forall o fuel, step gp env pr st' = inr o -> n < fuel ->
  run_events gp env fuel pr st = evs ++ step_events gp env pr st'.
Proof.
  induction 1 as [st|n st evs st1 st2 H H1 IH]; intros o [|fuel] Ho Hf; try lia; cbn [run_events].
  - rewrite Ho. rewrite app_nil_r. reflexivity.
  - rewrite H. rewrite <- app_assoc. f_equal. eapply IH; eauto. lia.
Qed.

(** Events of an iteration that continues. *)
Lemma step_inl_events st st' : step gp env pr st = inl st' ->
  (step_events gp env pr st = [EvNext (ps_token st')] /\ e_next env (ps_iter st) = (ps_token st', ps_iter st') /\
   ps_world st' = ps_world st /\ forall k v r, ps_values st' = VNonTerminal k v :: r -> ps_values st = ps_values st') \/
  (exists a, step_events gp env pr st = [EvCall a] /\ ps_token st' = ps_token st /\ ps_iter st' = ps_iter st /\
   exists k v r, ps_values st' = VNonTerminal k v :: r).
Proof.
  intro H. unfold step, step_events in *. destruct (ps_states st) as [|s ss]; [discriminate|].
  assert (D : forall t, dispatch gp env pr st s t = inl st' ->
    (dispatch_events gp env pr st s t = [EvNext (ps_token st')] /\ e_next env (ps_iter st) = (ps_token st', ps_iter st') /\
     ps_world st' = ps_world st /\ forall k v r, ps_values st' = VNonTerminal k v :: r -> ps_values st = ps_values st') \/
    (exists a, dispatch_events gp env pr st s t = [EvCall a] /\ ps_token st' = ps_token st /\ ps_iter st' = ps_iter st /\
     exists k v r, ps_values st' = VNonTerminal k v :: r)).
  { intros t Hd. unfold dispatch, dispatch_events in *. destruct (index2 (gp_action gp) s t) as [[[n|nt n a|]|]|]; try discriminate.
    - left. unfold shift in Hd. destruct (e_next env (ps_iter st)) as [tk it'] eqn:En.
      destruct (ps_token st) as [[tok|er]|]; try (inversion Hd; subst; simpl; repeat split; auto; fail).
      destruct (e_tok_val env tok) as [[i fs]|]; inversion Hd; subst; simpl; repeat split; auto. intros; discriminate.
    - right. exists a. split; auto. unfold reduce in Hd.
      destruct (nth_error (gp_sem_actions gp) a) as [f|]; [|discriminate].
      unfold run_sem_fn in Hd. destruct (run_pops (sf_pops f) (ps_values st) []) as [[stk vars]|]; [|discriminate].
      destruct (e_sem env (sf_action f) vars (ps_world st)) as [[v w']|]; [|discriminate].
      destruct (Nat.ltb _ _); [discriminate|]. destruct (skipn n (s :: ss)) as [|s0 rest].
      + destruct (skipn n (ps_states st)) as [|s1 rest]; try discriminate.
        destruct (index2 (gp_goto gp) s1 nt) as [[nx|]|]; inversion Hd; subst; simpl; eauto 8.
      + destruct (skipn n (ps_states st)) as [|s1 rest1]; try discriminate.
        destruct (index2 (gp_goto gp) s1 nt) as [[nx|]|]; inversion Hd; subst; simpl; eauto 8.
    - unfold accept in Hd. destruct (nth_error (gp_sem_actions gp) (pr_action_idx pr)) as [f|]; [|discriminate Hd].
      destruct (run_sem_fn env f _ _) as [[[|v stk] w']|]; try discriminate. cbv zeta in Hd.
      destruct (extract (ExNonTerminal (pr_extract_variant pr)) v) as [[?|?]|]; discriminate Hd.
    - destruct (nth_error (gp_terminal_strs gp) t), (nth_error (gp_expected gp) s); discriminate Hd. }
  destruct (ps_token st) as [[tok|er]|] eqn:Et; [|discriminate|].
  - destruct (e_tok_idx env tok); [|discriminate]. apply D; auto.
  - apply D; auto.
Qed.

Definition EvInit : ev := EvNext (fst (e_next env it0)).

Lemma trace_events n st c b : trace n st c b -> exists evs,
  esteps n (init_pstate env pr it0 w0) evs st /\
  nexts (EvInit :: evs) = map (fun t => Some (inl t)) c ++ [ps_token st] /\
  (b = true -> exists pre, EvInit :: evs = pre ++ [EvNext (ps_token st)]).
Proof.
  induction 1 as [|n st c b tok st' Ht (evs & IH1 & IH2 & IH3) Hs Htk Hn Hw (t & fs & Hv)
                  |n st c b st' Ht (evs & IH1 & IH2 & IH3) Hs Htk Hit (k & v & r & Hv)].
  - exists []. split; [constructor|]. unfold EvInit, init_pstate. destruct (e_next env it0) as [tk it]; simpl.
    split; auto. intros _. exists []. reflexivity.
  - exists (evs ++ step_events gp env pr st). split; [eapply esteps_snoc; eauto|].
    destruct (step_inl_events _ _ Hs) as [(He & _)|(a & _ & _ & _ & (k & v & r & Hv'))]; [|rewrite Hv in Hv'; discriminate].
    rewrite He. change (EvInit :: evs ++ [EvNext (ps_token st')]) with ((EvInit :: evs) ++ [EvNext (ps_token st')]).
    split; [|eauto]. unfold nexts in *. rewrite flat_map_app, IH2, map_app, Htk. reflexivity.
  - exists (evs ++ step_events gp env pr st). split; [eapply esteps_snoc; eauto|].
    split; [|discriminate].
    destruct (step_inl_events _ _ Hs) as [(He & _ & _ & Hne)|(a & He & _)].
    + exfalso. destruct (trace_inv g Hwf conv tbl states entries act gp Hgen pr nt0 e Hpf env Htok it0 w0 _ _ _ _ Ht) as (pi & ts & Hi).
      destruct (step_kind g Hwf conv tbl states entries act gp Hgen pr nt0 e Hpf env Htok it0 w0 _ _ _ _ _ Hi Hs)
        as [(tok & t & fs & _ & _ & _ & _ & _ & _ & Hv' & _)|(_ & _ & _ & (la & s & ss & m & p & q & s0 & ss0 & s1 & kids & rest & pi0 & Hla & Hss & Ha & _))].
      * rewrite Hv in Hv'. discriminate.
      * destruct (inv_top g conv tbl states entries act gp Hgen env pr nt0 e Hpf it0 w0 _ _ _ _ Hi) as (sx & ssx & Hsx & Hlt).
        rewrite Hss in Hsx. inversion Hsx; subst sx ssx.
        pose proof (look_range _ _ Htok _ _ Hla) as Hrg.
        destruct (gn_action _ _ _ _ _ _ _ Hgen s la Hlt Hrg) as (ra & Hra & Hef). rewrite Ha in Hef.
        destruct ra as [[ | | ]|]; try contradiction.
        assert (Hcol : gp_n_terminals gp = n_terminals g) by apply (gn_nterm _ _ _ _ _ _ _ Hgen).
        unfold step_events in He. rewrite Hss in He.
        destruct Hla as [|tok t Hc]; cbn [la_col] in Hra.
        -- rewrite Hcol in He. unfold dispatch_events in He. rewrite Hra in He. discriminate.
        -- rewrite Hc in He. unfold dispatch_events in He. rewrite Hra in He. discriminate.
    + rewrite He. change (EvInit :: evs ++ [EvCall a]) with ((EvInit :: evs) ++ [EvCall a]).
      unfold nexts in *. rewrite flat_map_app, IH2, app_nil_r, Htk. reflexivity.
Qed.

(** Events of the last iteration. *)
Lemma step_inr_events st pi ts c o : inv g states env e it0 w0 st pi ts c -> step gp env pr st = inr o ->
  oc_iter o = ps_iter st /\
  ((exists a, step_events gp env pr st = [EvCall a] /\ (forall er, ps_token st <> Some (inr er)) /\
    (forall er, oc_result o <> PLexerError er) /\ (forall f x, oc_result o <> PParserError f x)) \/
   (step_events gp env pr st = [] /\ forall er, oc_result o = PLexerError er <-> ps_token st = Some (inr er))).
Proof.
  intros Hi Hs.
  destruct (step_cases g Hwf conv tbl states entries act gp Hgen env Htok pr nt0 e Hpf it0 w0 _ _ _ _ Hi)
    as [(er & Ht & He)|[(tok & Ht & Hc & He)|(la & s & ss & Hla & Hss & Hsp)]].
  - rewrite Hs in He. inversion He; subst. split; auto. right. unfold step_events. rewrite Ht.
    split; [destruct (ps_states st); reflexivity|]. simpl. intro. split; congruence.
  - rewrite Hs in He. inversion He; subst. split; auto. right. unfold step_events. rewrite Ht, Hc.
    split; [destruct (ps_states st); reflexivity|]. simpl. intro. split; congruence.
  - destruct (inv_top g conv tbl states entries act gp Hgen env pr nt0 e Hpf it0 w0 _ _ _ _ Hi) as (sx & ssx & Hsx & Hlt).
    rewrite Hss in Hsx. inversion Hsx; subst sx ssx.
    pose proof (look_range _ _ Htok _ _ Hla) as Hrg.
    destruct (gn_action _ _ _ _ _ _ _ Hgen s la Hlt Hrg) as (ra & Hra & Hef).
    assert (Hcol : gp_n_terminals gp = n_terminals g) by apply (gn_nterm _ _ _ _ _ _ _ Hgen).
    assert (Hev : step_events gp env pr st = dispatch_events gp env pr st s (la_col (n_terminals g) la)).
    { unfold step_events. rewrite Hss. destruct Hla as [|tok t Hc]; cbn [la_col]; [rewrite Hcol|rewrite Hc]; reflexivity. }
    assert (Hnl : forall er, ps_token st <> Some (inr er)) by (intro er; destruct Hla; congruence).
    rewrite Hev. unfold dispatch_events. rewrite Hra. unfold step_spec in Hsp.
    destruct (act s la) as [[k|k p|]|]; destruct ra as [[|nt n a|]|]; try contradiction.
    + destruct Hsp as (? & ? & ? & ? & _ & _ & _ & _ & E1 & _). rewrite Hs in E1. discriminate.
    + destruct Hsp as (? & ? & ? & ? & ? & ? & ? & ? & ? & _ & _ & _ & _ & _ & _ & _ & _ & Hm).
      destruct (e_sem env _ _ _) as [[v w']|]; [destruct Hm as (? & E1 & _); rewrite Hs in E1; discriminate|].
      rewrite Hs in Hm; inversion Hm; subst o; simpl. split; auto. left. exists a. split; auto. split; auto. split; congruence.
    + destruct Hsp as (? & ? & ? & ? & _ & _ & _ & _ & _ & _ & _ & _ & Hm).
      destruct (e_sem env _ _ _) as [[v w']|]; rewrite Hs in Hm; inversion Hm; subst o; simpl;
        (split; auto; left; eexists; split; [reflexivity|split; [auto|split; congruence]]).
    + destruct Hsp as (f & _ & Hm). rewrite Hs in Hm; inversion Hm; subst o; simpl. split; auto. right. split; auto.
      intro er. split; [congruence|]. intro H. elim (Hnl er H).
Qed.

(** How a run ends: the final state, and the results of [next()] (the consumed tokens, then one lookahead,
    in which the iterator is left). *)
Theorem parse_stop fuel o : parse gp env fuel pr it0 w0 = Some o ->
  exists n st c b, trace n st c b /\ step gp env pr st = inr o /\ outcome_spec g env nt0 it0 w0 o c (ps_token st) /\
    nexts (parse_events gp env fuel pr it0 w0) = map (fun t => Some (inl t)) c ++ [ps_token st] /\
    (forall er, oc_result o = PLexerError er <-> ps_token st = Some (inr er)) /\
    (forall er, ps_token st = Some (inr er) -> exists pre, parse_events gp env fuel pr it0 w0 = pre ++ [EvNext (ps_token st)]) /\
    (b = true -> forall f x, oc_result o = PParserError f x ->
       exists pre, parse_events gp env fuel pr it0 w0 = pre ++ [EvNext (ps_token st)]).
Proof.
  intro H. destruct (run_steps _ _ _ _ _ _ H) as (n & st & Hlt & H1 & H2).
  destruct (steps_trace g Hwf conv tbl states entries act gp Hgen pr nt0 e Hpf env Htok it0 w0 _ _ H1) as (c & b & Ht).
  destruct (trace_inv g Hwf conv tbl states entries act gp Hgen pr nt0 e Hpf env Htok it0 w0 _ _ _ _ Ht) as (pi & ts & Hi).
  destruct (trace_events _ _ _ _ Ht) as (evs & E1 & E2 & E3).
  pose proof (esteps_run _ _ _ _ E1 _ _ H2 Hlt) as E4.
  destruct (step_inr_events _ _ _ _ _ Hi H2) as (Hit & Hend).
  exists n, st, c, b. split; auto. split; auto.
  split; [eapply (step_outcome g Hwf conv tbl states entries act gp Hgen env Htok pr nt0 e Hpf it0 w0); eauto|].
  unfold parse_events. rewrite E4. fold EvInit.
  change (EvInit :: evs ++ step_events gp env pr st) with ((EvInit :: evs) ++ step_events gp env pr st).
  destruct Hend as [(a & -> & Hno & Hno1 & Hno2)|(-> & Her)].
  - unfold nexts in *. rewrite flat_map_app, E2. cbn [flat_map app]. rewrite app_nil_r.
    split; [reflexivity|]. split; [intro er; split; intro Hx; [elim (Hno1 _ Hx)|elim (Hno _ Hx)]|].
    split; [intros er Hx; elim (Hno _ Hx)|]. intros _ f x Hx. elim (Hno2 _ _ Hx).
  - rewrite app_nil_r. split; auto. split; auto. split; [|intros Hb f x _; apply E3; auto].
    intros er Hx. (* a lexer error is reported in the iteration after it was read *)
    destruct Ht as [|n st c b tok st' Ht Hs Htk Hn' Hw Hv|n st c b st' Ht Hs Htk Hit' Hv]; auto.
    exfalso. rewrite Htk in Hx.
    unfold step in Hs. rewrite Hx in Hs. destruct (ps_states st); discriminate.
Qed.
End Trace.
