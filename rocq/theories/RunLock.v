(** * RunLock: two runs reading the same tokens are in lockstep; completeness of concrete runs *)
From Verif Require Export RunLive.

(** [env2] differs from [env1] at most in its iterator. *)
Definition same_functions {A Tok E V W I} (env1 env2 : env_t A Tok E V W I) : Prop :=
  (forall a b w, e_sem env1 a b w = e_sem env2 a b w) /\
  (forall t, e_tok_idx env1 t = e_tok_idx env2 t) /\ (forall t, e_tok_val env1 t = e_tok_val env2 t).

Definition mk {Tok E V W I} (ss : list nat) (vs : list (sem_val V)) (tk : option (Tok + E)) (i : I) (w : W)
  : pstate Tok E V W I :=
  {| ps_states := ss; ps_values := vs; ps_token := tk; ps_iter := i; ps_world := w |}.

Section StepCore.
Context {A Tok E V W I : Type}.
Variable gp : generated A.
Variable pr : parser_struct.
Variables env1 env2 : env_t A Tok E V W I.
Hypothesis Hsame : same_functions env1 env2.

Lemma run_sem_fn_same f vs w : run_sem_fn env1 f vs w = run_sem_fn env2 f vs w.
Proof.
  destruct Hsame as (H1 & _). unfold run_sem_fn. destruct (run_pops (sf_pops f) vs []) as [[vs' vars]|]; auto.
  rewrite H1. auto.
Qed.

Lemma step_core ss vs tk i1 i2 w :
  (forall s r n, ss = s :: r -> tk = None -> index2 (gp_action gp) s (gp_n_terminals gp) <> Some (Some (RShift n))) ->
  (exists ss' vs' w', step gp env1 pr (mk ss vs tk i1 w) = inl (mk ss' vs' tk i1 w') /\
     step gp env2 pr (mk ss vs tk i2 w) = inl (mk ss' vs' tk i2 w') /\
     (exists k v r, vs' = VNonTerminal k v :: r)) \/
  (exists ss' vs', step gp env1 pr (mk ss vs tk i1 w) = inl (mk ss' vs' (fst (e_next env1 i1)) (snd (e_next env1 i1)) w) /\
     step gp env2 pr (mk ss vs tk i2 w) = inl (mk ss' vs' (fst (e_next env2 i2)) (snd (e_next env2 i2)) w) /\
     (exists t fs, vs' = VToken t fs :: vs)) \/
  (exists r w' j1 j2, step gp env1 pr (mk ss vs tk i1 w) = inr {| oc_result := r; oc_iter := j1; oc_world := w' |} /\
     step gp env2 pr (mk ss vs tk i2 w) = inr {| oc_result := r; oc_iter := j2; oc_world := w' |}).
Proof.
  intro Hns. destruct Hsame as (S1 & S2 & S3). unfold step. simpl.
  assert (Hd : forall s r c, ss = s :: r ->
     (tk = None -> c = gp_n_terminals gp) -> (forall er, tk <> Some (inr er)) ->
  (exists ss' vs' w', dispatch gp env1 pr (mk ss vs tk i1 w) s c = inl (mk ss' vs' tk i1 w') /\
     dispatch gp env2 pr (mk ss vs tk i2 w) s c = inl (mk ss' vs' tk i2 w') /\
     (exists k v r, vs' = VNonTerminal k v :: r)) \/
  (exists ss' vs', dispatch gp env1 pr (mk ss vs tk i1 w) s c = inl (mk ss' vs' (fst (e_next env1 i1)) (snd (e_next env1 i1)) w) /\
     dispatch gp env2 pr (mk ss vs tk i2 w) s c = inl (mk ss' vs' (fst (e_next env2 i2)) (snd (e_next env2 i2)) w) /\
     (exists t fs, vs' = VToken t fs :: vs)) \/
  (exists r w' j1 j2, dispatch gp env1 pr (mk ss vs tk i1 w) s c = inr {| oc_result := r; oc_iter := j1; oc_world := w' |} /\
     dispatch gp env2 pr (mk ss vs tk i2 w) s c = inr {| oc_result := r; oc_iter := j2; oc_world := w' |})).
  { intros s r c Hss Hc Her. unfold dispatch.
    destruct (index2 (gp_action gp) s c) as [[[n|n k a|]|]|] eqn:Ei.
    - unfold shift. simpl. destruct (e_next env1 i1) as [tk1 j1], (e_next env2 i2) as [tk2 j2].
      destruct tk as [[tok|er]|].
      + rewrite S3. destruct (e_tok_val env2 tok) as [[t fs]|].
        * right; left. do 2 eexists. repeat split; eauto.
        * right; right. do 4 eexists. split; reflexivity.
      + exfalso; eapply Her; eauto.
      + exfalso. rewrite (Hc eq_refl) in Ei. eapply Hns; eauto.
    - unfold reduce. simpl. destruct (nth_error (gp_sem_actions gp) a) as [f|].
      + rewrite run_sem_fn_same. destruct (run_sem_fn env2 f vs w) as [[vs' w']|er] eqn:Ef.
        * destruct (List.length ss <? k); [right; right; do 4 eexists; split; reflexivity|].
          destruct (skipn k ss) as [|s0 rest]; [right; right; do 4 eexists; split; reflexivity|].
          destruct (index2 (gp_goto gp) s0 n) as [[nx|]|]; try (right; right; do 4 eexists; split; reflexivity).
          left. do 3 eexists. split; [reflexivity|]. split; [reflexivity|].
          unfold run_sem_fn in Ef. destruct (run_pops (sf_pops f) vs []) as [[vs1 vars]|]; [|discriminate].
          destruct (e_sem env2 (sf_action f) vars w) as [[v w1]|]; [|discriminate]. inversion Ef; subst; eauto.
        * right; right; do 4 eexists; split; reflexivity.
      + right; right; do 4 eexists; split; reflexivity.
    - unfold accept. simpl. destruct (nth_error (gp_sem_actions gp) (pr_action_idx pr)) as [f|].
      + rewrite run_sem_fn_same. destruct (run_sem_fn env2 f vs w) as [[vs' w']|er].
        * destruct vs' as [|v vs']; [right; right; do 4 eexists; split; reflexivity|].
          destruct v as [t' fs'|n' x]; simpl; [|destruct (pr_extract_variant pr =? n')]; right; right; do 4 eexists; split; reflexivity.
        * right; right; do 4 eexists; split; reflexivity.
      + right; right; do 4 eexists; split; reflexivity.
    - destruct (nth_error (gp_terminal_strs gp) c), (nth_error (gp_expected gp) s);
        right; right; do 4 eexists; split; reflexivity.
    - right; right; do 4 eexists; split; reflexivity. }
  destruct ss as [|s r]; [right; right; do 4 eexists; split; reflexivity|].
  destruct tk as [[tok|er]|].
  - rewrite S2. destruct (e_tok_idx env2 tok) as [c|].
    + apply (Hd s r c); auto; [discriminate|]. intros er H; discriminate.
    + right; right; do 4 eexists; split; reflexivity.
  - right; right; do 4 eexists; split; reflexivity.
  - apply (Hd s r _); auto. discriminate.
Qed.
End StepCore.

Section Lock.
Context {A Tok E V W I : Type}.
Variable g : grammar A.
Hypothesis Hwf : wf_grammar g.
Variable conv : list conversion.
Variable tbl : first_table.
Variable states : list lr1_state.
Variable entries : list (nat * nat).
Variable act : nat -> option nat -> option aact.
Variable gp : generated A.
Hypothesis Hgen : generated_ok g conv tbl states entries act gp.
Variable pr : parser_struct.
Variables nt0 e : nat.
Hypothesis Hpf : parser_for g (gp_sem_actions gp) entries pr nt0 e.
Notation pst := (pstate Tok E V W I).
Notation Haut := (gn_aut _ _ _ _ _ _ _ Hgen).
Notation Hact := (gn_act _ _ _ _ _ _ _ Hgen).
Notation Hent := (Hentry g entries gp pr nt0 e Hpf).
Variables env1 env2 : env_t A Tok E V W I.
Hypothesis Hsame : same_functions env1 env2.
Hypothesis Htok : tokens_ok g env1.

Lemma tokens_ok_same : tokens_ok g env2.
Proof.
  destruct Hsame as (_ & S2 & S3). intros tok t H. rewrite <- S2 in H. apply Htok in H.
  destruct H as (H1 & fs & H2). split; auto. exists fs. rewrite <- S3. auto.
Qed.

Variables it0 it0' : I.
Variable w0 : W.
Notation trace1 := (trace gp pr env1 it0 w0).
Notation trace2 := (trace gp pr env2 it0' w0).

Lemma no_shift_eof st pi ts c : inv g states env1 e it0 w0 st pi ts c ->
  forall s r n, ps_states st = s :: r -> ps_token st = None ->
  index2 (gp_action gp) s (gp_n_terminals gp) <> Some (Some (RShift n)).
Proof.
  intros Hi s r n Hs Htk Hx.
  assert (Hlt : s < List.length states).
  { destruct (inv_top g conv tbl states entries act gp Hgen env1 pr nt0 e Hpf it0 w0 _ _ _ _ Hi) as (s' & r' & E1 & E2). congruence. }
  destruct (gn_action _ _ _ _ _ _ _ Hgen s None Hlt Logic.I) as (x & Hx1 & Hx2). simpl in Hx1.
  rewrite (gn_nterm _ _ _ _ _ _ _ Hgen) in Hx. rewrite Hx in Hx1; inversion Hx1; subst x.
  simpl in Hx2. destruct (act s None) as [[m|m p|]|] eqn:Ea; try contradiction.
  destruct (shift_trans g states act Hact s None m Ea) as (t & Ht & _). discriminate.
Qed.

Lemma mk_eta (st : pst) : st = mk (ps_states st) (ps_values st) (ps_token st) (ps_iter st) (ps_world st).
Proof. destruct st; reflexivity. Qed.

Lemma feeds_snoc_inv {X Y J} (next : J -> option (X + Y) * J) c x : forall it it2, feeds next it (c ++ [x]) it2 ->
  exists it1, feeds next it c it1 /\ next it1 = (Some (inl x), it2).
Proof.
  induction c as [|y c IH]; simpl; intros it it2 H; inversion H; subst.
  - inversion H5; subst. exists it; split; [constructor|auto].
  - destruct (IH _ _ H5) as (it1' & H1 & H2). exists it1'. split; auto. econstructor; eauto.
Qed.

Theorem lockstep n st1 c b : trace1 n st1 c b -> forall it1' tk2 it2',
  feeds (e_next env2) it0' c it1' -> e_next env2 it1' = (tk2, it2') ->
  (b = true \/ tk2 = ps_token st1) ->
  trace2 n (mk (ps_states st1) (ps_values st1) tk2 it2' (ps_world st1)) c b.
Proof.
  induction 1 as [|n st c b tok st' Ht IH Hs Htk Hn Hw (t & fs & Hv)
                  |n st c b st' Ht IH Hs Htk Hit (k & v & r & Hv)]; intros it1' tk2 it2' Hf Hn2 Hb.
  - inversion Hf; subst.
    assert (Heq : mk (ps_states (init_pstate env1 pr it0 w0)) (ps_values (init_pstate env1 pr it0 w0)) tk2 it2'
                     (ps_world (init_pstate env1 pr it0 w0)) = init_pstate env2 pr it1' w0).
    { unfold init_pstate. rewrite Hn2. destruct (e_next env1 it0). reflexivity. }
    rewrite Heq. constructor.
  - apply feeds_snoc_inv in Hf. destruct Hf as (itp & Hf & Hnp).
    specialize (IH itp (Some (inl tok)) it1' Hf Hnp ltac:(right; auto)).
    destruct (trace_inv g Hwf conv tbl states entries act gp Hgen pr nt0 e Hpf env1 Htok it0 w0 _ _ _ _ Ht) as (pi & ts & Hi).
    pose proof (no_shift_eof _ _ _ _ Hi) as Hns.
    destruct (step_core gp pr env1 env2 Hsame (ps_states st) (ps_values st) (ps_token st) (ps_iter st) it1' (ps_world st) Hns)
      as [(ss' & vs' & w' & E1 & _ & (k & v & r & Hk))|[(ss' & vs' & E1 & E2 & Hk)|(r & w' & j1 & j2 & E1 & _)]];
      rewrite <- mk_eta in E1; rewrite Hs in E1; try discriminate.
    + inversion E1; subst st'. simpl in Hv. rewrite Hv in Hk. discriminate.
    + inversion E1; subst st'. simpl in *. rewrite Htk in E2. rewrite Hn2 in E2. simpl in E2.
      eapply tr_shift; [exact IH| exact E2 | reflexivity | | reflexivity | simpl; eauto].
      simpl. rewrite Hn2. reflexivity.
  - destruct Hb as [Hb|Hb]; [discriminate|].
    specialize (IH it1' tk2 it2' Hf Hn2 ltac:(right; congruence)).
    destruct (trace_inv g Hwf conv tbl states entries act gp Hgen pr nt0 e Hpf env1 Htok it0 w0 _ _ _ _ Ht) as (pi & ts & Hi).
    pose proof (no_shift_eof _ _ _ _ Hi) as Hns.
    destruct (step_core gp pr env1 env2 Hsame (ps_states st) (ps_values st) (ps_token st) (ps_iter st) it2' (ps_world st) Hns)
      as [(ss' & vs' & w' & E1 & E2 & Hk)|[(ss' & vs' & E1 & _ & (t & fs & Hk))|(x & w' & j1 & j2 & E1 & _)]];
      rewrite <- mk_eta in E1; rewrite Hs in E1; try discriminate.
    + inversion E1; subst st'. simpl in *. subst tk2.
      eapply tr_reduce; [exact IH | exact E2 | reflexivity | reflexivity | simpl; eauto].
    + inversion E1; subst st'. simpl in Hv. rewrite Hv in Hk. discriminate.
Qed.

(** ** Observable consequences *)
Hypothesis Hinh : inhabited_first g tbl.

(** Determinism of traces *)
Lemma trace_fun n : forall st c b st' c' b', trace2 n st c b -> trace2 n st' c' b' -> st = st' /\ c = c'.
Proof.
  induction n as [|n IH]; intros st c b st' c' b' H1 H2; inversion H1; inversion H2; subst; auto;
  match goal with Ha : trace gp pr env2 it0' w0 n ?s1 ?c1 _, Hb : trace gp pr env2 it0' w0 n ?s2 ?c2 _ |- _ =>
    destruct (IH _ _ _ _ _ _ Ha Hb) as [? ?]; subst end;
  match goal with Ha : step gp env2 pr ?s = inl ?x, Hb : step gp env2 pr ?s = inl ?y |- _ =>
    assert (x = y) by congruence; subst end; auto.
  - split; auto. congruence.
  - exfalso. repeat match goal with H : exists _, _ |- _ => destruct H end. congruence.
  - exfalso. repeat match goal with H : exists _, _ |- _ => destruct H end. congruence.
Qed.

Lemma trace_prefix n : forall n2 st c b st2 c2 b2, trace2 n st c b -> trace2 (n + n2) st2 c2 b2 ->
  exists more, c2 = c ++ more.
Proof.
  intro n2. induction n2 as [|n2 IH]; intros st c b st2 c2 b2 H1 H2.
  - rewrite Nat.add_0_r in H2. destruct (trace_fun _ _ _ _ _ _ _ H1 H2) as [_ ->]. exists []. rewrite app_nil_r; auto.
  - rewrite Nat.add_succ_r in H2. inversion H2; subst.
    + match goal with Ha : trace gp pr env2 it0' w0 (n + n2) _ _ _ |- _ => destruct (IH _ _ _ _ _ _ H1 Ha) as (more & ->) end.
      exists (more ++ [tok]). rewrite app_assoc. auto.
    + eapply IH; eauto.
Qed.

Lemma stop_le n m st st' o : steps gp env2 pr n (init_pstate env2 pr it0' w0) st ->
  steps gp env2 pr m (init_pstate env2 pr it0' w0) st' -> step gp env2 pr st' = inr o -> n <= m.
Proof.
  intros H1 H2 Ho. destruct (Nat.le_gt_cases n m) as [|Hgt]; auto. exfalso.
  revert n st H1 Hgt. induction H2 as [x|m x y z Hs Hss IH]; intros n st H1 Hgt.
  - inversion H1; subst; [lia|]. congruence.
  - inversion H1; subst; [lia|]. assert (st1 = y) by congruence. subst. eapply IH; eauto. lia.
Qed.

(** The state in which a parser error was detected. *)
Lemma parser_error_state n st c b o found expected : trace1 n st c b -> step gp env1 pr st = inr o ->
  oc_result o = PParserError found expected ->
  b = true /\ exists la s ss, ps_states st = s :: ss /\ look env1 (ps_token st) la /\ act s la = None /\
    term_name g la found /\ expected = err_expected g act s /\
    o = {| oc_result := PParserError found expected; oc_iter := ps_iter st; oc_world := ps_world st |}.
Proof.
  intros Htr Hst Ho.
  destruct (trace_inv g Hwf conv tbl states entries act gp Hgen pr nt0 e Hpf env1 Htok it0 w0 _ _ _ _ Htr) as (pi & ts & Hi).
  destruct (step_cases g Hwf conv tbl states entries act gp Hgen env1 Htok pr nt0 e Hpf it0 w0 _ _ _ _ Hi)
      as [(er & _ & He)|[(tok & _ & _ & He)|(la & s & ss & Hla & Hss & Hsp)]]; try (rewrite Hst in He; inversion He; subst o; discriminate).
  unfold step_spec in Hsp. destruct (act s la) as [[k|k p|]|] eqn:Ea.
    - destruct Hsp as (? & ? & ? & ? & _ & _ & _ & _ & E1 & _). rewrite Hst in E1. discriminate.
    - destruct Hsp as (? & ? & ? & ? & ? & ? & ? & ? & ? & _ & _ & _ & _ & _ & _ & _ & _ & Hm).
      destruct (e_sem env1 _ _ _) as [[v w']|]; [destruct Hm as (? & E1 & _); rewrite Hst in E1; discriminate|].
      rewrite Hst in Hm; inversion Hm; subst o; discriminate.
    - destruct Hsp as (? & ? & ? & ? & _ & _ & _ & _ & _ & _ & _ & _ & Hm).
      destruct (e_sem env1 _ _ _) as [[v w']|]; rewrite Hst in Hm; inversion Hm; subst o; discriminate.
    - destruct Hsp as (f & Hf & Hm).
      pose proof (error_fresh g Hwf conv tbl states entries act gp Hgen pr nt0 e Hpf env1 Htok it0 w0 Hinh _ _ _ _ _ _ Htr Hm) as ->.
      rewrite Hst in Hm. inversion Hm; subst o. simpl in Ho. inversion Ho; subst. split; auto.
      exists la, s, ss. repeat (split; auto).
Qed.

(** Replacing the offending token by a lexer error at the same place changes nothing else: no action ran
    between reading the token and returning the error. *)
Theorem replace_by_lexer_error n st c : trace1 n st c true ->
  forall it1' er it2', feeds (e_next env2) it0' c it1' -> e_next env2 it1' = (Some (inr er), it2') ->
  exists fuel', parse gp env2 fuel' pr it0' w0 =
    Some {| oc_result := PLexerError er; oc_iter := it2'; oc_world := ps_world st |}.
Proof.
  intros Htr it1' er it2' Hf2 Hn2.
  destruct (trace_inv g Hwf conv tbl states entries act gp Hgen pr nt0 e Hpf env1 Htok it0 w0 _ _ _ _ Htr) as (pi & ts & Hi).
  destruct (inv_top g conv tbl states entries act gp Hgen env1 pr nt0 e Hpf it0 w0 _ _ _ _ Hi) as (s & ss & Hss & _).
  pose proof (lockstep _ _ _ _ Htr it1' _ it2' Hf2 Hn2 (or_introl eq_refl)) as Htr2.
  exists (S n). eapply trace_parse; eauto. unfold step. simpl. rewrite Hss. reflexivity.
Qed.

Definition shiftable (s t : nat) : bool := match act s (Some t) with Some _ => true | None => false end.

Lemma err_expected_filter s : err_expected g act s =
  join (map snd (filter (fun x => shiftable s (fst x)) (enumerate (g_terminals g)))).
Proof.
  unfold err_expected. f_equal. induction (enumerate (g_terminals g)) as [|[t str] l IH]; simpl; auto.
  unfold shiftable at 1. simpl. destruct (act s (Some t)); simpl; rewrite IH; auto.
Qed.

(** Replacing the token read in a state just after a shift. *)
Theorem replace_token n st c s ss : trace1 n st c true -> ps_states st = s :: ss ->
  forall tok t it1' it2', e_tok_idx env1 tok = Some t ->
      feeds (e_next env2) it0' c it1' -> e_next env2 it1' = (Some (inl tok), it2') ->
      if shiftable s t then
        forall fuel' o', parse gp env2 fuel' pr it0' w0 = Some o' ->
          oc_result o' = PPanic UserPanic \/
          exists more it3 tk', feeds (e_next env2) it0' (c ++ tok :: more) it3 /\
            e_next env2 it3 = (tk', oc_iter o')
      else exists fuel' found', nth_error (g_terminals g) t = Some found' /\
        parse gp env2 fuel' pr it0' w0 =
          Some {| oc_result := PParserError found' (err_expected g act s); oc_iter := it2'; oc_world := ps_world st |}.
Proof.
  intros Htr Hss.
  intros tok t it1' it2' Hc Hf2 Hn2.
  pose proof (lockstep _ _ _ _ Htr it1' _ it2' Hf2 Hn2 (or_introl eq_refl)) as Htr2.
  set (st2 := mk (ps_states st) (ps_values st) (Some (inl tok)) it2' (ps_world st)) in *.
  pose proof tokens_ok_same as Htok2.
  assert (Hc2 : e_tok_idx env2 tok = Some t) by (destruct Hsame as (_ & S2 & _); rewrite <- S2; auto).
  assert (Hla2 : look env2 (ps_token st2) (Some t)) by (constructor; auto).
  destruct (trace_inv g Hwf conv tbl states entries act gp Hgen pr nt0 e Hpf env2 Htok2 it0' w0 _ _ _ _ Htr2) as (pi2 & ts2 & Hi2).
  assert (Hss2 : ps_states st2 = s :: ss) by auto.
  unfold shiftable. destruct (act s (Some t)) as [a|] eqn:Ea.
  - (* would be shifted *)
    intros fuel' o' Hp'.
    assert (Hg : good g states act (Some t) (s :: ss)).
    { eapply (progress g Hwf tbl states entries Haut nt0 e Hent act Hact Hinh (gn_just _ _ _ _ _ _ _ Hgen)); [|congruence].
      pose proof (in_path _ _ _ _ _ _ _ _ _ _ Hi2) as Hp. rewrite Hss2 in Hp. eauto. }
    destruct (good_run g Hwf conv tbl states entries act gp Hgen pr nt0 e Hpf env2 Htok2 it0' w0 _ _ Hg _ _ _ _ Htr2 Hss2 Hla2)
      as (n' & st' & b' & _ & Htr' & Htk' & Hit' & Hend).
    destruct Hend as [(s' & ss' & Hss' & Hend)|Hend].
    + destruct (trace_inv g Hwf conv tbl states entries act gp Hgen pr nt0 e Hpf env2 Htok2 it0' w0 _ _ _ _ Htr') as (pi' & ts' & Hi').
      destruct Hend as [(k & Hk)|Hk].
      * rewrite <- Htk' in Hla2.
        pose proof (step_ok g Hwf conv tbl states entries act gp Hgen env2 Htok2 pr nt0 e Hpf it0' w0 _ _ _ _ _ _ _ Hi' Hss' Hla2) as Hsp.
        unfold step_spec in Hsp. rewrite Hk in Hsp.
        destruct Hsp as (tok' & t' & fs & st3 & Q1 & _ & _ & _ & E1 & _ & Hv3 & Hw3 & Hn3 & _).
        assert (Htr3 : trace2 (S n') st3 (c ++ [tok]) true).
        { eapply tr_shift; eauto. }
        right.
        destruct (parse_trace g Hwf conv tbl states entries act gp Hgen pr nt0 e Hpf env2 Htok2 it0' w0 _ _ Hp') as (m & st4 & c4 & b4 & Htr4 & Hst4).
        assert (Hle : S n' <= m).
        { eapply stop_le; [eapply trace_steps; eauto|eapply trace_steps; eauto|eauto]. }
        replace m with (S n' + (m - S n')) in Htr4 by lia.
        destruct (trace_prefix _ _ _ _ _ _ _ _ Htr3 Htr4) as (more & ->).
        destruct (trace_inv g Hwf conv tbl states entries act gp Hgen pr nt0 e Hpf env2 Htok2 it0' w0 _ _ _ _ Htr4) as (pi4 & ts4 & Hi4).
        destruct (in_iter _ _ _ _ _ _ _ _ _ _ Hi4) as (it4 & Hf4 & Hn4).
        exists more, it4, (ps_token st4). rewrite <- app_assoc in Hf4. split; auto. rewrite Hn4. f_equal.
        clear - Hst4 Hi4 Hgen Hpf Hwf Htok2.
        destruct (step_cases g Hwf conv tbl states entries act gp Hgen env2 Htok2 pr nt0 e Hpf it0' w0 _ _ _ _ Hi4)
          as [(er & _ & He)|[(tok5 & _ & _ & He)|(la5 & s5 & ss5 & Hla5 & Hss5 & Hsp)]].
        -- rewrite Hst4 in He; inversion He; auto.
        -- rewrite Hst4 in He; inversion He; auto.
        -- unfold step_spec in Hsp. destruct (act s5 la5) as [[k|k p|]|].
           ++ destruct Hsp as (? & ? & ? & ? & _ & _ & _ & _ & E1 & _). rewrite Hst4 in E1. discriminate.
           ++ destruct Hsp as (? & ? & ? & ? & ? & ? & ? & ? & ? & _ & _ & _ & _ & _ & _ & _ & _ & Hm).
              destruct (e_sem env2 _ _ _) as [[v w']|]; [destruct Hm as (? & E1 & _); rewrite Hst4 in E1; discriminate|].
              rewrite Hst4 in Hm; inversion Hm; auto.
           ++ destruct Hsp as (? & ? & ? & ? & _ & _ & _ & _ & _ & _ & _ & _ & Hm).
              destruct (e_sem env2 _ _ _) as [[v w']|]; rewrite Hst4 in Hm; inversion Hm; auto.
           ++ destruct Hsp as (f & _ & Hm). rewrite Hst4 in Hm; inversion Hm; auto.
      * exfalso. destruct (ac_inv _ _ _ Hact _ _ _ Hk) as (stx & _ & Hx & _). discriminate.
    + left. pose proof (trace_parse gp pr env2 it0' w0 _ _ _ _ _ Htr' Hend) as Hp2.
      unfold parse in Hp', Hp2. pose proof (run_fun _ _ _ _ _ _ _ _ Hp' Hp2) as ->. reflexivity.
  - pose proof (step_ok g Hwf conv tbl states entries act gp Hgen env2 Htok2 pr nt0 e Hpf it0' w0 _ _ _ _ _ _ _ Hi2 Hss2 Hla2) as Hsp.
    unfold step_spec in Hsp. rewrite Ea in Hsp. destruct Hsp as (found' & Hfd' & Hm).
    exists (S n), found'. split; auto. eapply trace_parse; eauto.
Qed.

End Lock.
