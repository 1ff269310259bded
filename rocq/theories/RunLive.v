(** * RunLive: termination, immediate error detection, lockstep of runs, completeness of runs *)
From Verif Require Export RunProofs.

(** Iterators that end: after finitely many tokens [None] or an error. *)
Section Finite.
Context {Tok E I : Type}.
Variable next : I -> option (Tok + E) * I.
Inductive finite_from : option (Tok + E) -> I -> Prop :=
| ff_eof : forall it, finite_from None it
| ff_err : forall er it, finite_from (Some (inr er)) it
| ff_tok : forall tok it, finite_from (fst (next it)) (snd (next it)) -> finite_from (Some (inl tok)) it.

(** [finite_stream it]: the iterator yields finitely many tokens, then [None] or an error. *)
Definition finite_stream (it : I) : Prop :=
  exists toks it1 r it2, feeds next it toks it1 /\ next it1 = (r, it2) /\ forall tok, r <> Some (inl tok).

Lemma finite_stream_from it : finite_stream it -> finite_from (fst (next it)) (snd (next it)).
Proof.
  intros (toks & it1 & r & it2 & Hf & Hn & Hr). induction Hf as [it|it tok itn toks it' Hn' Hf IH].
  - rewrite Hn. simpl. destruct r as [[tok|er]|]; [exfalso; eapply Hr; eauto| constructor | constructor].
  - rewrite Hn'. simpl. constructor. apply IH. auto.
Qed.
End Finite.

Section Live.
Context {A Tok E V W I : Type}.
Variable g : grammar A.
Hypothesis Hwf : wf_grammar g.
Variable conv : list conversion.
Variable tbl : first_table.
Variable states : list lr1_state.
Variable entries : list (nat * nat).
Variable act : nat -> option nat -> option aact.
Variable gp : generated A.
Hypothesis Hgen : generated_ok g conv tbl states entries act gp.
Variable pr : parser_struct.
Variables nt0 e : nat.
Hypothesis Hpf : parser_for g (gp_sem_actions gp) entries pr nt0 e.
Notation pst := (pstate Tok E V W I).
Notation Haut := (gn_aut _ _ _ _ _ _ _ Hgen).
Notation Hact := (gn_act _ _ _ _ _ _ _ Hgen).
Notation Hent := (Hentry g entries gp pr nt0 e Hpf).

Section OneEnv.
Variable env : env_t A Tok E V W I.
Hypothesis Htok : tokens_ok g env.
Variable it0 : I.
Variable w0 : W.
Notation inv := (inv g states env e it0 w0).
Notation look := (look env).
Notation step_ok := (step_ok g Hwf conv tbl states entries act gp Hgen env Htok pr nt0 e Hpf it0 w0).
Notation step_cases := (step_cases g Hwf conv tbl states entries act gp Hgen env Htok pr nt0 e Hpf it0 w0).
Notation good := (good g states act).

(** ** Traces: the run so far, the tokens shifted, and whether the last iteration was a shift (so that
    the lookahead has just been read). *)
Inductive trace : nat -> pst -> list Tok -> bool -> Prop :=
| tr_init : trace 0 (init_pstate env pr it0 w0) [] true
| tr_shift : forall n st c b tok st', trace n st c b -> step gp env pr st = inl st' ->
    ps_token st = Some (inl tok) -> e_next env (ps_iter st) = (ps_token st', ps_iter st') ->
    ps_world st' = ps_world st -> (exists t fs, ps_values st' = VToken t fs :: ps_values st) ->
    trace (S n) st' (c ++ [tok]) true
| tr_reduce : forall n st c b st', trace n st c b -> step gp env pr st = inl st' ->
    ps_token st' = ps_token st -> ps_iter st' = ps_iter st ->
    (exists k v r, ps_values st' = VNonTerminal k v :: r) ->
    trace (S n) st' c false.

Lemma trace_steps n st c b : trace n st c b -> steps gp env pr n (init_pstate env pr it0 w0) st.
Proof. induction 1; [constructor| |]; eapply steps_snoc; eauto. Qed.

(** One iteration of a state satisfying the invariant. *)
Lemma step_kind st pi ts c st' : inv st pi ts c -> step gp env pr st = inl st' ->
  (exists tok t fs s ss n, ps_token st = Some (inl tok) /\ e_next env (ps_iter st) = (ps_token st', ps_iter st') /\
     ps_world st' = ps_world st /\ ps_values st' = VToken t fs :: ps_values st /\
     e_tok_idx env tok = Some t /\ ps_states st = s :: ss /\ act s (Some t) = Some (AShift n) /\
     ps_states st' = n :: s :: ss /\
     inv st' (T t :: pi) (Leaf tok :: ts) (c ++ [tok])) \/
  (ps_token st' = ps_token st /\ ps_iter st' = ps_iter st /\
   (exists k v r, ps_values st' = VNonTerminal k v :: r) /\
   exists la s ss n p q s0 ss0 s1 kids rest pi0, look (ps_token st) la /\ ps_states st = s :: ss /\
     act s la = Some (AReduce n p) /\ get_production g n p = Some q /\
     skipn (List.length (rhs q)) (s :: ss) = s0 :: ss0 /\
     trans states s0 (NT n) = Some s1 /\ ps_states st' = s1 :: s0 :: ss0 /\
     pi = rev (rhs q) ++ pi0 /\ ts = rev kids ++ rest /\ List.length kids = List.length (rhs q) /\
     inv st' (NT n :: pi0) (Node n p kids :: rest) c).
Proof.
  intros H Hs. destruct (step_cases _ _ _ _ H) as [(er & _ & He)|[(tok & _ & _ & He)|(la & s & ss & Hla & Hss & Hsp)]].
  - rewrite He in Hs; discriminate.
  - rewrite He in Hs; discriminate.
  - unfold step_spec in Hsp. destruct (act s la) as [[n|n p|]|] eqn:Ea.
    + destruct Hsp as (tok & t & fs & st1 & H1 & -> & H2 & H3 & E1 & H4 & H5 & H6 & H7 & Hi).
      rewrite Hs in E1; inversion E1; subst st1. left. exists tok, t, fs, s, ss, n. repeat (split; auto).
    + destruct Hsp as (q & s0 & ss0 & s1 & kids & rest & bs & f & pi0 & H1 & H2 & H3 & H4 & H5 & H6 & _ & _ & Hm).
      destruct (e_sem env _ _ _) as [[v w']|]; [|rewrite Hm in Hs; discriminate].
      destruct Hm as (st1 & E1 & Hst1 & _ & Hi). rewrite Hs in E1; injection E1 as <-. right.
      split; [rewrite Hst1; auto|]. split; [rewrite Hst1; auto|]. split; [rewrite Hst1; simpl; eauto|].
      exists la, s, ss, n, p, q, s0, ss0, s1, kids, rest, pi0. repeat (split; auto). rewrite Hst1; auto.
    + destruct Hsp as (q & m & tr & bs & _ & _ & _ & _ & _ & _ & _ & _ & Hm).
      destruct (e_sem env _ _ _) as [[v w']|]; rewrite Hm in Hs; discriminate.
    + destruct Hsp as (found & _ & Hm). rewrite Hm in Hs; discriminate.
Qed.

Lemma trace_inv n st c b : trace n st c b -> exists pi ts, inv st pi ts c.
Proof.
  induction 1 as [|n st c b tok st' Ht (pi & ts & IH) Hs Htk Hn Hw (t & fs & Hv)
                  |n st c b st' Ht (pi & ts & IH) Hs Htk Hit (k & v & r & Hv)].
  - exists [], []. eapply inv_init; eauto.
  - destruct (step_kind _ _ _ _ _ IH Hs) as [(tok' & t' & fs' & s & ss & m & H1 & _ & _ & _ & _ & _ & _ & _ & Hi)|(_ & _ & (k & v & r & Hv') & _)].
    + rewrite H1 in Htk; inversion Htk; subst. eauto.
    + rewrite Hv in Hv'. discriminate.
  - destruct (step_kind _ _ _ _ _ IH Hs) as [(tok' & t' & fs' & s & ss & m & _ & _ & _ & Hv' & _)|(_ & _ & _ & (la & s & ss & m & p & q & s0 & ss0 & s1 & kids & rest & pi0 & _ & _ & _ & _ & _ & _ & _ & _ & _ & _ & Hi))].
    + rewrite Hv in Hv'. discriminate.
    + eauto.
Qed.

Lemma trace_step n st c b st' : trace n st c b -> step gp env pr st = inl st' ->
  (exists tok, ps_token st = Some (inl tok) /\ trace (S n) st' (c ++ [tok]) true) \/ trace (S n) st' c false.
Proof.
  intros Ht Hs. destruct (trace_inv _ _ _ _ Ht) as (pi & ts & Hi).
  destruct (step_kind _ _ _ _ _ Hi Hs) as [(tok & t & fs & s & ss & m & H1 & H2 & H3 & H4 & _)|(H1 & H2 & H3 & _)].
  - left. exists tok. split; auto. eapply tr_shift; eauto.
  - right. eapply tr_reduce; eauto.
Qed.

Lemma steps_trace n : forall st, steps gp env pr n (init_pstate env pr it0 w0) st -> exists c b, trace n st c b.
Proof.
  induction n as [|n IH]; intros st H.
  - inversion H; subst. exists [], true. constructor.
  - assert (Hsp : exists st1, steps gp env pr n (init_pstate env pr it0 w0) st1 /\ step gp env pr st1 = inl st).
    { apply steps_snoc_inv; auto. }
    destruct Hsp as (st1 & H1 & H2). destruct (IH _ H1) as (c & b & Ht).
    destruct (trace_step _ _ _ _ _ Ht H2) as [(tok & _ & Ht')|Ht']; eauto.
Qed.

Lemma parse_trace fuel o : parse gp env fuel pr it0 w0 = Some o ->
  exists n st c b, trace n st c b /\ step gp env pr st = inr o.
Proof.
  intro H. destruct (run_steps _ _ _ _ _ _ H) as (n & st & _ & H1 & H2).
  destruct (steps_trace _ _ H1) as (c & b & Ht). eauto 8.
Qed.

Lemma trace_parse n st c b o : trace n st c b -> step gp env pr st = inr o ->
  parse gp env (S n) pr it0 w0 = Some o.
Proof. intros Ht Ho. eapply steps_run; [eapply trace_steps; eauto|eauto|lia]. Qed.

(** ** Progress *)
Hypothesis Hinh : inhabited_first g tbl.
Notation progress := (progress g Hwf tbl states entries Haut nt0 e Hent act Hact Hinh (gn_just _ _ _ _ _ _ _ Hgen)).

Lemma good_run la ss : good la ss -> forall n st c b, trace n st c b -> ps_states st = ss ->
  look (ps_token st) la ->
  exists n' st' b', n <= n' /\ trace n' st' c b' /\ ps_token st' = ps_token st /\ ps_iter st' = ps_iter st /\
    ((exists s' ss', ps_states st' = s' :: ss' /\
        ((exists k, act s' la = Some (AShift k)) \/ act s' la = Some AAccept)) \/
     step gp env pr st' = finish st' (PPanic UserPanic)).
Proof.
  induction 1 as [s ss k Ha|s ss Ha|s ss m p q s0 ss0 s1 Ha Hq Hsk Ht Hg IH]; intros n st c b Htr Hss Hla.
  - exists n, st, b. repeat (split; auto). left. eauto 8.
  - exists n, st, b. repeat (split; auto). left. eauto 8.
  - destruct (trace_inv _ _ _ _ Htr) as (pi & ts & Hi).
    pose proof (step_ok st pi ts c s ss la Hi Hss Hla) as Hsp. unfold step_spec in Hsp. rewrite Ha in Hsp.
    destruct Hsp as (q' & s0' & ss0' & s1' & kids & rest & bs & f & pi0 & H1 & H2 & H3 & H4 & H5 & H6 & _ & _ & Hm).
    rewrite Hq in H1; inversion H1; subst q'. rewrite Hsk in H2; inversion H2; subst s0' ss0'.
    rewrite Ht in H3; inversion H3; subst s1'.
    destruct (e_sem env _ _ _) as [[v w']|].
    + destruct Hm as (st1 & E1 & Hst1 & _ & _).
      assert (Htr1 : trace (S n) st1 c false).
      { eapply tr_reduce; eauto; rewrite Hst1; simpl; eauto. }
      destruct (IH (S n) st1 c false Htr1) as (n' & st' & b' & G1 & G2 & G3 & G4 & G5).
      { rewrite Hst1; auto. }
      { rewrite Hst1; auto. }
      exists n', st', b'. rewrite Hst1 in G3, G4. simpl in G3, G4. split; [lia|]. auto.
    + exists n, st, b. repeat (split; auto).
Qed.

Theorem terminates tk it : finite_from (e_next env) tk it -> forall n st c b, trace n st c b ->
  ps_token st = tk -> ps_iter st = it -> exists fuel o, parse gp env fuel pr it0 w0 = Some o.
Proof.
  induction 1 as [it|er it|tok it Hf IH]; intros n st c b Htr Htk Hit;
    destruct (trace_inv _ _ _ _ Htr) as (pi & ts & Hi).
  - (* end of input *)
    destruct (inv_top g conv tbl states entries act gp Hgen env pr nt0 e Hpf it0 w0 _ _ _ _ Hi) as (s & ss & Hss & _).
    assert (Hla : look (ps_token st) None) by (rewrite Htk; constructor).
    destruct (act s None) as [a|] eqn:Ea.
    + pose proof (in_path _ _ _ _ _ _ _ _ _ _ Hi) as Hp. rewrite Hss in Hp.
      assert (Hg : good None (s :: ss)) by (eapply progress; eauto; congruence).
      destruct (good_run _ _ Hg _ _ _ _ Htr Hss Hla) as (n' & st' & b' & _ & Htr' & Htk' & _ & Hend).
      destruct Hend as [(s' & ss' & Hss' & Hend)|Hend]; [|do 2 eexists; eapply trace_parse; eauto].
      destruct (trace_inv _ _ _ _ Htr') as (pi' & ts' & Hi').
      rewrite <- Htk' in Hla. pose proof (step_ok _ _ _ _ _ _ _ Hi' Hss' Hla) as Hsp. unfold step_spec in Hsp.
      destruct Hend as [(k & Ha)|Ha]; rewrite Ha in Hsp.
      * destruct Hsp as (? & t & ? & ? & _ & Hx & _). discriminate.
      * destruct Hsp as (q & m & tr & bs & _ & _ & _ & _ & _ & _ & _ & _ & Hm).
        destruct (e_sem env _ _ _) as [[v w']|]; do 2 eexists; eapply trace_parse; eauto.
    + pose proof (step_ok st pi ts c s ss None Hi Hss Hla) as Hsp. unfold step_spec in Hsp. rewrite Ea in Hsp.
      destruct Hsp as (found & _ & Hm). do 2 eexists; eapply trace_parse; eauto.
  - destruct (step_cases _ _ _ _ Hi) as [(er' & _ & He)|[(tok & Ht & _)|(la & s & ss & Hla & _)]].
    + do 2 eexists; eapply trace_parse; eauto.
    + congruence.
    + rewrite Htk in Hla; inversion Hla.
  - destruct (step_cases _ _ _ _ Hi) as [(er' & Ht & He)|[(tok' & Ht & _ & He)|(la & s & ss & Hla & Hss & Hsp)]].
    + congruence.
    + do 2 eexists; eapply trace_parse; eauto.
    + destruct (act s la) as [a|] eqn:Ea.
      * pose proof (in_path _ _ _ _ _ _ _ _ _ _ Hi) as Hp. rewrite Hss in Hp.
        assert (Hg : good la (s :: ss)) by (eapply progress; eauto; congruence).
        destruct (good_run _ _ Hg _ _ _ _ Htr Hss Hla) as (n' & st' & b' & _ & Htr' & Htk' & Hit' & Hend).
        destruct Hend as [(s' & ss' & Hss' & Hend)|Hend]; [|do 2 eexists; eapply trace_parse; eauto].
        destruct (trace_inv _ _ _ _ Htr') as (pi' & ts' & Hi').
        rewrite <- Htk' in Hla. pose proof (step_ok _ _ _ _ _ _ _ Hi' Hss' Hla) as Hsp'. unfold step_spec in Hsp'.
        destruct Hend as [(k & Ha)|Ha]; rewrite Ha in Hsp'.
        -- destruct Hsp' as (tok' & t & fs & st2 & _ & _ & _ & _ & E1 & _ & Hv2 & Hw2 & Hn2 & _).
           assert (Htr2 : trace (S n') st2 (c ++ [tok]) true).
           { eapply tr_shift; eauto. congruence. }
           assert (Hpair : e_next env it = (ps_token st2, ps_iter st2)) by congruence.
           eapply IH; [exact Htr2| |]; rewrite Hpair; reflexivity.
        -- destruct Hsp' as (q & m & tr & bs & _ & _ & _ & _ & _ & _ & _ & _ & Hm).
           destruct (e_sem env _ _ _) as [[v w']|]; do 2 eexists; eapply trace_parse; eauto.
      * unfold step_spec in Hsp. rewrite Ea in Hsp. destruct Hsp as (found & _ & Hm).
        do 2 eexists; eapply trace_parse; eauto.
Qed.

Theorem parse_terminates : finite_stream (e_next env) it0 -> exists fuel o, parse gp env fuel pr it0 w0 = Some o.
Proof.
  intro Hf. apply finite_stream_from in Hf.
  eapply terminates; eauto; [apply tr_init| |]; unfold init_pstate; destruct (e_next env it0); reflexivity.
Qed.

(** ** Immediate error detection *)
Lemma error_fresh n st c b found expected :
  trace n st c b -> step gp env pr st = finish st (PParserError found expected) -> b = true.
Proof.
  intros Htr Hs. destruct Htr as [|n st c b tok st' Htr Hs1 _ _ _ _|n st c b st' Htr Hs1 Htk Hit Hv]; auto.
  exfalso. destruct (trace_inv _ _ _ _ Htr) as (pi & ts & Hi).
  destruct (step_kind _ _ _ _ _ Hi Hs1) as [(tok' & t' & fs' & s & ss & m & _ & _ & _ & Hv' & _)|(_ & _ & _ & (la & s & ss & m & p & q & s0 & ss0 & s1 & kids & rest & pi0 & Hla & Hss & Ha & Hq & Hsk & Ht & Hss1 & _ & _ & _ & Hi1))].
  - destruct Hv as (k & v & r & Hv). rewrite Hv in Hv'. discriminate.
  - pose proof (in_path _ _ _ _ _ _ _ _ _ _ Hi) as Hp. rewrite Hss in Hp.
    assert (Hg : good la (s :: ss)) by (eapply progress; eauto; congruence).
    assert (Hg1 : good la (s1 :: s0 :: ss0)).
    { inversion Hg; subst; try congruence. }
    rewrite <- Htk in Hla. pose proof (step_ok _ _ _ _ _ _ _ Hi1 Hss1 Hla) as Hsp. unfold step_spec in Hsp.
    inversion Hg1; subst; match goal with H : act s1 la = _ |- _ => rewrite H in Hsp end.
    + destruct Hsp as (? & ? & ? & ? & _ & _ & _ & _ & E1 & _). rewrite Hs in E1. discriminate.
    + destruct Hsp as (? & ? & ? & ? & _ & _ & _ & _ & _ & _ & _ & _ & Hm).
      destruct (e_sem env _ _ _) as [[v w']|]; rewrite Hs in Hm; inversion Hm.
    + destruct Hsp as (? & ? & ? & ? & ? & ? & ? & ? & ? & _ & _ & _ & _ & _ & _ & _ & _ & Hm).
      destruct (e_sem env _ _ _) as [[v w']|]; [destruct Hm as (? & E1 & _); rewrite Hs in E1; discriminate|].
      rewrite Hs in Hm; inversion Hm.
Qed.
End OneEnv.
End Live.
