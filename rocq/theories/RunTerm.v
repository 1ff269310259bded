(** * RunTerm: for LR(1) grammars every run on a finite input stops, whatever lookaheads the macro's FIRST
    sets miss: each reduction of the generated parser is a reduction of the ideal LR(1) machine, which
    reduces only finitely often on one lookahead. *)
From Verif Require Export RunLive Canonical.

Section Term.
Context {A Tok E V W I : Type}.
Variable g : grammar A.
Hypothesis Hwf : wf_grammar g.
Variable conv : list conversion.
Variable tbl : first_table.
Hypothesis Hsound : (forall n, flag tbl n = true -> nullable g n) /\ (forall n t, In t (terms tbl n) -> first_of g n t).
Variable states : list lr1_state.
Variable entries : list (nat * nat).
Variable act : nat -> option nat -> option aact.
Variable gp : generated A.
Hypothesis Hgen : generated_ok g conv tbl states entries act gp.
Variable pr : parser_struct.
Variables nt0 e : nat.
Hypothesis Hpf : parser_for g (gp_sem_actions gp) entries pr nt0 e.
Notation Haut := (gn_aut _ _ _ _ _ _ _ Hgen).
Notation Hact := (gn_act _ _ _ _ _ _ _ Hgen).
Notation Hent := (Hentry g entries gp pr nt0 e Hpf).
Hypothesis Hlr1 : lr1_grammar g.
Hypothesis Hprod : tails_productive_g g.
Variable env : env_t A Tok E V W I.
Hypothesis Htok : tokens_ok g env.
Variable it0 : I.
Variable w0 : W.
Notation inv := (inv g states env e it0 w0).
Notation look := (look env).
Notation trace := (trace gp pr env it0 w0).
Notation step_cases := (step_cases g Hwf conv tbl states entries act gp Hgen env Htok pr nt0 e Hpf it0 w0).
Notation step_kind := (step_kind g Hwf conv tbl states entries act gp Hgen pr nt0 e Hpf env Htok it0 w0).
Notation trace_inv := (trace_inv g Hwf conv tbl states entries act gp Hgen pr nt0 e Hpf env Htok it0 w0).

Lemma entry_is : is_entry g nt0.
Proof. destruct (entry_public g tbl states entries Haut nt0 e Hent) as (N & H1 & H2). exists N; auto. Qed.

Lemma entry_prod : exists m q, get_production g nt0 0 = Some q /\ rhs q = [NT m].
Proof.
  destruct entry_is as (N & HN & Hp). destruct (wfg_pub g Hwf _ _ HN Hp) as (q & m & H1 & H2).
  exists m, q. split; [unfold get_production; rewrite HN, H1; reflexivity|exact H2].
Qed.

(** A reduction of the parser is a reduction of the ideal machine. *)
Lemma reduce_rstep pi s ss la n p q pi0 : stack_path states e pi (s :: ss) -> act s la = Some (AReduce n p) ->
  get_production g n p = Some q -> pi = rev (rhs q) ++ pi0 -> rstep g nt0 la pi (NT n :: pi0).
Proof.
  intros Hp Ha Hq Hpi. destruct (ac_inv _ _ _ Hact _ _ _ Ha) as (st & Hst & it & Hit & (Hc & Hpriv) & En & Ep & El).
  destruct (valid_items g tbl states entries Haut nt0 e Hent _ _ Hp) as (s' & ss' & st' & Heq & Hst' & _ & Hi).
  inversion Heq; subst s' ss'. rewrite Hst in Hst'; inversion Hst'; subst st'.
  apply Hi in Hit. destruct Hit as (d & Hv). pose proof (valid_lr1 g tbl Hsound nt0 _ _ _ Hv) as Hiv.
  subst n p la. pose proof (complete_reduces g nt0 (rev pi) it q Hiv Hq Hc) as Hr.
  assert (Hsk : pi0 = skipn (List.length (rhs q)) pi).
  { subst pi. rewrite <- rev_length. rewrite skipn_app, Nat.sub_diag, skipn_all. reflexivity. }
  rewrite Hsk. apply (rstep_intro g nt0 (it_la it) pi (it_nt it) (it_prod it) q); auto. intro E0. rewrite E0 in Hpriv.
  eapply public_private_excl; [|exact Hpriv]. apply (entry_public g tbl states entries Haut nt0 e Hent).
Qed.

(** Reductions on one lookahead end. *)
Lemma reds_end la N : forall pi, (forall k c, rsteps g nt0 la k pi c -> k <= N) ->
  forall n st c b ts, trace n st c b -> inv st pi ts c -> look (ps_token st) la ->
  exists n' st' b', trace n' st' c b' /\ ps_token st' = ps_token st /\ ps_iter st' = ps_iter st /\
    ((exists o, step gp env pr st' = inr o) \/
     (exists tok st2, step gp env pr st' = inl st2 /\ ps_token st' = Some (inl tok) /\
        trace (S n') st2 (c ++ [tok]) true /\ e_next env (ps_iter st') = (ps_token st2, ps_iter st2))).
Proof.
  induction N as [|N IH]; intros pi HN n st c b ts Htr Hi Hla;
    (destruct (step gp env pr st) as [st1|o] eqn:Es; [|exists n, st, b; eauto 8]);
    (destruct (step_kind _ _ _ _ _ Hi Es) as [(tok & t & fs & s & ss & m & H1 & H2 & H3 & H4 & _)|(H1 & H2 & H3 & (la' & s & ss & m & p & q & s0 & ss0 & s1 & kids & rest & pi0 & Hla' & Hss & Ha & Hq & _ & _ & _ & Hpi & _ & _ & Hi1))];
     [exists n, st, b; repeat (split; auto); right; exists tok, st1; repeat (split; auto); eapply tr_shift; eauto|]);
    (assert (la' = la) by (destruct Hla; inversion Hla'; congruence); subst la';
     pose proof (in_path _ _ _ _ _ _ _ _ _ _ Hi) as Hp; rewrite Hss in Hp;
     pose proof (reduce_rstep _ _ _ _ _ _ _ _ Hp Ha Hq Hpi) as Hr).
  - exfalso. assert (1 <= 0); [|lia]. eapply (HN 1). econstructor; [exact Hr|constructor].
  - assert (HN1 : forall k c0, rsteps g nt0 la k (NT m :: pi0) c0 -> k <= N).
    { intros k c0 Hk. assert (S k <= S N); [|lia]. eapply (HN (S k)). econstructor; eauto. }
    assert (Htr1 : trace (S n) st1 c false) by (eapply tr_reduce; eauto).
    assert (Hla1 : look (ps_token st1) la) by (rewrite H1; auto).
    destruct (IH _ HN1 _ _ _ _ _ Htr1 Hi1 Hla1) as (n' & st' & b' & G1 & G2 & G3 & G4).
    exists n', st', b'. rewrite <- H1, <- H2. auto.
Qed.

Lemma reds_end_any n st c b la : trace n st c b -> look (ps_token st) la ->
  exists n' st' b', trace n' st' c b' /\ ps_token st' = ps_token st /\ ps_iter st' = ps_iter st /\
    ((exists o, step gp env pr st' = inr o) \/
     (exists tok st2, step gp env pr st' = inl st2 /\ ps_token st' = Some (inl tok) /\
        trace (S n') st2 (c ++ [tok]) true /\ e_next env (ps_iter st') = (ps_token st2, ps_iter st2))).
Proof.
  intros Htr Hla. destruct (trace_inv _ _ _ _ Htr) as (pi & ts & Hi).
  destruct (step gp env pr st) as [st1|o] eqn:Es; [|exists n, st, b; eauto 8].
  destruct (step_kind _ _ _ _ _ Hi Es) as [(tok & t & fs & s & ss & m & H1 & H2 & H3 & H4 & _)|(H1 & H2 & H3 & (la' & s & ss & m & p & q & s0 & ss0 & s1 & kids & rest & pi0 & Hla' & Hss & Ha & Hq & _ & _ & _ & Hpi & _ & _ & Hi1))].
  - exists n, st, b; repeat (split; auto); right; exists tok, st1; repeat (split; auto); eapply tr_shift; eauto.
  - assert (la' = la) by (destruct Hla; inversion Hla'; congruence); subst la'.
    pose proof (in_path _ _ _ _ _ _ _ _ _ _ Hi) as Hp; rewrite Hss in Hp.
    pose proof (reduce_rstep _ _ _ _ _ _ _ _ Hp Ha Hq Hpi) as Hr.
    destruct entry_prod as (m0 & q0 & Hq0 & Hr0).
    destruct (reductions_bounded g Hwf nt0 entry_is m0 q0 Hq0 Hr0 Hprod Hlr1 _ _ _ Hr) as (N & HN).
    eapply reds_end; eauto.
Qed.

Theorem terminates_lr1 tk it : finite_from (e_next env) tk it -> forall n st c b, trace n st c b ->
  ps_token st = tk -> ps_iter st = it -> exists fuel o, parse gp env fuel pr it0 w0 = Some o.
Proof.
  assert (Hfin : forall n st c b o, trace n st c b -> step gp env pr st = inr o -> exists fuel o, parse gp env fuel pr it0 w0 = Some o).
  { intros. exists (S n), o. eapply trace_parse; eauto. }
  induction 1 as [it|er it|tok it Hf IH]; intros n st c b Htr Htk Hit;
    destruct (trace_inv _ _ _ _ Htr) as (pi & ts & Hi);
    destruct (step_cases _ _ _ _ Hi) as [(er' & Ht & He)|[(tok' & Ht & _ & He)|(la & s & ss & Hla & _)]];
    try (eapply Hfin; [exact Htr|exact He]).
  - destruct (reds_end_any _ _ _ _ _ Htr Hla) as (n' & st' & b' & G1 & G2 & G3 & [(o & G4)|(tok & st2 & _ & G4 & _)]); [eauto|congruence].
  - rewrite Htk in Hla. inversion Hla.
  - destruct (reds_end_any _ _ _ _ _ Htr Hla) as (n' & st' & b' & G1 & G2 & G3 & [(o & G4)|(tok' & st2 & _ & G4 & G5 & G6)]); [eauto|].
    assert (Hpair : e_next env it = (ps_token st2, ps_iter st2)) by congruence.
    eapply IH; [exact G5| |]; rewrite Hpair; reflexivity.
Qed.

Theorem parse_terminates_lr1 : finite_stream (e_next env) it0 -> exists fuel o, parse gp env fuel pr it0 w0 = Some o.
Proof.
  intro Hf. apply finite_stream_from in Hf.
  eapply terminates_lr1; eauto; [apply tr_init| |]; unfold init_pstate; destruct (e_next env it0); reflexivity.
Qed.
End Term.
