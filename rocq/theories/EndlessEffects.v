(** * EndlessEffects: EndlessRuns.v for user code that does anything (Effects.v) *)
From Verif Require Export EndlessRuns Effects EffectsSpec.

Section Runs.
Context {A E V St : Type}.
Variable gp : generated (lexpr A).
Variable inj : rval -> V.
Variable usem : A -> list (string * bval V) -> St -> completion V * St.
Variable next : St -> option (option (rval + E)) * St.
Variable clone : E -> St -> option E * St.
Notation env := (user_xenv gp inj usem next clone).
Variable log : St -> list (option (rval + E)).
Hypothesis Hlog : records usem next clone log.
Variable pr : parser_struct.
Hypothesis Hpr : In pr (gp_parsers gp).
Notation xst := (xpstate rval E V St).

Definition xcolumn (st : xst) : option nat :=
  match xs_token st with None => Some (gp_n_terminals gp) | Some (inl tok) => x_idx env tok | Some (inr _) => None end.
Notation xcst st := (cstep (red_in gp (xcolumn st)) (goto_in gp) (xs_states st)).

Lemma call_log (f : sem_fn (lexpr A)) stk u r u' : x_call env f stk u = (r, u') -> log u' = log u.
Proof.
  unfold x_call. destruct (run_pops (sf_pops f) stk []) as [(stk' & vars)|e]; [|intro H; injection H as <- <-; reflexivity].
  cbn [x_sem user_xenv]. unfold xsem. destruct (sf_action f) as [a|x].
  - destruct (usem a vars u) as [c v] eqn:Eu. apply (rc_sem _ _ _ _ Hlog) in Eu. destruct c; intro H; injection H as <- <-; exact Eu.
  - destruct (bget x vars) as [[fs|v]|]; intro H; injection H as <- <-; reflexivity.
Qed.

Lemma x_step_control st st' : x_step gp env pr st = inl st' ->
  (xcst st = Some (xs_states st') /\ xs_token st' = xs_token st /\ log (xs_user st') = log (xs_user st)) \/
  (xcst st = None /\ (exists r, log (xs_user st') = log (xs_user st) ++ [r]) /\ exists j, In j (pushed gp) /\ xs_states st' = j :: xs_states st).
Proof.
  unfold x_step, xcolumn. destruct (xs_states st) as [|s ss] eqn:Es; [discriminate|].
  assert (D : forall t, x_dispatch gp env pr st s t = inl st' ->
    (cstep (red_in gp (Some t)) (goto_in gp) (s :: ss) = Some (xs_states st') /\ xs_token st' = xs_token st /\ log (xs_user st') = log (xs_user st)) \/
    (cstep (red_in gp (Some t)) (goto_in gp) (s :: ss) = None /\ (exists r, log (xs_user st') = log (xs_user st) ++ [r]) /\
     exists j, In j (pushed gp) /\ xs_states st' = j :: s :: ss)).
  { intro t. unfold x_dispatch, cstep, red_in. destruct (index2 (gp_action gp) s t) as [[[j|nt n a|]|]|] eqn:Ea.
    - unfold x_shift. cbn [x_next user_xenv]. destruct (next (xs_user st)) as [[tk|] u] eqn:En; [|discriminate]. pose proof (rc_next _ _ _ _ Hlog _ _ _ En) as Hl.
      intro H. right. split; [reflexivity|]. destruct (xs_token st) as [[tok|e]|]; [destruct (x_val env tok) as [(i & fs)|]; [|discriminate]|..]; injection H as <-;
        cbn; rewrite Es; (split; [eauto|]); exists j; (split; [eapply shift_pushed; eauto|reflexivity]).
    - unfold x_reduce. destruct (nth_error (gp_sem_actions gp) a) as [f|]; [|discriminate]. destruct (x_call env f (xs_values st) (xs_user st)) as [[stk|e] w'] eqn:Ec; [|discriminate].
      apply call_log in Ec.
      rewrite Es. destruct (Nat.ltb (List.length (s :: ss)) n); [discriminate|]. destruct (skipn n (s :: ss)) as [|s' r] eqn:Ek; [discriminate|].
      destruct (index2 (gp_goto gp) s' nt) as [[j|]|] eqn:Eg; try discriminate. intro H. injection H as <-. left. unfold goto_in. rewrite Eg. auto.
    - unfold x_accept. intro H. exfalso. destruct (nth_error (gp_sem_actions gp) (pr_action_idx pr)) as [f|]; [|discriminate].
      destruct (x_call env f (xs_values st) (xs_user st)) as [[[|v stk]|e] w']; try discriminate. destruct (extract _ v) as [[fs|x]|]; discriminate.
    - intro H. exfalso. destruct (nth_error (gp_terminal_strs gp) t), (nth_error (gp_expected gp) s); discriminate.
    - discriminate. }
  destruct (xs_token st) as [[tok|e]|]; [|destruct (x_clone env e (xs_user st)) as [[?|] ?]; discriminate|].
  - destruct (x_idx env tok) as [t|]; [|discriminate]. apply D.
  - apply D.
Qed.

Definition xspent (st : xst) (n c : nat) : Prop := exists n0 st0 m, n = n0 + m /\ n0 + rounds (pushed gp) * List.length st0 <= c * rate gp /\ st0 <> [] /\
  incl (firstn 1 st0) (pushed gp) /\ csteps (red_in gp (xcolumn st)) (goto_in gp) m st0 (xs_states st).
Definition xendless (st : xst) : Prop := endless (red_in gp (xcolumn st)) (goto_in gp) (xs_states st).

Lemma xspent_step st st' n c : xspent st n c -> x_step gp env pr st = inl st' ->
  exists k, List.length (log (xs_user st')) = List.length (log (xs_user st)) + k /\ xspent st' (S n) (c + k).
Proof.
  intros (n0 & st0 & m & -> & Hb & Hne & Hi & Hr) H. destruct (x_step_control _ _ H) as [(Hc & Ht & Hn)|(Hc & (r & Hn) & j & Hj & Hs)].
  - exists 0. rewrite Hn. split; [lia|]. exists n0, st0, (S m). rewrite Nat.add_0_r. repeat split; auto; try lia.
    unfold xcolumn. rewrite Ht. eapply csteps_snoc; [exact Hr|exact Hc].
  - exists 1. rewrite Hn, app_length. split; [reflexivity|]. destruct (phase _ _ (pushed gp) (goto_pushed gp) st0 m _ Hne Hi Hr) as [He|(Hp & _)].
    + exfalso. apply (endless_steps _ _ _ (endless_on _ _ _ _ _ He Hr)). exact Hc.
    + exists (S (n0 + m)), (xs_states st'), 0. rewrite Hs. split; [lia|]. split; [|split; [discriminate|split; [intros z [<-|[]]; exact Hj|constructor]]].
      cbn [List.length]. rewrite Nat.mul_add_distr_r, Nat.mul_1_l, Nat.mul_succ_r. unfold rate at 2. clear - Hp Hb. lia.
Qed.
Lemma xspent_run n : forall st st' k c, x_run gp env n pr (inl st) = inl st' -> xspent st k c ->
  exists d, List.length (log (xs_user st')) = List.length (log (xs_user st)) + d /\ xspent st' (k + n) (c + d).
Proof.
  induction n as [|n IH]; intros st st' k c H Hs; cbn [x_run] in H.
  - injection H as <-. exists 0. rewrite !Nat.add_0_r. auto.
  - destruct (x_step gp env pr st) as [st1|o] eqn:Es; [|destruct n; discriminate]. destruct (xspent_step _ _ _ _ Hs Es) as (d1 & E1 & H1).
    destruct (IH _ _ _ _ H H1) as (d2 & E2 & H2). exists (d1 + d2). split; [lia|]. replace (k + S n) with (S k + n) by lia. rewrite Nat.add_assoc. exact H2.
Qed.
Lemma xspent_parse n u st : x_parse gp env n pr u = inl st -> exists d, List.length (log (xs_user st)) = List.length (log u) + d /\ xspent st n d.
Proof.
  unfold x_parse, x_init. cbn [x_next user_xenv]. destruct (next u) as [[tk|] v] eqn:En; [|destruct n; discriminate]. pose proof (rc_next _ _ _ _ Hlog _ _ _ En) as Hl.
  intro H. destruct (xspent_run n _ _ 0 1 H) as (d & Hd & Hs).
  - exists 0, [pr_init_state pr], 0. cbn [List.length xs_states]. repeat split; auto; try discriminate; [unfold rate; lia| |constructor].
    intros z [<-|[]]. apply init_pushed. exact Hpr.
  - exists (1 + d). cbn [xs_user] in Hd. rewrite Hl, app_length in Hd. cbn in Hd. split; [lia|exact Hs].
Qed.
Lemma xspent_bound st n c : xspent st n c -> xendless st \/ n <= c * rate gp.
Proof.
  intros (n0 & st0 & m & -> & Hb & Hne & Hi & Hr). destruct (phase _ _ (pushed gp) (goto_pushed gp) st0 m _ Hne Hi Hr) as [He|(_ & Hp)]; [left|right; lia].
  eapply endless_on; eauto.
Qed.
Lemma xendless_run n : forall st st', xendless st -> x_run gp env n pr (inl st) = inl st' -> log (xs_user st') = log (xs_user st).
Proof.
  induction n as [|n IH]; intros st st' He H; cbn [x_run] in H; [injection H as <-; reflexivity|].
  destruct (x_step gp env pr st) as [st1|o] eqn:Es; [|destruct n; discriminate].
  destruct (x_step_control _ _ Es) as [(Hc & Ht & Hn)|(Hc & _)]; [|exfalso; exact (endless_steps _ _ _ He Hc)].
  rewrite <- Hn. apply IH; [|exact H]. unfold xendless, xcolumn. rewrite Ht. eapply endless_on; [exact He|]. econstructor; [exact Hc|constructor].
Qed.
Lemma xendless_stop n : forall st o, xendless st -> x_run gp env n pr (inl st) = inr o -> log (xo_user o) = log (xs_user st) /\ exists p, xo_result o = PPanic p.
Proof.
  induction n as [|n IH]; intros st o He H; cbn [x_run] in H; [discriminate|].
  destruct (x_step gp env pr st) as [st1|o1] eqn:Es.
  - destruct (x_step_control _ _ Es) as [(Hc & Ht & Hn)|(Hc & _)]; [|exfalso; exact (endless_steps _ _ _ He Hc)].
    rewrite <- Hn. apply IH; [|exact H]. unfold xendless, xcolumn. rewrite Ht. eapply endless_on; [exact He|]. econstructor; [exact Hc|constructor].
  - assert (o1 = o) by (destruct n; cbn in H; congruence). subst o1. clear H. pose proof (endless_steps _ _ _ He) as Hc.
    unfold x_step, xcolumn in *. destruct (xs_states st) as [|s ss] eqn:E0; [contradiction|].
    assert (D : forall t, cstep (red_in gp (Some t)) (goto_in gp) (s :: ss) <> None -> x_dispatch gp env pr st s t = inr o ->
      log (xo_user o) = log (xs_user st) /\ exists p, xo_result o = PPanic p).
    { clear Hc Es. intro t. unfold x_dispatch, cstep, red_in. destruct (index2 (gp_action gp) s t) as [[[j|nt n' a|]|]|]; try contradiction. intros _ Hst.
      unfold x_reduce in Hst. destruct (nth_error (gp_sem_actions gp) a) as [f|]; [|injection Hst as <-; cbn; eauto].
      destruct (x_call env f (xs_values st) (xs_user st)) as [[stk|e] w'] eqn:Ec; apply call_log in Ec; [|injection Hst as <-; cbn; eauto].
      rewrite E0 in Hst. destruct (Nat.ltb (List.length (s :: ss)) n'); [injection Hst as <-; cbn; eauto|].
      destruct (skipn n' (s :: ss)) as [|s1 r1]; [injection Hst as <-; cbn; eauto|]. destruct (index2 (gp_goto gp) s1 nt) as [[jj|]|]; [discriminate Hst| |]; injection Hst as <-; cbn; eauto. }
    destruct (xs_token st) as [[tok|e]|]; [|cbn in Hc; contradiction|].
    + destruct (x_idx env tok) as [t|]; [|cbn in Hc; contradiction]. exact (D t Hc Es).
    + exact (D _ Hc Es).
Qed.
Lemma x_run_more n m : forall c, x_run gp env (n + m) pr c = x_run gp env m pr (x_run gp env n pr c).
Proof. induction n as [|n IH]; intros [st|o]; cbn [x_run Nat.add]; auto. destruct m; reflexivity. Qed.
Lemma x_run_inr m : forall o, x_run gp env m pr (inr o) = inr o. Proof. destruct m; reflexivity. Qed.
End Runs.
