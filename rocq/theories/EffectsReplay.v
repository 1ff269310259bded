(** * EffectsReplay: runs with arbitrary user code, replayed with pure user code *)
From Verif Require Export EffectsProofs.

(** ** Pure user code as a special case *)
Section Pure.
Context {A E V W I : Type}.
Variable gp : generated (lexpr A).
Variable inj : rval -> V.
Variable usem : A -> list (string * bval V) -> W -> option (V * W).
Variable next : I -> option (rval + E) * I.
Notation env := (user_env gp inj usem next).
Notation xe := (user_xenv gp inj (pure_sem (I := I) usem) (pure_next (W := W) next) pure_clone).
Variable pr : parser_struct.

Definition to_x (st : pstate rval E V W I) : xpstate rval E V (I * W) :=
  XState (ps_states st) (ps_values st) (ps_token st) (ps_iter st, ps_world st).
Definition to_xo (o : outcome E V W I) : xoutcome E V (I * W) := XOutcome (oc_result o) (oc_iter o, oc_world o).

Lemma pure_call f vs it w : x_call xe f vs (it, w) =
  match run_sem_fn env f vs w with
  | inr p => (inr p, (it, w))
  | inl (vs', w') => (inl vs', (it, w'))
  end.
Proof.
  unfold x_call, run_sem_fn. destruct (run_pops (sf_pops f) vs []) as [[vs' vars]|p]; auto.
  cbn [x_sem e_sem user_xenv user_env]. unfold xsem, lsem, pure_sem. destruct (sf_action f) as [a|x].
  - cbn [fst snd]. destruct (usem a vars w) as [[v w']|]; auto.
  - destruct (bget x vars) as [[?|?]|]; auto.
Qed.

Lemma pure_step st : x_step gp xe pr (to_x st) = match step gp env pr st with inl st' => inl (to_x st') | inr o => inr (to_xo o) end.
Proof.
  unfold x_step, step. cbn [to_x xs_states xs_token]. destruct (ps_states st) as [|s ss] eqn:Es; auto.
  assert (Hd : forall t, x_dispatch gp xe pr (to_x st) s t = match dispatch gp env pr st s t with inl st' => inl (to_x st') | inr o => inr (to_xo o) end).
  { intro t. unfold x_dispatch, dispatch. destruct (index2 (gp_action gp) s t) as [[[n|n k a|]|]|]; auto.
    - unfold x_shift, shift. cbn [x_next e_next user_xenv user_env to_x xs_user xs_token xs_values xs_states]. unfold pure_next. cbn [fst snd].
      destruct (next (ps_iter st)) as [r it]. destruct (ps_token st) as [[tok|er]|]; auto.
      match goal with |- context [x_val ?e tok] => change (x_val e tok) with (e_tok_val env tok) end. destruct (e_tok_val env tok) as [[j fs]|]; auto.
    - unfold x_reduce, reduce. destruct (nth_error (gp_sem_actions gp) a) as [f|]; auto.
      cbn [to_x xs_values xs_user xs_states xs_token]. rewrite pure_call. destruct (run_sem_fn env f (ps_values st) (ps_world st)) as [[vs w]|p]; auto.
      destruct (Nat.ltb _ _); auto. destruct (skipn k (ps_states st)) as [|s' r']; auto. destruct (index2 (gp_goto gp) s' n) as [[m|]|]; auto.
    - unfold x_accept, accept. destruct (nth_error (gp_sem_actions gp) (pr_action_idx pr)) as [f|]; auto.
      cbn [to_x xs_values xs_user xs_states xs_token]. rewrite pure_call. destruct (run_sem_fn env f (ps_values st) (ps_world st)) as [[vs w]|p]; auto.
      destruct vs as [|v vs]; auto. destruct (extract (ExNonTerminal (pr_extract_variant pr)) v) as [[?|?]|]; auto.
    - destruct (nth_error (gp_terminal_strs gp) t), (nth_error (gp_expected gp) s); auto. }
  destruct (ps_token st) as [[tok|er]|]; auto.
  change (x_idx xe tok) with (e_tok_idx env tok). destruct (e_tok_idx env tok); auto.
Qed.

Lemma pure_run n : forall st o, x_run gp xe n pr (inl (to_x st)) = inr (to_xo o) <-> run gp env n pr st = Some o.
Proof.
  induction n as [|n IH]; intros st o; cbn [x_run run]; [split; discriminate|]. rewrite pure_step.
  destruct (step gp env pr st) as [st'|o']; [apply IH|].
  assert (Hx : forall y, x_run gp xe n pr (inr y) = inr y) by (intro y; destruct n; reflexivity). rewrite Hx.
  split; intro H; injection H as H; [|subst; auto]. f_equal. destruct o, o'; cbn in *. congruence.
Qed.
Lemma pure_parse n it w o : x_parse gp xe n pr (it, w) = inr (to_xo o) <-> parse gp env n pr it w = Some o.
Proof.
  unfold x_parse, x_init, parse, init_pstate. cbn [x_next e_next user_xenv user_env]. unfold pure_next. cbn [fst snd].
  destruct (next it) as [r it']. apply (pure_run n {| ps_states := [pr_init_state pr]; ps_values := []; ps_token := r; ps_iter := it'; ps_world := w |} o).
Qed.
End Pure.

(** ** Replay *)
Section Replay.
Context {A E V St : Type}.
Variable gp : generated (lexpr A).
Variable inj : rval -> V.
Variable usem : A -> list (string * bval V) -> St -> completion V * St.
Variable next : St -> option (option (rval + E)) * St.
Variable clone : E -> St -> option E * St.
Hypothesis Hnr : no_return usem.
Variable log : St -> list (option (rval + E)).
Hypothesis Hlog : records usem next clone log.
Notation xe := (user_xenv gp inj usem next clone).
Notation rnext := (replay_next (Tok := rval) (E := E)).
Notation rsem := (replay_sem (A := A) (V := V)).
Notation env := (user_env gp inj rsem rnext).
Variable pr : parser_struct.

Definition replay (st : xpstate rval E V St) (l : list (option (rval + E))) (vs : list V) : pstate rval E V (list V) (list (option (rval + E))) :=
  {| ps_states := xs_states st; ps_values := xs_values st; ps_token := xs_token st; ps_iter := l; ps_world := vs |}.

Lemma replay_call f stk u r u' : x_call xe f stk u = (r, u') -> log u' = log u /\
  match r with
  | inl stk' => exists vs, forall vs', run_sem_fn env f stk (vs ++ vs') = inl (stk', vs')
  | inr p => p <> UserPanic -> forall vs', run_sem_fn env f stk vs' = inr p
  end.
Proof.
  unfold x_call, run_sem_fn. destruct (run_pops (sf_pops f) stk []) as [[stk' vars]|p] eqn:Ep.
  - cbn [x_sem e_sem user_xenv user_env]. unfold xsem, lsem. destruct (sf_action f) as [a|x].
    + pose proof (Hnr a vars u) as Hn. destruct (usem a vars u) as [[v| |] u1] eqn:Eu; intro H; injection H as <- <-; cbn in Hn; try congruence.
      * split; [eapply (rc_sem _ _ _ _ Hlog); eauto|]. exists [v]. intro vs'. reflexivity.
      * split; [eapply (rc_sem _ _ _ _ Hlog); eauto|]. congruence.
    + destruct (bget x vars) as [[?|v]|]; intro H; injection H as <- <-; split; auto; try congruence.
      exists []. intro vs'. reflexivity.
  - intro H. injection H as <- <-. split; auto.
Qed.

Lemma replay_step st st' : x_step gp xe pr st = inl st' -> exists l vs, log (xs_user st') = log (xs_user st) ++ l /\
  forall l' vs', step gp env pr (replay st (l ++ l') (vs ++ vs')) = inl (replay st' l' vs') /\
    nexts_of (step_events gp env pr (replay st (l ++ l') (vs ++ vs'))) = l /\
    exists e, step_events gp env pr (replay st (l ++ l') (vs ++ vs')) = [e] /\ match e with EvNext r => next (xs_user st) = (Some r, xs_user st') | EvCall _ => True end.
Proof.
  unfold x_step, step, step_events. cbn [replay ps_states ps_token]. destruct (xs_states st) as [|s ss] eqn:Es; [discriminate|].
  assert (Hd : forall t, x_dispatch gp xe pr st s t = inl st' -> exists l vs, log (xs_user st') = log (xs_user st) ++ l /\
    forall l' vs', dispatch gp env pr (replay st (l ++ l') (vs ++ vs')) s t = inl (replay st' l' vs') /\
      nexts_of (dispatch_events gp env pr (replay st (l ++ l') (vs ++ vs')) s t) = l /\
      exists e, dispatch_events gp env pr (replay st (l ++ l') (vs ++ vs')) s t = [e] /\ match e with EvNext r => next (xs_user st) = (Some r, xs_user st') | EvCall _ => True end).

  { intro t. unfold x_dispatch, dispatch, dispatch_events. destruct (index2 (gp_action gp) s t) as [[[n|n k a|]|]|]; try discriminate.
    - unfold x_shift. cbn [x_next user_xenv]. destruct (next (xs_user st)) as [[r|] u] eqn:En; [|discriminate]. intro H.
      exists [r], []. assert (Hu : xs_user st' = u).
      { destruct (xs_token st) as [[tok|er]|]; [destruct (x_val xe tok) as [[j fs]|]; [|discriminate]| |]; injection H as <-; reflexivity. }
      rewrite Hu. split; [eapply (rc_next _ _ _ _ Hlog); eauto|]. intros l' vs'. split; [|split; [reflexivity|eexists; split; [reflexivity|reflexivity]]].
      unfold shift. cbn [e_next user_env replay ps_iter ps_token ps_states ps_values ps_world app replay_next].
      destruct (xs_token st) as [[tok|er]|].
      + change (e_tok_val env tok) with (x_val xe tok). destruct (x_val xe tok) as [[j fs]|]; [|discriminate]. injection H as <-. reflexivity.
      + injection H as <-. reflexivity.
      + injection H as <-. reflexivity.
    - unfold x_reduce, reduce. destruct (nth_error (gp_sem_actions gp) a) as [f|]; [|discriminate].
      destruct (x_call xe f (xs_values st) (xs_user st)) as [[stk'|p] u] eqn:Ec; [|discriminate].
      destruct (replay_call _ _ _ _ _ Ec) as (Hl & vs & Hvs). intro H. exists [], vs.
      assert (Hu : xs_user st' = u).
      { destruct (Nat.ltb _ _); [discriminate|]. destruct (skipn k (xs_states st)) as [|s' r']; [discriminate|].
        destruct (index2 (gp_goto gp) s' n) as [[m|]|]; try discriminate. injection H as <-. reflexivity. }
      rewrite Hu, app_nil_r. split; auto. intros l' vs'. split; [|split; [reflexivity|eexists; split; [reflexivity|exact Logic.I]]].
      cbn [replay ps_values ps_world ps_states ps_token ps_iter app]. rewrite Hvs.
      destruct (Nat.ltb _ _); [discriminate|]. destruct (skipn k (xs_states st)) as [|s' r']; [discriminate|].
      destruct (index2 (gp_goto gp) s' n) as [[m|]|]; try discriminate. injection H as <-. reflexivity.
    - unfold x_accept. destruct (nth_error (gp_sem_actions gp) (pr_action_idx pr)) as [f|]; [|discriminate].
      destruct (x_call xe f (xs_values st) (xs_user st)) as [[[|v stk']|p] u]; try discriminate.
      destruct (extract _ v) as [[?|?]|]; discriminate.
    - destruct (nth_error (gp_terminal_strs gp) t), (nth_error (gp_expected gp) s); discriminate. }
  destruct (xs_token st) as [[tok|er]|] eqn:Et.
  - change (e_tok_idx env tok) with (x_idx xe tok). destruct (x_idx xe tok); [apply Hd|discriminate].
  - cbn [x_clone user_xenv]. destruct (clone er (xs_user st)) as [[?|] ?]; discriminate.
  - apply Hd.
Qed.

(** An iteration that returns. *)
Lemma replay_stop st o : x_step gp xe pr st = inr o -> match xo_result o with POk _ | PParserError _ _ => True | _ => False end ->
  log (xo_user o) = log (xs_user st) /\ exists vs, forall l vs',
    step gp env pr (replay st l (vs ++ vs')) = inr {| oc_result := xo_result o; oc_iter := l; oc_world := vs' |} /\
    nexts_of (step_events gp env pr (replay st l (vs ++ vs'))) = [] /\
    match xo_result o with PParserError _ _ => xo_user o = xs_user st /\ step_events gp env pr (replay st l (vs ++ vs')) = [] | _ => True end.
Proof.
  unfold x_step, step, step_events. cbn [replay ps_states ps_token]. destruct (xs_states st) as [|s ss] eqn:Es; [intro H; injection H as <-; contradiction|].
  assert (Hd : forall t, x_dispatch gp xe pr st s t = inr o -> match xo_result o with POk _ | PParserError _ _ => True | _ => False end ->
    log (xo_user o) = log (xs_user st) /\ exists vs, forall l vs',
    dispatch gp env pr (replay st l (vs ++ vs')) s t = inr {| oc_result := xo_result o; oc_iter := l; oc_world := vs' |} /\
      nexts_of (dispatch_events gp env pr (replay st l (vs ++ vs')) s t) = [] /\
      match xo_result o with PParserError _ _ => xo_user o = xs_user st /\ dispatch_events gp env pr (replay st l (vs ++ vs')) s t = [] | _ => True end).
  { intro t. unfold x_dispatch, dispatch, dispatch_events. destruct (index2 (gp_action gp) s t) as [[[n|n k a|]|]|]; try (intro H; injection H as <-; contradiction).
    - unfold x_shift. cbn [x_next user_xenv]. destruct (next (xs_user st)) as [[r|] u] eqn:En; [|intro H; injection H as <-; contradiction].
      destruct (xs_token st) as [[tok|er]|]; [destruct (x_val xe tok) as [[j fs]|]; [discriminate|]| |]; intro H; try discriminate H; injection H as <-; contradiction.
    - unfold x_reduce. destruct (nth_error (gp_sem_actions gp) a) as [f|]; [|intro H; injection H as <-; contradiction].
      destruct (x_call xe f (xs_values st) (xs_user st)) as [[stk'|p] u] eqn:Ec; [|intro H; injection H as <-; contradiction].
      destruct (Nat.ltb _ _); [intro H; injection H as <-; contradiction|]. destruct (skipn k (xs_states st)) as [|s' r']; [intro H; injection H as <-; contradiction|].
      destruct (index2 (gp_goto gp) s' n) as [[m|]|]; [discriminate| |]; intro H; injection H as <-; contradiction.
    - unfold x_accept, accept. destruct (nth_error (gp_sem_actions gp) (pr_action_idx pr)) as [f|]; [|intro H; injection H as <-; contradiction].
      destruct (x_call xe f (xs_values st) (xs_user st)) as [[[|v stk']|p] u] eqn:Ec; try (intro H; injection H as <-; contradiction).
      destruct (replay_call _ _ _ _ _ Ec) as (Hl & vs & Hvs).
      intros H Ho. destruct (extract (ExNonTerminal (pr_extract_variant pr)) v) as [[?|x]|] eqn:Ex; injection H as <-; try contradiction.
      split; auto. exists vs. intros l vs'. split; [|split; [reflexivity|exact Logic.I]]. cbn [replay ps_values ps_world ps_states ps_token ps_iter]. rewrite Hvs, Ex. reflexivity.
    - intros H Ho. destruct (nth_error (gp_terminal_strs gp) t) as [f|] eqn:E1, (nth_error (gp_expected gp) s) as [x|] eqn:E2; injection H as <-; try contradiction.
      split; auto. exists []. intros l vs'. repeat split. }
  destruct (xs_token st) as [[tok|er]|] eqn:Et.
  - change (e_tok_idx env tok) with (x_idx xe tok). destruct (x_idx xe tok); [apply Hd|intro H; injection H as <-; contradiction].
  - cbn [x_clone user_xenv]. destruct (clone er (xs_user st)) as [[?|] ?]; intro H; injection H as <-; contradiction.
  - apply Hd.
Qed.

Lemma nexts_app (a b : list (event rval E)) : nexts_of (a ++ b) = nexts_of a ++ nexts_of b.
Proof. unfold nexts_of. apply flat_map_app. Qed.

Lemma replay_run n : forall st st', x_run gp xe n pr (inl st) = inl st' -> exists l vs, log (xs_user st') = log (xs_user st) ++ l /\
  forall l' vs', iterations gp env pr n (replay st (l ++ l') (vs ++ vs')) = Some (replay st' l' vs') /\
    nexts_of (run_events gp env n pr (replay st (l ++ l') (vs ++ vs'))) = l /\
    (forall pre r, run_events gp env n pr (replay st (l ++ l') (vs ++ vs')) = pre ++ [EvNext r] -> exists v, next v = (Some r, xs_user st')) /\
    (n <> 0 -> run_events gp env n pr (replay st (l ++ l') (vs ++ vs')) <> []).
Proof.
  induction n as [|n IH]; intros st st' H; cbn [x_run] in H.
  - injection H as <-. exists [], []. split; [rewrite app_nil_r; auto|]. intros. split; [reflexivity|]. split; [reflexivity|]. split; [|congruence]. intros pre r Hx. destruct pre; discriminate.
  - destruct (x_step gp xe pr st) as [st1|o] eqn:Es; [|destruct n; discriminate].
    destruct (replay_step _ _ Es) as (l1 & v1 & Hl1 & H1). destruct (IH _ _ H) as (l2 & v2 & Hl2 & H2).
    exists (l1 ++ l2), (v1 ++ v2). split; [rewrite Hl2, Hl1, app_assoc; auto|]. intros l' vs'. rewrite <- !app_assoc.
    destruct (H1 (l2 ++ l') (v2 ++ vs')) as (E1 & E2 & e & Ee & Hev). destruct (H2 l' vs') as (E3 & E4 & E5 & E6).
    cbn [iterations run_events]. rewrite E1. split; [exact E3|]. split; [rewrite nexts_app, E2, E4; reflexivity|]. rewrite Ee. split; [|discriminate].
    intros pre r Hx. destruct (run_events gp env n pr (replay st1 (l2 ++ l') (v2 ++ vs'))) as [|e2 es] eqn:Er.
    + destruct pre as [|? [|]]; try discriminate. cbn in Hx. injection Hx as ->.
      assert (n = 0) as -> by (destruct n; auto; exfalso; apply E6; [discriminate|reflexivity]).
      cbn [x_run] in H. injection H as ->. eauto.
    + destruct pre as [|e0 pre]; [discriminate|]. cbn in Hx. injection Hx as _ Hx. exact (E5 pre r Hx).
Qed.

Lemma x_run_stop n : forall st o, x_run gp xe n pr (inl st) = inr o -> exists m st', x_run gp xe m pr (inl st) = inl st' /\ x_step gp xe pr st' = inr o.
Proof.
  induction n as [|n IH]; intros st o H; cbn [x_run] in H; [discriminate|].
  destruct (x_step gp xe pr st) as [st1|o1] eqn:Es.
  - destruct (IH _ _ H) as (m & st' & H1 & H2). exists (S m), st'. cbn [x_run]. rewrite Es. auto.
  - exists 0, st. split; auto. destruct n; cbn in H; congruence.
Qed.

Lemma replay_running n u st : x_parse gp xe n pr u = inl st -> exists rs vs evs, log (xs_user st) = log u ++ rs /\ nexts_of evs = rs /\
  running gp inj rsem rnext pr rs vs n [] [] evs.
Proof.
  unfold x_parse, x_init. cbn [x_next user_xenv]. destruct (next u) as [[r|] u'] eqn:En; [|destruct n; discriminate].
  intro H. destruct (replay_run _ _ _ H) as (l & vs & Hl & Hr). cbn [xs_user] in Hl.
  exists (r :: l), vs, (parse_events gp env n pr (r :: l) vs). rewrite Hl, (rc_next _ _ _ _ Hlog _ _ _ En), <- app_assoc. split; auto.
  destruct (Hr [] []) as (E1 & E2 & _). rewrite !app_nil_r in E1, E2. split.
  - unfold parse_events. cbn [nexts_of flat_map e_next user_env replay_next fst app]. f_equal. exact E2.
  - exists (replay st [] []). split; [exact E1|]. auto.
Qed.

Lemma replay_returns n u o : x_parse gp xe n pr u = inr o -> match xo_result o with POk _ | PParserError _ _ => True | _ => False end ->
  exists rs vs evs, log (xo_user o) = log u ++ rs /\ nexts_of evs = rs /\
  returns_with gp inj rsem rnext pr rs vs {| oc_result := xo_result o; oc_iter := []; oc_world := [] |} evs /\
  match xo_result o with PParserError _ _ => forall pre r, evs = pre ++ [EvNext r] -> exists v, next v = (Some r, xo_user o) | _ => True end.
Proof.
  unfold x_parse, x_init. cbn [x_next user_xenv]. destruct (next u) as [[r|] u'] eqn:En.
  2: { intros H Ho. assert (Hx : x_run gp xe n pr (inr (XOutcome (PPanic UserPanic) u')) = inr (XOutcome (PPanic UserPanic) u')) by (destruct n; reflexivity).
       rewrite Hx in H. injection H as <-. contradiction. }
  intros H Ho. destruct (x_run_stop _ _ _ H) as (m & st & Hm & Hs).
  destruct (replay_run _ _ _ Hm) as (l & vs & Hl & Hr). cbn [xs_user] in Hl.
  destruct (replay_stop _ _ Hs Ho) as (Hl2 & v2 & Hst).
  exists (r :: l), (vs ++ v2), (parse_events gp env (S m) pr (r :: l) (vs ++ v2)).
  split; [rewrite Hl2, Hl, (rc_next _ _ _ _ Hlog _ _ _ En), <- app_assoc; reflexivity|].
  destruct (Hr [] v2) as (E1 & E2 & E5 & E6). rewrite app_nil_r in E1, E2, E5, E6. destruct (Hst [] []) as (E3 & E4 & E7). rewrite app_nil_r in E3, E4, E7.
  destruct (iterations_run gp pr inj rsem rnext _ _ _ _ E1 E3) as (R1 & R2).
  split.
  - unfold parse_events. cbn [nexts_of flat_map e_next user_env replay_next fst app]. f_equal.
    change (nexts_of (run_events gp env (S m) pr (init_pstate env pr (r :: l) (vs ++ v2))) = l).
    unfold init_pstate. cbn [e_next user_env replay_next].
    etransitivity; [exact (f_equal nexts_of R2)|]. rewrite nexts_app, E4, app_nil_r. exact E2.
  - split; [exists (S m); split; [exact R1|reflexivity]|]. destruct (xo_result o) as [| |f x|] eqn:Eo; auto. destruct E7 as (Eu & Ev). intros pre q Hx.
    assert (Hx' : EvNext r :: run_events gp env m pr (replay (XState [pr_init_state pr] [] r u') l (vs ++ v2)) = pre ++ [EvNext q]).
    { rewrite <- Hx. unfold parse_events. cbn [e_next user_env replay_next fst]. f_equal. unfold init_pstate. cbn [e_next user_env replay_next].
      symmetry. etransitivity; [exact R2|]. rewrite Ev, app_nil_r. reflexivity. }
    clear Hx. rewrite Eu. destruct pre as [|e pre].
    + cbn in Hx'. injection Hx' as <- Hx'. assert (m = 0) as -> by (destruct m; auto; exfalso; apply E6; [discriminate|exact Hx']).
      cbn [x_run] in Hm. injection Hm as <-. cbn [xs_user]. eauto.
    + cbn in Hx'. injection Hx' as _ Hx'. exact (E5 pre q Hx').
Qed.
End Replay.

(** ** Recording *)
Section Recording.
Context {A E V St : Type}.
Variable gp : generated (lexpr A).
Variable inj : rval -> V.
Variable usem : A -> list (string * bval V) -> St -> completion V * St.
Variable next : St -> option (option (rval + E)) * St.
Variable clone : E -> St -> option E * St.
Notation L := (list (option (rval + E))).
Notation xe := (user_xenv gp inj usem next clone).
Notation re := (user_xenv gp inj (rec_sem usem) (rec_next next) (rec_clone (L := L) clone)).
Variable pr : parser_struct.

Lemma rec_records : records (rec_sem usem) (rec_next next) (rec_clone clone) (fun u : St * L => snd u).
Proof.
  constructor.
  - intros u r u'. unfold rec_next. destruct (next (fst u)) as [[r'|] v]; intro H; [injection H as <- <-; reflexivity|discriminate].
  - intros a b u c u'. unfold rec_sem. destruct (usem a b (fst u)) as [c' v]. intro H; injection H as <- <-; reflexivity.
  - intros er u c u'. unfold rec_clone. destruct (clone er (fst u)) as [c' v]. intro H; injection H as <- <-; reflexivity.
Qed.
Lemma rec_no_return : no_return usem -> no_return (rec_sem (L := L) usem).
Proof. intros H a b u. unfold rec_sem. pose proof (H a b (fst u)). destruct (usem a b (fst u)). exact H0. Qed.

Definition forget (x : xpstate rval E V (St * L) + xoutcome E V (St * L)) : xpstate rval E V St + xoutcome E V St :=
  match x with
  | inl st => inl (XState (xs_states st) (xs_values st) (xs_token st) (fst (xs_user st)))
  | inr o => inr (XOutcome (xo_result o) (fst (xo_user o)))
  end.
Lemma rec_call f vs u : x_call xe f vs (fst u) = (fst (x_call re f vs u), fst (snd (x_call re f vs u))).
Proof.
  unfold x_call. destruct (run_pops (sf_pops f) vs []) as [[vs' vars]|p]; auto.
  cbn [x_sem user_xenv]. unfold xsem. destruct (sf_action f) as [a|x].
  - unfold rec_sem. destruct (usem a vars (fst u)) as [[v| |] u']; auto.
  - destruct (bget x vars) as [[?|?]|]; auto.
Qed.
Lemma rec_step st : x_step gp xe pr (XState (xs_states st) (xs_values st) (xs_token st) (fst (xs_user st))) = forget (x_step gp re pr st).
Proof.
  unfold x_step. cbn [xs_states xs_token xs_user]. destruct (xs_states st) as [|s ss] eqn:Es; auto.
  assert (Hd : forall t, x_dispatch gp xe pr (XState (s :: ss) (xs_values st) (xs_token st) (fst (xs_user st))) s t = forget (x_dispatch gp re pr st s t)).
  { intro t. unfold x_dispatch. destruct (index2 (gp_action gp) s t) as [[[n|n k a|]|]|]; auto.
    - unfold x_shift. cbn [x_next user_xenv xs_user xs_token xs_values xs_states]. unfold rec_next.
      destruct (next (fst (xs_user st))) as [[r|] u']; auto. destruct (xs_token st) as [[tok|er]|]; cbn; rewrite ?Es; auto.
      destruct (option_map _ _) as [[j fs]|]; cbn; rewrite ?Es; auto.
    - unfold x_reduce. destruct (nth_error (gp_sem_actions gp) a) as [f|]; auto.
      cbn [xs_values xs_user xs_states xs_token]. rewrite rec_call. destruct (x_call re f (xs_values st) (xs_user st)) as [[vs|p] u']; auto.
      cbn [fst snd]. rewrite Es. destruct (Nat.ltb _ _); auto. destruct (skipn k (s :: ss)) as [|s' r']; auto. destruct (index2 (gp_goto gp) s' n) as [[m|]|]; auto.
    - unfold x_accept. destruct (nth_error (gp_sem_actions gp) (pr_action_idx pr)) as [f|]; auto.
      cbn [xs_values xs_user xs_states xs_token]. rewrite rec_call. destruct (x_call re f (xs_values st) (xs_user st)) as [[vs|p] u']; auto.
      cbn [fst snd]. destruct vs as [|v vs]; auto. destruct (extract (ExNonTerminal (pr_extract_variant pr)) v) as [[?|?]|]; auto.
    - destruct (nth_error (gp_terminal_strs gp) t), (nth_error (gp_expected gp) s); auto. }
  destruct (xs_token st) as [[tok|er]|] eqn:Et; auto.
  - change (x_idx re tok) with (x_idx xe tok). destruct (x_idx xe tok); auto.
  - cbn [x_clone user_xenv]. unfold rec_clone. destruct (clone er (fst (xs_user st))) as [[e'|] u']; auto.
Qed.
Lemma rec_run n : forall x, x_run gp xe n pr (forget x) = forget (x_run gp re n pr x).
Proof.
  induction n as [|n IH]; intros [st|o]; auto. cbn [x_run forget]. rewrite rec_step. apply IH.
Qed.
Lemma rec_parse n u l : x_parse gp xe n pr u = forget (x_parse gp re n pr (u, l)).
Proof.
  unfold x_parse. rewrite <- rec_run. f_equal. unfold x_init. cbn [x_next user_xenv]. unfold rec_next. cbn [fst snd].
  destruct (next u) as [[r|] u']; auto.
Qed.
End Recording.
