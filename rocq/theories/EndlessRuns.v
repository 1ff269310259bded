(** * EndlessRuns: generated parsers and EndlessProofs.v *)
From Verif Require Export EndlessProofs PropRun.

Section Runs.
Context {A : Type}.
Variable gp : generated (lexpr A).

(** Every number in the tables that can be pushed on the state stack *)
Definition pushed : list nat :=
  flat_map (flat_map (fun o => match o with Some j => [j] | None => [] end)) (gp_goto gp) ++
  flat_map (flat_map (fun o => match o with Some (RShift j) => [j] | _ => [] end)) (gp_action gp) ++
  map pr_init_state (gp_parsers gp).
Definition rate : nat := rounds pushed * height pushed + rounds pushed + 1.

Context {E V W I : Type}.
Variable env : env_t (lexpr A) rval E V W I.
Variable pr : parser_struct.
Hypothesis Hpr : In pr (gp_parsers gp).
Notation pst := (pstate rval E V W I).

Definition column (st : pst) : option nat :=
  match ps_token st with None => Some (gp_n_terminals gp) | Some (inl tok) => e_tok_idx env tok | Some (inr _) => None end.
Definition red_in (c : option nat) (s : nat) : option (nat * nat) :=
  match c with
  | Some t => match index2 (gp_action gp) s t with Some (Some (RReduce nt n _)) => Some (n, nt) | _ => None end
  | None => None
  end.
Definition goto_in (s nt : nat) : option nat := match index2 (gp_goto gp) s nt with Some (Some j) => Some j | _ => None end.

Lemma goto_pushed s nt j : goto_in s nt = Some j -> In j pushed.
Proof.
  unfold goto_in, index2. destruct (nth_error (gp_goto gp) s) as [row|] eqn:Er; [|discriminate]. destruct (nth_error row nt) as [[x|]|] eqn:Ex; try discriminate.
  intro H. injection H as <-. apply in_or_app. left. apply in_flat_map. exists row. split; [eapply nth_error_In; eauto|].
  apply in_flat_map. exists (Some x). split; [eapply nth_error_In; eauto|left; reflexivity].
Qed.
Lemma shift_pushed s t j : index2 (gp_action gp) s t = Some (Some (RShift j)) -> In j pushed.
Proof.
  unfold index2. destruct (nth_error (gp_action gp) s) as [row|] eqn:Er; [|discriminate]. intro Ex.
  apply in_or_app. right. apply in_or_app. left. apply in_flat_map. exists row. split; [eapply nth_error_In; eauto|].
  apply in_flat_map. exists (Some (RShift j)). split; [eapply nth_error_In; eauto|left; reflexivity].
Qed.
Lemma init_pushed : In (pr_init_state pr) pushed.
Proof. apply in_or_app. right. apply in_or_app. right. apply in_map. exact Hpr. Qed.

Definition n_nexts (evs : list (event rval E)) : nat := List.length (nexts_of evs).
Notation cst st := (cstep (red_in (column st)) goto_in (ps_states st)).

(** One iteration: a reduction, or the stack grows by one state and [next()] is called. *)
Lemma step_control st st' : step gp env pr st = inl st' ->
  (cst st = Some (ps_states st') /\ ps_token st' = ps_token st /\ nexts_of (step_events gp env pr st) = []) \/
  (cst st = None /\ n_nexts (step_events gp env pr st) = 1 /\ exists j, In j pushed /\ ps_states st' = j :: ps_states st).
Proof.
  unfold step, step_events, column. destruct (ps_states st) as [|s ss] eqn:Es; [discriminate|].
  assert (D : forall t, dispatch gp env pr st s t = inl st' ->
    (cstep (red_in (Some t)) goto_in (s :: ss) = Some (ps_states st') /\ ps_token st' = ps_token st /\ nexts_of (dispatch_events gp env pr st s t) = []) \/
    (cstep (red_in (Some t)) goto_in (s :: ss) = None /\ n_nexts (dispatch_events gp env pr st s t) = 1 /\ exists j, In j pushed /\ ps_states st' = j :: s :: ss)).
  { intro t. unfold dispatch, dispatch_events, cstep, red_in. destruct (index2 (gp_action gp) s t) as [[[j|nt n a|]|]|] eqn:Ea.
    - unfold shift. destruct (e_next env (ps_iter st)) as (tk & it) eqn:En. intro H. right. split; [reflexivity|split; [reflexivity|]]. exists j. split; [eapply shift_pushed; eauto|].
      destruct (ps_token st) as [[tok|e]|]; [destruct (e_tok_val env tok) as [(i & fs)|]; [|discriminate]|..]; injection H as <-; cbn; rewrite Es; reflexivity.
    - unfold reduce. destruct (nth_error (gp_sem_actions gp) a) as [f|]; [|discriminate]. destruct (run_sem_fn env f (ps_values st) (ps_world st)) as [(stk & w')|e]; [|discriminate].
      rewrite Es. destruct (Nat.ltb (List.length (s :: ss)) n); [discriminate|]. destruct (skipn n (s :: ss)) as [|s' r] eqn:Ek; [discriminate|].
      destruct (index2 (gp_goto gp) s' nt) as [[j|]|] eqn:Eg; try discriminate. intro H. injection H as <-. left. unfold goto_in. rewrite Eg. auto.
    - unfold accept. intro H. exfalso. destruct (nth_error (gp_sem_actions gp) (pr_action_idx pr)) as [f|]; [|discriminate].
      destruct (run_sem_fn env f (ps_values st) (ps_world st)) as [([|v stk] & w')|e]; try discriminate. destruct (extract _ v) as [[fs|x]|]; discriminate.
    - intro H. exfalso. destruct (nth_error (gp_terminal_strs gp) t), (nth_error (gp_expected gp) s); discriminate.
    - discriminate. }
  destruct (ps_token st) as [[tok|e]|]; [|discriminate|].
  - destruct (e_tok_idx env tok) as [t|]; [|discriminate]. apply D.
  - apply D.
Qed.

(** [n] iterations and [c] calls of [next()] were made when [st] is reached. *)
Definition spent (st : pst) (n c : nat) : Prop := exists n0 st0 m, n = n0 + m /\ n0 + rounds pushed * List.length st0 <= c * rate /\ st0 <> [] /\
  incl (firstn 1 st0) pushed /\ csteps (red_in (column st)) goto_in m st0 (ps_states st).
Definition endless_at (st : pst) : Prop := endless (red_in (column st)) goto_in (ps_states st).

Lemma spent_step st st' n c : spent st n c -> step gp env pr st = inl st' -> spent st' (S n) (c + n_nexts (step_events gp env pr st)).
Proof.
  intros (n0 & st0 & m & -> & Hb & Hne & Hi & Hr) H. destruct (step_control _ _ H) as [(Hc & Ht & Hn)|(Hc & Hn & j & Hj & Hs)].
  - exists n0, st0, (S m). unfold n_nexts. rewrite Hn. cbn [List.length]. rewrite Nat.add_0_r. repeat split; auto; try lia.
    unfold column. rewrite Ht. eapply csteps_snoc; [exact Hr|exact Hc].
  - destruct (phase _ _ pushed goto_pushed st0 m _ Hne Hi Hr) as [He|(Hp & _)].
    + exfalso. apply (endless_steps _ _ _ (endless_on _ _ _ _ _ He Hr)). exact Hc.
    + exists (S (n0 + m)), (ps_states st'), 0. rewrite Hn, Hs. split; [lia|]. split; [|split; [discriminate|split; [intros z [<-|[]]; exact Hj|constructor]]].
      cbn [List.length]. rewrite Nat.mul_add_distr_r, Nat.mul_1_l, Nat.mul_succ_r. unfold rate at 2. clear - Hp Hb. lia.
Qed.
Lemma spent_steps n st evs st' : esteps gp pr env n st evs st' -> forall k c, spent st k c -> spent st' (k + n) (c + n_nexts evs).
Proof.
  induction 1 as [st|n st evs st1 st2 H H1 IH]; intros k c Hs; [unfold n_nexts; cbn; rewrite !Nat.add_0_r; exact Hs|].
  replace (k + S n) with (S k + n) by lia. unfold n_nexts, nexts_of. rewrite flat_map_app, app_length, Nat.add_assoc. apply IH. apply spent_step; assumption.
Qed.
Lemma spent_init it w : spent (init_pstate env pr it w) 0 1.
Proof.
  unfold init_pstate. destruct (e_next env it) as (tk & it'). exists 0, [pr_init_state pr], 0. cbn [List.length ps_states]. repeat split; auto; try discriminate; [unfold rate; lia| |constructor].
  intros z [<-|[]]. apply init_pushed.
Qed.
Lemma spent_bound st n c : spent st n c -> endless_at st \/ n <= c * rate.
Proof.
  intros (n0 & st0 & m & -> & Hb & Hne & Hi & Hr). destruct (phase _ _ pushed goto_pushed st0 m _ Hne Hi Hr) as [He|(_ & Hp)]; [left|right; lia].
  eapply endless_on; eauto.
Qed.

(** From there on nothing but reductions. *)
Lemma endless_step st st' : endless_at st -> step gp env pr st = inl st' -> endless_at st' /\ nexts_of (step_events gp env pr st) = [].
Proof.
  intros He H. destruct (step_control _ _ H) as [(Hc & Ht & Hn)|(Hc & _)]; [|exfalso; exact (endless_steps _ _ _ He Hc)].
  split; [|exact Hn]. unfold endless_at, column. rewrite Ht. eapply endless_on; [exact He|]. econstructor; [exact Hc|constructor].
Qed.
Lemma endless_run n st evs st' : esteps gp pr env n st evs st' -> endless_at st -> endless_at st' /\ nexts_of evs = [].
Proof.
  induction 1 as [st|n st evs st1 st2 H H1 IH]; intro He; [auto|]. destruct (endless_step _ _ He H) as (He' & Hn). destruct (IH He') as (He2 & Hn2).
  split; [exact He2|]. unfold nexts_of in *. rewrite flat_map_app, Hn, Hn2. reflexivity.
Qed.
Lemma endless_stop st o : endless_at st -> step gp env pr st = inr o -> (exists p, oc_result o = PPanic p) /\ nexts_of (step_events gp env pr st) = [].
Proof.
  intros He. pose proof (endless_steps _ _ _ He) as Hc. unfold step, step_events, column in *. destruct (ps_states st) as [|s ss] eqn:Es; [contradiction|].
  assert (D : forall t, cstep (red_in (Some t)) goto_in (s :: ss) <> None -> dispatch gp env pr st s t = inr o ->
    (exists p, oc_result o = PPanic p) /\ nexts_of (dispatch_events gp env pr st s t) = []).
  { clear Hc. intro t. unfold dispatch, dispatch_events, cstep, red_in. destruct (index2 (gp_action gp) s t) as [[[j|nt n a|]|]|]; try contradiction. intros _ Hst. split; [|reflexivity].
    unfold reduce, Runtime.finish in Hst. destruct (nth_error (gp_sem_actions gp) a) as [f|]; [|injection Hst as <-; eexists; reflexivity].
    destruct (run_sem_fn env f (ps_values st) (ps_world st)) as [(stk & w')|e]; [|injection Hst as <-; eexists; reflexivity].
    rewrite Es in Hst. destruct (Nat.ltb (List.length (s :: ss)) n); [injection Hst as <-; eexists; reflexivity|].
    destruct (skipn n (s :: ss)) as [|s1 r1]; [injection Hst as <-; eexists; reflexivity|]. destruct (index2 (gp_goto gp) s1 nt) as [[jj|]|]; [discriminate Hst| |]; injection Hst as <-; eexists; reflexivity. }
  destruct (ps_token st) as [[tok|e]|]; [|cbn in Hc; contradiction|].
  - destruct (e_tok_idx env tok) as [t|]; [|cbn in Hc; contradiction]. apply D. exact Hc.
  - apply D. exact Hc.
Qed.
End Runs.
