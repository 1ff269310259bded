(** * RunRel: two runs of one generated parser with related environments stay related *)
From Verif Require Export ParamSpec.

Lemma answers_app {Tok E I} (next : I -> option (Tok + E) * I) it l1 : forall l2 it', answers next it (l1 ++ l2) it' ->
  exists it1, answers next it l1 it1 /\ answers next it1 l2 it'.
Proof.
  revert it. induction l1 as [|r l1 IH]; intros it l2 it' H; cbn in H.
  - exists it. split; [constructor|auto].
  - inversion H; subst. destruct (IH _ _ _ H5) as (it2 & H1 & H2). exists it2. split; auto. econstructor; eauto.
Qed.
Lemma answers_nil {Tok E I} (next : I -> option (Tok + E) * I) it it' : answers next it [] it' -> it' = it.
Proof. intro H. inversion H. reflexivity. Qed.
Lemma answers_one {Tok E I} (next : I -> option (Tok + E) * I) it r it' : answers next it [r] it' -> next it = (r, it').
Proof. intro H. inversion H; subst. apply answers_nil in H5. subst. auto. Qed.

Fixpoint iter_st {A Tok E V W I} (p : generated A) (env : env_t A Tok E V W I) (pr : parser_struct) (n : nat)
  (st : pstate Tok E V W I) : option (pstate Tok E V W I) :=
  match n with
  | 0 => Some st
  | S n' => match step p env pr st with inl st' => iter_st p env pr n' st' | inr _ => None end
  end.
Lemma iterations_iter {A E V W I} (gp : generated (lexpr A)) (env : env_t (lexpr A) rval E V W I) pr n : forall st,
  iterations gp env pr n st = iter_st gp env pr n st.
Proof. induction n as [|n IH]; intro st; cbn; [reflexivity|]. destruct (step gp env pr st); auto. Qed.

Section Rel.
Context {A Tok Tok' E E' V V' W W' I I' : Type}.
Variable p : generated A.
Variable pr : parser_struct.
Variable env : env_t A Tok E V W I.
Variable env' : env_t A Tok' E' V' W' I'.
Variable RT : Tok -> Tok' -> Prop.
Variable RE : E -> E' -> Prop.
Variable RW : W -> W' -> Prop.
Variable RV : nat -> V -> V' -> Prop.            (* by variant *)
Variable RF : nat -> list V -> list V' -> Prop.  (* by terminal *)

Inductive srel : sem_val V -> sem_val V' -> Prop :=
| srel_tok : forall t fs fs', RF t fs fs' -> srel (VToken t fs) (VToken t fs')
| srel_nt : forall k x x', RV k x x' -> srel (VNonTerminal k x) (VNonTerminal k x').
Inductive brel : extract_method -> bval V -> bval V' -> Prop :=
| brel_tok : forall t fs fs', RF t fs fs' -> brel (ExToken t) (BTok fs) (BTok fs')
| brel_nt : forall k x x', RV k x x' -> brel (ExNonTerminal k) (BVal x) (BVal x').
Inductive vrel : list (string * extract_method) -> list (string * bval V) -> list (string * bval V') -> Prop :=
| vrel_nil : vrel [] [] []
| vrel_cons : forall x m b b' l vs vs', brel m b b' -> vrel l vs vs' -> vrel ((x, m) :: l) ((x, b) :: vs) ((x, b') :: vs').
Definition binds (pops : list pop_stmt) : list (string * extract_method) :=
  flat_map (fun s => match s with PopIgnore => [] | PopBind _ x m => [(x, m)] end) pops.

Hypothesis Htok : forall tok tok', RT tok tok' -> e_tok_idx env tok = e_tok_idx env' tok' /\
  option_related (fun a b => fst a = fst b /\ RF (fst a) (snd a) (snd b)) (e_tok_val env tok) (e_tok_val env' tok').
Definition called (idx : nat) : Prop :=
  idx = pr_action_idx pr \/ exists s t nt k, index2 (gp_action p) s t = Some (Some (RReduce nt k idx)).
Hypothesis Hact : forall idx f vs vs' w w', called idx -> nth_error (gp_sem_actions p) idx = Some f ->
  vrel (rev (binds (sf_pops f))) vs vs' -> RW w w' ->
  option_related (fun a b => RV (sf_variant f) (fst a) (fst b) /\ RW (snd a) (snd b)) (e_sem env (sf_action f) vs w) (e_sem env' (sf_action f) vs' w').

Lemma extract_rel m v v' : srel v v' -> option_related (brel m) (extract m v) (extract m v').
Proof.
  intros [t fs fs' H|k x x' H]; destruct m as [n|n]; cbn; auto.
  - destruct (Nat.eqb n t) eqn:En; cbn; auto. apply Nat.eqb_eq in En. subst. constructor; auto.
  - destruct (Nat.eqb n k) eqn:En; cbn; auto. apply Nat.eqb_eq in En. subst. constructor; auto.
Qed.

Lemma run_pops_rel pops : forall st st' l vs vs', Forall2 srel st st' -> vrel l vs vs' ->
  match run_pops pops st vs, run_pops pops st' vs' with
  | inl (s, b), inl (s', b') => Forall2 srel s s' /\ vrel (rev (binds pops) ++ l) b b'
  | inr e, inr e' => e = e'
  | _, _ => False
  end.
Proof.
  induction pops as [|[|mu x m] pops IH]; intros st st' l vs vs' Hs Hv; cbn [run_pops binds flat_map app].
  - auto.
  - apply IH; auto. destruct Hs; cbn; [constructor|auto].
  - destruct Hs as [|v v' st st' H1 H2]; [reflexivity|]. pose proof (extract_rel m _ _ H1) as Hx.
    destruct (extract m v) as [b|], (extract m v') as [b'|]; cbn in Hx; try contradiction; [|reflexivity].
    specialize (IH st st' ((x, m) :: l) ((x, b) :: vs) ((x, b') :: vs') H2 (vrel_cons _ _ _ _ _ _ _ Hx Hv)).
    fold (binds pops). cbn [rev]. rewrite <- app_assoc. cbn [app]. exact IH.
Qed.

Lemma run_sem_fn_rel idx f st st' w w' : called idx -> nth_error (gp_sem_actions p) idx = Some f -> Forall2 srel st st' -> RW w w' ->
  match run_sem_fn env f st w, run_sem_fn env' f st' w' with
  | inl (s, w1), inl (s', w1') => Forall2 srel s s' /\ RW w1 w1'
  | inr e, inr e' => e = e'
  | _, _ => False
  end.
Proof.
  intros Hc Hf Hs Hw. unfold run_sem_fn. pose proof (run_pops_rel (sf_pops f) st st' [] [] [] Hs vrel_nil) as H.
  destruct (run_pops (sf_pops f) st []) as [[s vs]|e], (run_pops (sf_pops f) st' []) as [[s' vs']|e']; try contradiction; auto.
  destruct H as (H1 & H2). rewrite app_nil_r in H2. pose proof (Hact idx f vs vs' w w' Hc Hf H2 Hw) as H3.
  destruct (e_sem env (sf_action f) vs w) as [[v w1]|], (e_sem env' (sf_action f) vs' w') as [[v' w1']|]; cbn in H3; try contradiction; auto.
  destruct H3. split; auto. constructor; auto. constructor; auto.
Qed.

Definition prel (st : pstate Tok E V W I) (st' : pstate Tok' E' V' W' I') : Prop :=
  ps_states st = ps_states st' /\ Forall2 srel (ps_values st) (ps_values st') /\
  response_related RT RE (ps_token st) (ps_token st') /\ RW (ps_world st) (ps_world st').
Definition orel (o : outcome E V W I) (o' : outcome E' V' W' I') : Prop :=
  result_related (RV (pr_extract_variant pr)) RE (oc_result o) (oc_result o') /\ RW (oc_world o) (oc_world o').

(** One iteration *)
Definition next_rel (it' : I') (r : pstate Tok E V W I + outcome E V W I) (r' : pstate Tok' E' V' W' I' + outcome E' V' W' I') : Prop :=
  match r, r' with
  | inl s, inl s' => prel s s' /\ ps_iter s' = it'
  | inr o, inr o' => orel o o' /\ oc_iter o' = it'
  | _, _ => False
  end.

Lemma finish_rel st st' r r' : prel st st' -> result_related (RV (pr_extract_variant pr)) RE r r' ->
  next_rel (ps_iter st') (finish st r) (finish st' r').
Proof. intros (_ & _ & _ & H) Hr. cbn. unfold orel. cbn. auto. Qed.

Lemma accept_rel st st' : prel st st' -> next_rel (ps_iter st') (accept p env pr st) (accept p env' pr st').
Proof.
  intro H. unfold accept. destruct (nth_error (gp_sem_actions p) (pr_action_idx pr)) as [f|] eqn:Ef; [|apply finish_rel; cbn; auto].
  pose proof H as (H1 & H2 & H3 & H4).
  pose proof (run_sem_fn_rel _ f _ _ _ _ (or_introl eq_refl) Ef H2 H4) as Hr.
  destruct (run_sem_fn env f (ps_values st) (ps_world st)) as [[s w]|e], (run_sem_fn env' f (ps_values st') (ps_world st')) as [[s' w']|e']; try contradiction.
  2: subst; apply finish_rel; cbn; auto.
  destruct Hr as (Hs & Hw). destruct Hs as [|v v' s s' Hv Hs].
  - cbn. unfold orel; cbn; auto.
  - pose proof (extract_rel (ExNonTerminal (pr_extract_variant pr)) _ _ Hv) as Hx.
    destruct (extract (ExNonTerminal (pr_extract_variant pr)) v) as [b|], (extract (ExNonTerminal (pr_extract_variant pr)) v') as [b'|];
      cbn in Hx; try contradiction; [|cbn; unfold orel; cbn; auto].
    inversion Hx; subst. cbn. unfold orel; cbn; auto.
Qed.

Lemma reduce_rel nt n act st st' : (exists s t, index2 (gp_action p) s t = Some (Some (RReduce nt n act))) -> prel st st' ->
  next_rel (ps_iter st') (reduce p env nt n act st) (reduce p env' nt n act st').
Proof.
  intros (s0 & t0 & Ha) H. unfold reduce. destruct (nth_error (gp_sem_actions p) act) as [f|] eqn:Ef; [|apply finish_rel; cbn; auto].
  pose proof H as (H1 & H2 & H3 & H4).
  assert (Hc : called act) by (right; exists s0, t0, nt, n; auto).
  pose proof (run_sem_fn_rel _ f _ _ _ _ Hc Ef H2 H4) as Hr.
  destruct (run_sem_fn env f (ps_values st) (ps_world st)) as [[s w]|e], (run_sem_fn env' f (ps_values st') (ps_world st')) as [[s' w']|e']; try contradiction.
  2: subst; apply finish_rel; cbn; auto.
  destruct Hr as (Hs & Hw). rewrite <- H1.
  destruct (Nat.ltb _ n); [cbn; unfold orel; cbn; auto|].
  destruct (skipn n (ps_states st)) as [|a rest]; [cbn; unfold orel; cbn; auto|].
  destruct (index2 (gp_goto p) a nt) as [[g|]|]; cbn; unfold orel, prel; cbn; auto.
Qed.

Lemma shift_rel next st st' r' it'' : prel st st' -> e_next env' (ps_iter st') = (r', it'') ->
  response_related RT RE (fst (e_next env (ps_iter st))) r' ->
  next_rel it'' (shift env next st) (shift env' next st').
Proof.
  intros (H1 & H2 & H3 & H4) Hn Hr. unfold shift. rewrite Hn. destruct (e_next env (ps_iter st)) as (r & it1). cbn in Hr.
  destruct (ps_token st) as [[tok|e]|], (ps_token st') as [[tok'|e']|]; cbn in H3; try contradiction.
  - destruct (Htok _ _ H3) as (_ & Hv). destruct (e_tok_val env tok) as [[i fs]|], (e_tok_val env' tok') as [[i' fs']|]; cbn in Hv; try contradiction.
    + destruct Hv as (<- & Hv). cbn. unfold prel; cbn. repeat split; auto; [congruence|]. constructor; auto. constructor; auto.
    + cbn. unfold orel; cbn; auto.
  - cbn. unfold prel; cbn. repeat split; auto. congruence.
  - cbn. unfold prel; cbn. repeat split; auto. congruence.
Qed.

Notation crel := (call_related RT RE).
Definition calls_rel (c : list (event Tok E)) (c' : list (event Tok' E')) : Prop := Forall2 crel c c'.

Lemma dispatch_rel st st' s t l' it'' : prel st st' -> answers (e_next env') (ps_iter st') l' it'' ->
  Forall2 (response_related RT RE) (nexts_of (dispatch_events p env pr st s t)) l' ->
  next_rel it'' (dispatch p env pr st s t) (dispatch p env' pr st' s t) /\
  calls_rel (dispatch_events p env pr st s t) (dispatch_events p env' pr st' s t).
Proof.
  intros H Ha Hl. unfold dispatch, dispatch_events in *. unfold calls_rel.
  destruct (index2 (gp_action p) s t) as [[[next|nt n act|]|]|] eqn:Ei.
  - cbn in Hl. inversion Hl as [|a r' b l1 Hr Hl']; subst. inversion Hl'; subst. apply answers_one in Ha.
    split; [eapply shift_rel; eauto|]. constructor; [|constructor]. cbn [call_related]. rewrite Ha. exact Hr.
  - cbn in Hl. inversion Hl; subst. apply answers_nil in Ha. subst it''. split; [apply reduce_rel; eauto|repeat constructor].
  - cbn in Hl. inversion Hl; subst. apply answers_nil in Ha. subst it''. split; [apply accept_rel; auto|repeat constructor].
  - cbn in Hl. inversion Hl; subst. apply answers_nil in Ha. subst it''. split; [|constructor].
    destruct (nth_error (gp_terminal_strs p) t), (nth_error (gp_expected p) s); apply finish_rel; cbn; auto.
  - cbn in Hl. inversion Hl; subst. apply answers_nil in Ha. subst it''. split; [|constructor]. apply finish_rel; cbn; auto.
Qed.

Lemma step_rel st st' l' it'' : prel st st' -> answers (e_next env') (ps_iter st') l' it'' ->
  Forall2 (response_related RT RE) (nexts_of (step_events p env pr st)) l' ->
  next_rel it'' (step p env pr st) (step p env' pr st') /\ calls_rel (step_events p env pr st) (step_events p env' pr st').
Proof.
  intros H Ha Hl. pose proof H as (H1 & H2 & H3 & H4). unfold step, step_events in *. rewrite <- H1.
  destruct (ps_states st) as [|s rest].
  { cbn in Hl. inversion Hl; subst. apply answers_nil in Ha. subst it''. split; [apply finish_rel; cbn; auto|constructor]. }
  destruct (ps_token st) as [[tok|e]|], (ps_token st') as [[tok'|e']|]; cbn in H3; try contradiction.
  - destruct (Htok _ _ H3) as (Hi & _). rewrite <- Hi. destruct (e_tok_idx env tok) as [t|].
    + eapply dispatch_rel; eauto.
    + cbn in Hl. inversion Hl; subst. apply answers_nil in Ha. subst it''. split; [apply finish_rel; cbn; auto|constructor].
  - cbn in Hl. inversion Hl; subst. apply answers_nil in Ha. subst it''. split; [apply finish_rel; cbn; auto|constructor].
  - eapply dispatch_rel; eauto.
Qed.

Lemma nexts_app {X Y} (a b : list (event X Y)) : nexts_of (a ++ b) = nexts_of a ++ nexts_of b.
Proof. unfold nexts_of. apply flat_map_app. Qed.

(** Runs *)
Lemma run_rel fuel : forall st st' o l' it'', prel st st' -> run p env fuel pr st = Some o ->
  answers (e_next env') (ps_iter st') l' it'' -> Forall2 (response_related RT RE) (nexts_of (run_events p env fuel pr st)) l' ->
  exists o', run p env' fuel pr st' = Some o' /\ orel o o' /\ oc_iter o' = it'' /\
    calls_rel (run_events p env fuel pr st) (run_events p env' fuel pr st').
Proof.
  induction fuel as [|fuel IH]; intros st st' o l' it'' H Hr Ha Hl; cbn [run run_events] in *; [discriminate|].
  rewrite nexts_app in Hl. apply Forall2_app_inv_l in Hl. destruct Hl as (l1 & l2 & Hl1 & Hl2 & ->).
  destruct (answers_app _ _ _ _ _ Ha) as (it1 & Ha1 & Ha2). destruct (step_rel st st' l1 it1 H Ha1 Hl1) as (Hs & Hc).
  destruct (step p env pr st) as [s1|o1], (step p env' pr st') as [s1'|o1']; cbn in Hs; try contradiction.
  - destruct Hs as (Hs & Hi). subst it1. destruct (IH _ _ _ _ _ Hs Hr Ha2 Hl2) as (o' & R1 & R2 & R3 & R4).
    exists o'. repeat split; auto; try apply R2. apply Forall2_app; auto.
  - destruct Hs as (Hs & Hi). injection Hr as ->. cbn in Hl2. inversion Hl2; subst. apply answers_nil in Ha2. subst it''.
    exists o1'. split; auto. split; auto. split; auto. rewrite !app_nil_r. exact Hc.
Qed.

Lemma iter_rel n : forall st st' s l' it'', prel st st' -> iter_st p env pr n st = Some s ->
  answers (e_next env') (ps_iter st') l' it'' -> Forall2 (response_related RT RE) (nexts_of (run_events p env n pr st)) l' ->
  exists s', iter_st p env' pr n st' = Some s' /\
    prel s s' /\ ps_iter s' = it'' /\ calls_rel (run_events p env n pr st) (run_events p env' n pr st').
Proof.
  induction n as [|n IH]; intros st st' s l' it'' H Hr Ha Hl; cbn [run_events iter_st] in *.
  - injection Hr as <-. cbn in Hl. inversion Hl; subst. apply answers_nil in Ha. subst. exists st'. split; auto. split; auto. split; auto. constructor.
  - rewrite nexts_app in Hl. apply Forall2_app_inv_l in Hl. destruct Hl as (l1 & l2 & Hl1 & Hl2 & ->).
    destruct (answers_app _ _ _ _ _ Ha) as (it1 & Ha1 & Ha2). destruct (step_rel st st' l1 it1 H Ha1 Hl1) as (Hs & Hc).
    destruct (step p env pr st) as [s1|o1], (step p env' pr st') as [s1'|o1']; cbn in Hs; try contradiction; [|discriminate].
    destruct Hs as (Hs & Hi). subst it1. destruct (IH _ _ _ _ _ Hs Hr Ha2 Hl2) as (o' & R1 & R2 & R3 & R4).
    exists o'. split; auto. split; auto. split; auto. apply Forall2_app; auto.
Qed.

(** The whole call *)
Lemma init_rel it it' w w' r' it1' : RW w w' -> e_next env' it' = (r', it1') -> response_related RT RE (fst (e_next env it)) r' ->
  prel (init_pstate env pr it w) (init_pstate env' pr it' w') /\ ps_iter (init_pstate env' pr it' w') = it1'.
Proof.
  intros Hw Hn Hr. unfold init_pstate. rewrite Hn. destruct (e_next env it) as (r & it1). cbn in *. unfold prel; cbn. repeat split; auto.
Qed.

Theorem parse_rel fuel it it' w w' o l' it'' : RW w w' -> parse p env fuel pr it w = Some o ->
  answers (e_next env') it' l' it'' -> Forall2 (response_related RT RE) (nexts_of (parse_events p env fuel pr it w)) l' ->
  exists o', parse p env' fuel pr it' w' = Some o' /\ orel o o' /\ oc_iter o' = it'' /\
    calls_rel (parse_events p env fuel pr it w) (parse_events p env' fuel pr it' w').
Proof.
  intros Hw Hp Ha Hl. unfold parse, parse_events in *. cbn [nexts_of flat_map app] in Hl.
  inversion Hl as [|a r' b l1 Hr Hl']; subst. inversion Ha as [|a b it1 c d Hn Ha']; subst.
  destruct (init_rel it it' w w' _ _ Hw Hn Hr) as (Hi & Hit).
  rewrite <- Hit in Ha'. destruct (run_rel _ _ _ _ _ _ Hi Hp Ha' Hl') as (o' & R1 & R2 & R3 & R4).
  exists o'. split; auto. split; auto. split; auto. constructor; auto. cbn. rewrite Hn. exact Hr.
Qed.
End Rel.
