(** * RunComplete: completeness of concrete runs *)
From Verif Require Export RunLock Complete.

Section RunComplete.
Context {A Tok E V W I : Type}.
Variable g : grammar A.
Hypothesis Hwf : wf_grammar g.
Variable conv : list conversion.
Variable tbl : first_table.
Variable states : list lr1_state.
Variable entries : list (nat * nat).
Variable act : nat -> option nat -> option aact.
Variable gp : generated A.
Hypothesis Hgen : generated_ok g conv tbl states entries act gp.
Variable pr : parser_struct.
Variables nt0 e : nat.
Hypothesis Hpf : parser_for g (gp_sem_actions gp) entries pr nt0 e.
Variable env : env_t A Tok E V W I.
Hypothesis Htok : tokens_ok g env.
Variable it0 : I.
Variable w0 : W.
Notation pst := (pstate Tok E V W I).
Notation Haut := (gn_aut _ _ _ _ _ _ _ Hgen).
Notation Hact := (gn_act _ _ _ _ _ _ _ Hgen).
Notation Hent := (Hentry g entries gp pr nt0 e Hpf).
Notation class := (e_tok_idx env).
Notation next := (e_next env).
Notation sem := (e_sem env).
Notation evalf := (eval_forest g (tok_fields env) sem).
Notation evalt := (eval_tree g (tok_fields env) sem).
Notation invs := (inv g states env e it0 w0).
Notation astp := (astep g states act class).
Notation astps := (asteps g states act class).

(** [toks] remain to be read (the first is the lookahead), then the iterator returns [None] and is left at [itf]. *)
Definition remaining (st : pst) (toks : list Tok) (itf : I) : Prop :=
  match toks with
  | [] => ps_token st = None /\ ps_iter st = itf
  | tok :: r => ps_token st = Some (inl tok) /\ exists it1, feeds next (ps_iter st) r it1 /\ next it1 = (None, itf)
  end.

Lemma remaining_look st toks itf la : remaining st toks itf -> peek class toks la -> look env (ps_token st) la.
Proof. intros H Hp; destruct Hp; simpl in H; destruct H as [-> _]; constructor; auto. Qed.

Lemma remaining_same st st' toks itf : ps_token st' = ps_token st -> ps_iter st' = ps_iter st ->
  remaining st toks itf -> remaining st' toks itf.
Proof. intros H1 H2. unfold remaining. rewrite H1, H2. auto. Qed.

Lemma conc_step st pi ts c S' ts' toks toks' itf :
  invs st pi ts c -> remaining st toks itf -> astp (ps_states st, ts, toks) (S', ts', toks') ->
  (exists o, step gp env pr st = inr o /\ oc_result o = PPanic UserPanic /\ evalf (rev ts') w0 = None) \/
  (exists st' pi' c', step gp env pr st = inl st' /\ invs st' pi' ts' c' /\ remaining st' toks' itf /\ ps_states st' = S').
Proof.
  intros Hi Hr Ha. inversion Ha as [s ss ts1 tok toks1 t n Hc Hac|s ss ts1 toks1 la n p q s0 ss0 s1 Hpk Hac Hq Hsk Htr]; subst.
  - simpl in Hr. destruct Hr as (Htk & it1 & Hf & Hn).
    assert (Hla : look env (ps_token st) (Some t)) by (rewrite Htk; constructor; auto).
    pose proof (step_ok g Hwf conv tbl states entries act gp Hgen env Htok pr nt0 e Hpf it0 w0 _ _ _ _ _ _ _ Hi (eq_sym H) Hla) as Hsp.
    unfold step_spec in Hsp. rewrite Hac in Hsp.
    destruct Hsp as (tok' & t' & fs & st' & Q1 & Q2 & Q3 & Q4 & Q5 & Q6 & Q7 & Q8 & Q9 & Q10).
    assert (tok' = tok) by congruence. subst tok'.
    right. exists st', (T t' :: pi), (c ++ [tok]). split; auto. split; auto. split; auto.
    destruct toks' as [|tok2 r]; simpl.
    + inversion Hf; subst. rewrite Hn in Q9. inversion Q9; subst; auto.
    + inversion Hf; subst. match goal with Hx : next (ps_iter st) = (Some (inl tok2), _) |- _ => rewrite Hx in Q9 end.
      injection Q9 as Qa Qb. split; [auto|]. exists it1. rewrite <- Qb. split; auto.
  - pose proof (remaining_look _ _ _ _ Hr Hpk) as Hla.
    pose proof (step_ok g Hwf conv tbl states entries act gp Hgen env Htok pr nt0 e Hpf it0 w0 _ _ _ _ _ _ _ Hi (eq_sym H) Hla) as Hsp.
    unfold step_spec in Hsp. rewrite Hac in Hsp.
    destruct Hsp as (q' & s0' & ss0' & s1' & kids & rest & bs & f & pi0 & Q1 & Q2 & Q3 & Q4 & Q5 & Q6 & Q7 & (w1 & vs1 & Q8 & Q9) & Hm).
    assert (q' = q) by congruence. subst q'. rewrite Hsk in Q2. inversion Q2; subst s0' ss0'; clear Q2.
    assert (s1' = s1) by congruence. subst s1'.
    assert (Hk : List.length (rhs q) = List.length (rev kids)) by (rewrite rev_length; auto).
    assert (H1 : rev (firstn (List.length (rhs q)) ts) = kids).
    { rewrite Q5, Hk, firstn_app, firstn_all, Nat.sub_diag. simpl. rewrite app_nil_r, rev_involutive. auto. }
    assert (H2 : skipn (List.length (rhs q)) ts = rest).
    { rewrite Q5, Hk, skipn_app, skipn_all, Nat.sub_diag. auto. }
    rewrite H1, H2.
    destruct (sem (p_action q) (bindings (p_symbols q) bs) (ps_world st)) as [[v w']|] eqn:Es.
    + destruct Hm as (st' & E1 & E2 & _ & E3). right. exists st', (NT n :: pi0), c.
      split; auto. split; auto. split; [|subst st'; auto].
      eapply remaining_same; [| |exact Hr]; subst st'; reflexivity.
    + left. eexists. split; [exact Hm|]. split; auto.
      simpl. rewrite eval_forest_app, Q8. simpl. unfold eval_forest in Q9. rewrite Q1, Q9, Es. auto.
Qed.

Lemma eval_none_step S1 ts toks S2 ts' toks' :
  astp (S1, ts, toks) (S2, ts', toks') -> evalf (rev ts) w0 = None -> evalf (rev ts') w0 = None.
Proof.
  intros Ha He. inversion Ha as [s ss ts1 tok toks1 t n Hc Hac|s ss ts1 toks1 la n p q s0 ss0 s1 Hpk Hac Hq Hsk Htr]; subst; simpl.
  - rewrite eval_forest_app, He. auto.
  - rewrite eval_forest_app.
    rewrite <- (firstn_skipn (List.length (rhs q)) ts), rev_app_distr, eval_forest_app in He.
    destruct (evalf (rev (skipn (List.length (rhs q)) ts)) w0) as [[vs w]|]; auto.
    simpl. rewrite Hq. unfold eval_forest in He.
    destruct (eval_list evalt (rev (firstn (List.length (rhs q)) ts)) w) as [[vs2 w2]|]; [discriminate|auto].
Qed.

Lemma eval_none_steps a b : astps a b -> evalf (rev (snd (fst a))) w0 = None -> evalf (rev (snd (fst b))) w0 = None.
Proof.
  induction 1 as [|[[S1 t1] k1] [[S2 t2] k2] c Hs Hss IH]; simpl; auto. intro H. apply IH. simpl. eapply eval_none_step; eauto.
Qed.

Lemma conc_steps a b : astps a b -> forall st pi c itf,
  invs st pi (snd (fst a)) c -> remaining st (snd a) itf -> ps_states st = fst (fst a) ->
  (exists fuel o, run gp env fuel pr st = Some o /\ oc_result o = PPanic UserPanic /\ evalf (rev (snd (fst b))) w0 = None) \/
  (exists n st' pi' c', steps gp env pr n st st' /\ invs st' pi' (snd (fst b)) c' /\ remaining st' (snd b) itf /\
     ps_states st' = fst (fst b)).
Proof.
  induction 1 as [x|[[S1 t1] k1] [[S2 t2] k2] x Hs Hss IH]; intros st pi c itf Hi Hr Hst.
  - right. exists 0, st, pi, c. split; [constructor|auto].
  - simpl in *. rewrite <- Hst in Hs.
    destruct (conc_step _ _ _ _ _ _ _ _ _ Hi Hr Hs) as [(o & H1 & H2 & H3)|(st' & pi' & c' & H1 & H2 & H3 & H4)].
    + left. exists 1, o. split; [simpl; rewrite H1; auto|]. split; auto.
      apply (eval_none_steps _ _ Hss H3).
    + destruct (IH _ _ _ _ H2 H3 H4) as [(fuel & o & F1 & F2 & F3)|(n & st2 & pi2 & c2 & F1 & F2 & F3 & F4)].
      * left. exists (S fuel), o. split; auto. simpl. rewrite H1. auto.
      * right. exists (S n), st2, pi2, c2. split; auto. econstructor; eauto.
Qed.

Hypothesis Hcomp : first_complete_tails g tbl.
Hypothesis Hno : no_override g states act.

(** Every sentence is accepted and its tree's value is returned. *)
Theorem complete_parse tr toks it1 itf :
  wf_tree g class tr (NT nt0) -> yield tr = toks -> feeds next it0 toks it1 -> next it1 = (None, itf) ->
  exists fuel o, parse gp env fuel pr it0 w0 = Some o /\
    match evalt tr w0 with
    | Some (BVal v, w) => o = {| oc_result := POk v; oc_iter := itf; oc_world := w |}
    | _ => oc_result o = PPanic UserPanic
    end.
Proof.
  intros Hw Hy Hf Hn.
  destruct (ao_entry _ _ _ _ Haut _ _ Hent) as (Hpub & _).
  inversion Hw as [|nt p kids q Hq Hkids]; subst nt tr.
  destruct (wf_public_prod g Hwf _ _ _ Hq Hpub) as (-> & m & Hr & _).
  rewrite Hr in Hkids. inversion Hkids as [|tr l X Xs Ht Hl]; subst. inversion Hl; subst.
  simpl in Hf. rewrite app_nil_r in Hf.
  destruct (complete_run g Hwf tbl states entries Haut nt0 e Hent act Hact class Hcomp Hno tr m q _ Hq Hr Ht eq_refl)
    as (s1 & Hrun & Hacc).
  assert (Hrem : remaining (init_pstate env pr it0 w0) (yield tr) itf).
  { unfold init_pstate. destruct (next it0) as [tk it2] eqn:En. unfold remaining.
    destruct (yield tr) as [|tok r]; inversion Hf; subst; simpl.
    - rewrite Hn in En; inversion En; auto.
    - match goal with Hx : next it0 = (Some (inl tok), _) |- _ => rewrite Hx in En; inversion En; subst end.
      split; auto. eauto. }
  pose proof (inv_init g states entries gp env pr nt0 e Hpf it0 w0) as Hi0.
  assert (Hs0 : ps_states (init_pstate env pr it0 w0) = [e]).
  { unfold init_pstate. destruct (next it0). simpl. destruct Hpf as (N & f & q' & _ & _ & _ & _ & He & _). rewrite He; auto. }
  destruct (conc_steps _ _ Hrun _ _ _ itf Hi0 Hrem Hs0) as [(fuel & o & F1 & F2 & F3)|(n & st' & pi' & c' & F1 & F2 & F3 & F4)];
    cbn [fst snd] in *.
  - exists fuel, o. split; auto. simpl in F3. simpl. rewrite Hq. simpl.
    destruct (evalt tr w0) as [[v w]|]; [discriminate|auto].
  - simpl in F3. destruct F3 as [Ftk Fit].
    assert (Hla : look env (ps_token st') None) by (rewrite Ftk; constructor).
    pose proof (step_ok g Hwf conv tbl states entries act gp Hgen env Htok pr nt0 e Hpf it0 w0 _ _ _ _ _ _ _ F2 F4 Hla) as Hsp.
    unfold step_spec in Hsp. rewrite Hacc in Hsp.
    destruct Hsp as (q' & m' & tr' & bs & _ & _ & Q1 & Q2 & _ & Q4 & _ & Q6 & Hm).
    assert (q' = q) by congruence. subst q'. inversion Q4; subst tr'.
    assert (Hev : evalt (Node nt0 0 [tr]) w0 = match sem (p_action q) (bindings (p_symbols q) bs) (ps_world st') with
             Some (v, w) => Some (BVal v, w) | None => None end).
    { simpl. rewrite Hq. unfold eval_forest in Q6. simpl in Q6. destruct (evalt tr w0) as [[v w]|]; [|discriminate].
      inversion Q6; subst. auto. }
    rewrite Hev.
    destruct (sem (p_action q) (bindings (p_symbols q) bs) (ps_world st')) as [[v w]|].
    + exists (S n). eexists. split; [|rewrite <- Fit; reflexivity]. eapply steps_run; [exact F1|exact Hm|lia].
    + exists (S n). eexists. split; [eapply steps_run; [exact F1|exact Hm|lia]|]. reflexivity.
Qed.

(** Uniqueness of parse trees. *)
Theorem unique_parse_tree (tr tr' : tree Tok) :
  wf_tree g class tr (NT nt0) -> wf_tree g class tr' (NT nt0) -> yield tr = yield tr' -> tr = tr'.
Proof.
  intros Hw Hw' Hy.
  destruct (ao_entry _ _ _ _ Haut _ _ Hent) as (Hpub & _).
  inversion Hw as [|nt p kids q Hq Hkids]; subst nt tr.
  inversion Hw' as [|nt p' kids' q' Hq' Hkids']; subst nt tr'.
  destruct (wf_public_prod g Hwf _ _ _ Hq Hpub) as (-> & m & Hr & _).
  destruct (wf_public_prod g Hwf _ _ _ Hq' Hpub) as (-> & m' & Hr' & _).
  assert (q' = q) by congruence. subst q'. rewrite Hr in Hr'. inversion Hr'; subst m'.
  rewrite Hr in Hkids, Hkids'. inversion Hkids as [|t l X Xs Ht Hl]; subst. inversion Hl; subst.
  inversion Hkids' as [|t' l X Xs Ht' Hl']; subst. inversion Hl'; subst.
  simpl in Hy. rewrite !app_nil_r in Hy. f_equal. f_equal.
  eapply (unique_tree g Hwf tbl states entries Haut nt0 e Hent act Hact class Hcomp Hno); eauto.
Qed.
End RunComplete.
