(** * RunProofs: runs of a generated parser *)
From Verif Require Export GenProofs.

(** ** Lists *)
Lemma app_inj_length {X} (a : list X) : forall b c d,
  a ++ b = c ++ d -> List.length a = List.length c -> a = c /\ b = d.
Proof.
  induction a as [|x a IH]; intros b [|y c] d H Hl; simpl in *; try discriminate; auto.
  inversion H; subst. destruct (IH b c d) as [-> ->]; auto.
Qed.

Lemma wf_forest_Forall2 {A Tok} (g : grammar A) (class : Tok -> option nat) ts Xs :
  wf_forest g class ts Xs <-> Forall2 (wf_tree g class) ts Xs.
Proof. split; induction 1; constructor; auto. Qed.

Lemma Forall2_rev_ {X Y} (R : X -> Y -> Prop) l l' : Forall2 R l l' -> Forall2 R (rev l) (rev l').
Proof.
  induction 1; simpl; [constructor|]. apply Forall2_app; auto.
Qed.

Lemma wf_forest_app {A Tok} (g : grammar A) (class : Tok -> option nat) a b Xs Ys :
  wf_forest g class a Xs -> wf_forest g class b Ys -> wf_forest g class (a ++ b) (Xs ++ Ys).
Proof. rewrite !wf_forest_Forall2. apply Forall2_app. Qed.

Lemma Forall2_app_split {X Y} (R : X -> Y -> Prop) l1 l2 l :
  Forall2 R l (l1 ++ l2) -> exists a b, l = a ++ b /\ Forall2 R a l1 /\ Forall2 R b l2.
Proof. intro H. apply Forall2_app_inv_r in H. destruct H as (a & b & H1 & H2 & ->). eauto. Qed.

Lemma yields_app {Tok} (a b : list (tree Tok)) : yields (a ++ b) = yields a ++ yields b.
Proof. unfold yields. apply flat_map_app. Qed.

Section EvalApp.
Context {A Tok V W : Type}.
Variables (g : grammar A) (fields : Tok -> list V).
Variable sem : A -> list (string * bval V) -> W -> option (V * W).

Lemma eval_list_app ev (a b : list (tree Tok)) : forall w : W,
  eval_list (V := V) ev (a ++ b) w =
  match eval_list ev a w with
  | None => None
  | Some (va, w1) => match eval_list ev b w1 with
                     | None => None
                     | Some (vb, w2) => Some (va ++ vb, w2)
                     end
  end.
Proof.
  induction a as [|t a IH]; simpl; intro w.
  - destruct (eval_list ev b w) as [[vb w2]|]; auto.
  - destruct (ev t w) as [[v w1]|]; auto. rewrite IH. destruct (eval_list ev a w1) as [[va w2]|]; auto.
    destruct (eval_list ev b w2) as [[vb w3]|]; auto.
Qed.
Lemma eval_forest_app (a b : list (tree Tok)) w :
  eval_forest g fields sem (a ++ b) w =
  match eval_forest g fields sem a w with
  | None => None
  | Some (va, w1) => match eval_forest g fields sem b w1 with
                     | None => None
                     | Some (vb, w2) => Some (va ++ vb, w2)
                     end
  end.
Proof. apply eval_list_app. Qed.
Lemma eval_forest_length ts : forall w vs w', eval_forest g fields sem ts w = Some (vs, w') ->
  List.length vs = List.length ts.
Proof.
  unfold eval_forest. induction ts as [|t ts IH]; simpl; intros w vs w' H; [inversion H; auto|].
  destruct (eval_tree g fields sem t w) as [[v w1]|]; [|discriminate].
  destruct (eval_list (eval_tree g fields sem) ts w1) as [[vs' w2]|] eqn:E; [|discriminate].
  inversion H; subst. simpl. f_equal. eapply IH; eauto.
Qed.
End EvalApp.

(** ** Values and semantic action functions *)
Section Values.
Context {V : Type}.
Variable variants : list nat.

(** The stack entry that carries the value [b] of a symbol. *)
Inductive val_for : symbol -> bval V -> sem_val V -> Prop :=
| vf_tok : forall t fs, val_for (T t) (BTok fs) (VToken t fs)
| vf_nt : forall n k v, variant_of variants n = Some k -> val_for (NT n) (BVal v) (VNonTerminal k v).

Inductive vals_for : list symbol -> list (bval V) -> list (sem_val V) -> Prop :=
| vfs_nil : vals_for [] [] []
| vfs_cons : forall X Xs b bs v vs, val_for X b v -> vals_for Xs bs vs -> vals_for (X :: Xs) (b :: bs) (v :: vs).

Lemma vals_for_length Xs bs vs : vals_for Xs bs vs ->
  List.length bs = List.length Xs /\ List.length vs = List.length Xs.
Proof. induction 1; simpl; intuition. Qed.

Lemma vals_for_app_inv Xs Ys : forall bs vs, vals_for (Xs ++ Ys) bs vs ->
  exists b1 b2 v1 v2, bs = b1 ++ b2 /\ vs = v1 ++ v2 /\ vals_for Xs b1 v1 /\ vals_for Ys b2 v2.
Proof.
  induction Xs as [|X Xs IH]; simpl; intros bs vs H.
  - exists [], bs, [], vs. repeat split; auto. constructor.
  - inversion H as [|X' Xs' b bs' v vs' Hx Hxs]; subst.
    destruct (IH _ _ Hxs) as (b1 & b2 & v1 & v2 & -> & -> & Ha & Hb).
    exists (b :: b1), b2, (v :: v1), v2. repeat split; auto. constructor; auto.
Qed.

Lemma bindings_app a : forall va b vb, List.length va = List.length a ->
  bindings (V := V) (a ++ b) (va ++ vb) = bindings a va ++ bindings b vb.
Proof.
  induction a as [|s a IH]; intros [|v va] b vb H; simpl in *; try discriminate; auto.
  destruct (bs_binder s); simpl; f_equal; rewrite IH; auto.
Qed.

(** The pops of the (reversed) right-hand side *)
Lemma run_pops_spec : forall rsyms pops rbs rvs rest vars,
  mapM (pop_code variants) rsyms = Ok pops ->
  vals_for (map bs_symbol rsyms) rbs rvs ->
  run_pops pops (rvs ++ rest) vars = inl (rest, bindings (rev rsyms) (rev rbs) ++ vars).
Proof.
  induction rsyms as [|s rsyms IH]; intros pops rbs rvs rest vars Hp Hv.
  - simpl in *. inversion Hp; subst. inversion Hv; subst. reflexivity.
  - simpl in Hp. apply bind_Ok in Hp. destruct Hp as (po & Hpo & Hp). apply bind_Ok in Hp.
    destruct Hp as (pops' & Hps & Hp). inversion Hp; subst pops; clear Hp.
    simpl in Hv. inversion Hv as [|X Xs b bs v vs Hv1 Hv2]; subst. clear Hv.
    pose proof (vals_for_length _ _ _ Hv2) as [Lb _]. rewrite map_length in Lb.
    simpl rev. rewrite bindings_app by (rewrite !rev_length; auto).
    unfold pop_code in Hpo. destruct (bs_binder s) as [x|] eqn:Eb.
    + assert (Hx : exists m, po = PopBind (nm_mutable x) (nm_name x) m /\ extract m v = Some b).
      { destruct (bs_symbol s) as [n|t] eqn:Es.
        - destruct (variant_of variants n) as [k|] eqn:Ek; [|discriminate]. inversion Hpo; subst.
          inversion Hv1 as [|n' k' v' Hk']; subst. rewrite Ek in Hk'; inversion Hk'; subst k'.
          eexists; split; [reflexivity|]. simpl. rewrite Nat.eqb_refl. auto.
        - inversion Hpo; subst. inversion Hv1; subst.
          eexists; split; [reflexivity|]. simpl. rewrite Nat.eqb_refl. auto. }
      destruct Hx as (m & -> & Hx). simpl. rewrite Hx. rewrite (IH _ _ _ _ _ Hps Hv2).
      rewrite Eb. rewrite <- app_assoc. reflexivity.
    + inversion Hpo; subst po. simpl. rewrite (IH _ _ _ _ _ Hps Hv2). rewrite Eb, app_nil_r. reflexivity.
Qed.
End Values.

Lemma run_sem_fn_spec {A Tok E V W I} (env : env_t A Tok E V W I) variants nt pr f bs vs rest w :
  fn_for variants nt pr f -> vals_for variants (rev (rhs pr)) (rev bs) vs ->
  run_sem_fn env f (vs ++ rest) w =
  match e_sem env (p_action pr) (bindings (p_symbols pr) bs) w with
  | None => inr UserPanic
  | Some (v, w') => inl (VNonTerminal (sf_variant f) v :: rest, w')
  end.
Proof.
  intros (H1 & H2 & H3) Hv. unfold run_sem_fn. unfold rhs in Hv. rewrite <- map_rev in Hv.
  rewrite (run_pops_spec variants _ _ _ _ rest [] H3 Hv). rewrite !rev_involutive, app_nil_r, H1. reflexivity.
Qed.

(** ** Runs *)
Section Runs.
Context {A Tok E V W I : Type}.
Variable gp : generated A.
Variable env : env_t A Tok E V W I.
Variable pr : parser_struct.
Notation pst := (pstate Tok E V W I).

Inductive steps : nat -> pst -> pst -> Prop :=
| steps_0 : forall st, steps 0 st st
| steps_S : forall n st st1 st2, step gp env pr st = inl st1 -> steps n st1 st2 -> steps (S n) st st2.

Lemma steps_snoc n : forall st st1 st2, steps n st st1 -> step gp env pr st1 = inl st2 -> steps (S n) st st2.
Proof.
  induction n as [|n IH]; intros st st1 st2 H Hs; inversion H; subst.
  - econstructor; eauto. constructor.
  - econstructor; eauto.
Qed.
Lemma steps_snoc_inv n : forall st st2, steps (S n) st st2 ->
  exists st1, steps n st st1 /\ step gp env pr st1 = inl st2.
Proof.
  induction n as [|n IH]; intros st st2 H; inversion H as [|n' a b c Hs Hss]; subst.
  - inversion Hss; subst. exists st. split; [constructor|auto].
  - destruct (IH _ _ Hss) as (x & H3 & H4). exists x. split; auto. econstructor; eauto.
Qed.
Lemma steps_app n m : forall st st1 st2, steps n st st1 -> steps m st1 st2 -> steps (n + m) st st2.
Proof.
  induction n as [|n IH]; intros st st1 st2 H Hs; inversion H; subst; simpl; auto. econstructor; eauto.
Qed.
Lemma steps_fun n : forall st st1 st2, steps n st st1 -> steps n st st2 -> st1 = st2.
Proof.
  induction n as [|n IH]; intros st st1 st2 H1 H2; inversion H1; inversion H2; subst; auto.
  match goal with H : step _ _ _ st = inl ?a, H' : step _ _ _ st = inl ?b |- _ =>
    rewrite H in H'; inversion H'; subst end. eauto.
Qed.

Lemma run_steps fuel : forall st o, run gp env fuel pr st = Some o ->
  exists n st', n < fuel /\ steps n st st' /\ step gp env pr st' = inr o.
Proof.
  induction fuel as [|fuel IH]; simpl; intros st o H; [discriminate|].
  destruct (step gp env pr st) as [st1|o'] eqn:Es.
  - destruct (IH _ _ H) as (n & st' & Hn & H1 & H2). exists (S n), st'. split; [lia|].
    split; auto. econstructor; eauto.
  - inversion H; subst. exists 0, st. split; [lia|]. split; auto. constructor.
Qed.

Lemma steps_run n : forall st st' o fuel, steps n st st' -> step gp env pr st' = inr o -> n < fuel ->
  run gp env fuel pr st = Some o.
Proof.
  induction n as [|n IH]; intros st st' o [|fuel] H Ho Hf; inversion H; subst; try lia; simpl.
  - rewrite Ho; auto.
  - rewrite H1. eapply IH; eauto. lia.
Qed.

Lemma run_mono fuel fuel' st o : run gp env fuel pr st = Some o -> fuel <= fuel' ->
  run gp env fuel' pr st = Some o.
Proof.
  intros H Hf. destruct (run_steps _ _ _ H) as (n & st' & Hn & H1 & H2). eapply steps_run; eauto. lia.
Qed.

Lemma run_fun fuel fuel' st o o' : run gp env fuel pr st = Some o -> run gp env fuel' pr st = Some o' -> o = o'.
Proof.
  intros H1 H2. apply (run_mono _ (fuel + fuel')) in H1; [|lia]. apply (run_mono _ (fuel + fuel')) in H2; [|lia].
  congruence.
Qed.
End Runs.

Section Parser.
Context {A Tok E V W I : Type}.
Variable g : grammar A.
Hypothesis Hwf : wf_grammar g.
Variable conv : list conversion.
Variable tbl : first_table.
Variable states : list lr1_state.
Variable entries : list (nat * nat).
Variable act : nat -> option nat -> option aact.
Variable gp : generated A.
Hypothesis Hgen : generated_ok g conv tbl states entries act gp.
Variable env : env_t A Tok E V W I.

(** The two generated token functions agree and classify into declared terminals. *)
Definition tokens_ok : Prop :=
  forall tok t, e_tok_idx env tok = Some t -> t < n_terminals g /\ exists fs, e_tok_val env tok = Some (t, fs).
Hypothesis Htok : tokens_ok.

Definition tok_fields (tok : Tok) : list V :=
  match e_tok_val env tok with Some (_, fs) => fs | None => [] end.
Notation class := (e_tok_idx env).
Notation next := (e_next env).
Notation sem := (e_sem env).
Notation evalf := (eval_forest g tok_fields sem).
Notation evalt := (eval_tree g tok_fields sem).

Variable pr : parser_struct.
Variables nt0 e : nat.
Hypothesis Hpf : parser_for g (gp_sem_actions gp) entries pr nt0 e.
Notation pst := (pstate Tok E V W I).
Notation Haut := (gn_aut _ _ _ _ _ _ _ Hgen).
Notation Hact := (gn_act _ _ _ _ _ _ _ Hgen).

Lemma Hentry : In (nt0, e) entries.
Proof. destruct Hpf as (N & f & q & H & _). auto. Qed.

(** Lookahead *)
Inductive look : option (Tok + E) -> option nat -> Prop :=
| look_eof : look None None
| look_tok : forall tok t, class tok = Some t -> look (Some (inl tok)) (Some t).

Lemma look_fun tk x y : look tk x -> look tk y -> x = y.
Proof. intros H1 H2; destruct H1; inversion H2; congruence. Qed.

Lemma look_range tk la : look tk la -> la_in_range (n_terminals g) la.
Proof. intros []; simpl; auto. apply Htok in H. tauto. Qed.

Variable it0 : I.
Variable w0 : W.

(** Invariant: [ts] are the subtrees on the stack (top first), [pi] their root symbols. *)
Record inv (st : pst) (pi : list symbol) (ts : list (tree Tok)) (consumed : list Tok) : Prop := {
  in_path : stack_path states e pi (ps_states st);
  in_wf : wf_forest g class (rev ts) (rev pi);
  in_yield : yields (rev ts) = consumed;
  in_eval : exists bs, evalf (rev ts) w0 = Some (bs, ps_world st) /\
            vals_for (variant_names g) pi (rev bs) (ps_values st);
  in_iter : exists it1, feeds next it0 consumed it1 /\ next it1 = (ps_token st, ps_iter st)
}.

Lemma inv_init : inv (init_pstate env pr it0 w0) [] [] [].
Proof.
  unfold init_pstate. destruct (next it0) as [tk it1] eqn:En.
  destruct Hpf as (N & f & q & _ & _ & _ & _ & He & _). constructor; simpl.
  - rewrite He. constructor.
  - constructor.
  - reflexivity.
  - exists []. split; [reflexivity|constructor].
  - exists it0. split; [constructor|auto].
Qed.

Lemma inv_top st pi ts c : inv st pi ts c -> exists s ss, ps_states st = s :: ss /\ s < List.length states.
Proof.
  intro H. destruct (valid_items g tbl states entries Haut nt0 e Hentry _ _ (in_path _ _ _ _ H)) as (s & ss & x & H1 & H2 & _).
  exists s, ss. split; auto. apply nth_error_Some. congruence.
Qed.

Lemma feeds_app it a it1 b it2 : feeds next it a it1 -> feeds next it1 b it2 -> feeds next it (a ++ b) it2.
Proof. induction 1; simpl; auto. intro. econstructor; eauto. Qed.

(** The error entries. *)
Definition err_expected (s : nat) : string :=
  join (flat_map (fun '(t, str) => match act s (Some t) with Some _ => [str] | None => [] end)
                 (enumerate (g_terminals g))).
Definition term_name (la : option nat) (str : string) : Prop :=
  match la with Some t => nth_error (g_terminals g) t = Some str | None => str = "end-of-input"%string end.

(** What one iteration does, by table entry. *)
Definition step_spec (st : pst) (pi : list symbol) (ts : list (tree Tok)) (c : list Tok)
  (s : nat) (ss : list nat) (la : option nat) : Prop :=
  match act s la with
  | None => exists found, term_name la found /\
      step gp env pr st = finish st (PParserError found (err_expected s))
  | Some (AShift n) => exists tok t fs st', ps_token st = Some (inl tok) /\ la = Some t /\ class tok = Some t /\
      e_tok_val env tok = Some (t, fs) /\
      step gp env pr st = inl st' /\ ps_states st' = n :: s :: ss /\
      ps_values st' = VToken t fs :: ps_values st /\ ps_world st' = ps_world st /\
      next (ps_iter st) = (ps_token st', ps_iter st') /\
      inv st' (T t :: pi) (Leaf tok :: ts) (c ++ [tok])
  | Some (AReduce n p) => exists q s0 ss0 s1 kids rest bs f pi0,
      get_production g n p = Some q /\ skipn (List.length (rhs q)) (s :: ss) = s0 :: ss0 /\
      trans states s0 (NT n) = Some s1 /\ pi = rev (rhs q) ++ pi0 /\
      ts = rev kids ++ rest /\ List.length kids = List.length (rhs q) /\
      wf_forest g class kids (rhs q) /\
      (exists w1 vs1, evalf (rev rest) w0 = Some (vs1, w1) /\ evalf kids w1 = Some (bs, ps_world st)) /\
      match sem (p_action q) (bindings (p_symbols q) bs) (ps_world st) with
      | None => step gp env pr st = finish st (PPanic UserPanic)
      | Some (v, w') => exists st', step gp env pr st = inl st' /\
          st' = {| ps_states := s1 :: s0 :: ss0;
                   ps_values := VNonTerminal (sf_variant f) v :: skipn (List.length (rhs q)) (ps_values st);
                   ps_token := ps_token st; ps_iter := ps_iter st; ps_world := w' |} /\
          fn_for (variant_names g) n q f /\
          inv st' (NT n :: pi0) (Node n p kids :: rest) c
      end
  | Some AAccept => exists q m tr bs, la = None /\ ps_token st = None /\ get_production g nt0 0 = Some q /\
      rhs q = [NT m] /\ pi = [NT m] /\ ts = [tr] /\ wf_tree g class tr (NT m) /\
      evalf [tr] w0 = Some (bs, ps_world st) /\
      match sem (p_action q) (bindings (p_symbols q) bs) (ps_world st) with
      | None => step gp env pr st = finish st (PPanic UserPanic)
      | Some (v, w') => step gp env pr st = inr {| oc_result := POk v; oc_iter := ps_iter st; oc_world := w' |}
      end
  end.

(** Splitting the stacks at a right-hand side. *)
Lemma inv_split st Xs pi0 ts c : inv st (rev Xs ++ pi0) ts c ->
  exists kids rest bs bs0 w1 vs vs0, ts = rev kids ++ rest /\ List.length kids = List.length Xs /\
    wf_forest g class kids Xs /\ wf_forest g class (rev rest) (rev pi0) /\
    evalf (rev rest) w0 = Some (bs0, w1) /\ evalf kids w1 = Some (bs, ps_world st) /\
    ps_values st = vs ++ vs0 /\ vals_for (variant_names g) (rev Xs) (rev bs) vs /\
    vals_for (variant_names g) pi0 (rev bs0) vs0 /\ yields (rev rest) ++ yields kids = c.
Proof.
  intros [Hp Hw Hy (bs & He & Hv) Hi].
  rewrite rev_app_distr, rev_involutive in Hw. apply wf_forest_Forall2 in Hw.
  apply Forall2_app_split in Hw. destruct Hw as (a & b & Hab & Ha & Hb).
  assert (Hts : ts = rev b ++ rev a) by (rewrite <- (rev_involutive ts), Hab, rev_app_distr; auto).
  rewrite Hab, eval_forest_app in He.
  destruct (evalf a w0) as [[vs1 w1]|] eqn:E1; [|discriminate].
  destruct (evalf b w1) as [[vs2 w2]|] eqn:E2; [|discriminate]. inversion He; subst bs w2; clear He.
  rewrite rev_app_distr in Hv. apply vals_for_app_inv in Hv.
  destruct Hv as (b1 & b2 & v1 & v2 & Hb1 & Hv1 & Hvx & Hv0).
  pose proof (eval_forest_length _ _ _ _ _ _ _ E2) as L2.
  pose proof (Forall2_length_ _ _ _ Hb) as L3.
  pose proof (vals_for_length _ _ _ _ Hvx) as [L4 _]. rewrite rev_length in L4.
  assert (Heq : rev vs2 = b1 /\ rev vs1 = b2).
  { apply app_inj_length; auto. rewrite rev_length. lia. }
  destruct Heq as [<- <-].
  exists b, (rev a), vs2, vs1, w1, v1, v2. rewrite rev_involutive.
  repeat split; auto; try (apply wf_forest_Forall2; auto).
  rewrite <- Hy, Hab, yields_app. auto.
Qed.

Lemma step_ok st pi ts c s ss la : inv st pi ts c -> ps_states st = s :: ss -> look (ps_token st) la ->
  step_spec st pi ts c s ss la.
Proof.
  intros Hinv Hs Hla.
  assert (Hlt : s < List.length states).
  { destruct (inv_top _ _ _ _ Hinv) as (s' & ss' & E1 & E2). congruence. }
  pose proof (look_range _ _ Hla) as Hrange.
  destruct (gn_action _ _ _ _ _ _ _ Hgen s la Hlt Hrange) as (r & Hr & Hent).
  assert (Hstep : step gp env pr st = dispatch gp env pr st s (la_col (n_terminals g) la)).
  { unfold step. rewrite Hs. destruct Hla as [|tok t Hc]; simpl.
    - rewrite (gn_nterm _ _ _ _ _ _ _ Hgen). auto.
    - rewrite Hc. auto. }
  pose proof (in_path _ _ _ _ Hinv) as Hpath. rewrite Hs in Hpath.
  unfold step_spec. rewrite Hstep. unfold dispatch. rewrite Hr. clear Hr Hstep.
  destruct (act s la) as [[n|n p|]|] eqn:Ea.
  - (* shift *)
    destruct r as [[n'|? ? ?|]|]; simpl in Hent; try contradiction. subst n'.
    destruct (shift_trans g states act Hact s la n Ea) as (t & -> & Ht).
    inversion Hla as [|tok t' Hc Htk]; subst t'.
    destruct (Htok _ _ Hc) as (_ & fs & Hfs).
    unfold shift. destruct (next (ps_iter st)) as [tk' it'] eqn:En.
    rewrite <- Htk. rewrite Hfs.
    eexists tok, t, fs, _. do 5 (split; [eauto|]). simpl. rewrite Hs.
    do 4 (split; [auto|]).
    destruct Hinv as [Hp Hw Hy (bs & He & Hv) (it1 & Hf & Hn)].
    constructor; simpl.
    + constructor; auto.
    + apply wf_forest_app; auto. constructor; [|constructor]. constructor; auto.
    + rewrite yields_app, Hy. reflexivity.
    + exists (bs ++ [BTok fs]). rewrite eval_forest_app, He. simpl.
      unfold tok_fields at 1. rewrite Hfs. split; auto. rewrite rev_app_distr. simpl. constructor; auto. constructor.
    + exists (ps_iter st). split; [|auto]. eapply feeds_app; eauto. econstructor; [|constructor].
      rewrite Hn, <- Htk. reflexivity.
  - (* reduce *)
    destruct r as [[?|n' k idx|]|]; simpl in Hent; try contradiction.
    destruct Hent as (<- & q & f & Hq & -> & Hidx & Hfn).
    destruct (reduce_possible g Hwf tbl states entries Haut nt0 e Hentry act Hact _ _ _ _ _ _ Hpath Ea)
      as (q' & pi0 & s0 & ss0 & s1 & d & Hq' & Hpriv & Hpi & Hsk & Hp0 & Ht & _).
    rewrite Hq in Hq'; inversion Hq'; subst q'; clear Hq'. subst pi.
    destruct (inv_split _ _ _ _ _ Hinv) as (kids & rest & bs & bs0 & w1 & vs & vs0 & -> & Lk & Hwk & Hwr & Er & Ek & Hvs & Hv1 & Hv0 & Hy).
    exists q, s0, ss0, s1, kids, rest, bs, f, pi0. do 7 (split; [auto|]).
    split; [eauto|].
    unfold reduce. rewrite Hidx, Hvs.
    rewrite (run_sem_fn_spec env (variant_names g) n q f bs vs vs0 (ps_world st) Hfn Hv1).
    destruct (sem (p_action q) (bindings (p_symbols q) bs) (ps_world st)) as [[v w']|] eqn:Esem; [|reflexivity].
    assert (Hlen : List.length (rhs q) <= List.length (ps_states st)).
    { destruct (Nat.le_gt_cases (List.length (rhs q)) (List.length (ps_states st))) as [|Hgt]; auto.
      rewrite <- Hs, skipn_all2 in Hsk by lia. discriminate. }
    destruct (Nat.ltb_spec (List.length (ps_states st)) (List.length (rhs q))) as [|_]; [lia|].
    rewrite Hs, Hsk.
    assert (Hs0 : s0 < List.length states).
    { unfold trans in Ht. destruct (nth_error states s0) eqn:E0; [|discriminate]. apply nth_error_Some. congruence. }
    assert (Hn : n < n_non_terminals g).
    { destruct Hpriv as (N & HN & _). eapply nt_in_range; eauto. }
    rewrite (gn_goto _ _ _ _ _ _ _ Hgen s0 n Hs0 Hn), Ht.
    eexists. split; [reflexivity|]. pose proof (vals_for_length _ _ _ _ Hv1) as [_ Lv]. rewrite rev_length in Lv.
    split; [|split].
    + rewrite <- Lv, skipn_app, Nat.sub_diag, skipn_all. reflexivity.
    + auto.
    + destruct Hinv as [Hp Hw Hyy _ Hi]. constructor; simpl.
      * constructor; auto.
      * apply wf_forest_app; auto. constructor; [|constructor]. econstructor; eauto.
      * rewrite yields_app. unfold yields at 2. simpl. rewrite app_nil_r. exact Hy.
      * exists (bs0 ++ [BVal v]). rewrite eval_forest_app, Er. simpl. rewrite Hq.
        unfold eval_forest in Ek. rewrite Ek, Esem. split; auto.
        rewrite rev_app_distr. simpl. constructor; auto. constructor. apply Hfn.
      * auto.
  - (* accept *)
    destruct r as [[?|? ? ?|]|]; simpl in Hent; try contradiction.
    destruct (accept_bottom g Hwf tbl states entries Haut nt0 e Hentry act Hact _ _ _ _ Hpath Ea) as (-> & q & m & Hq & Hrq & Hpi).
    assert (Htk : ps_token st = None) by (inversion Hla; auto).
    assert (Hpi' : pi = rev (rhs q) ++ []) by (rewrite Hrq; auto). 
    rewrite Hpi' in Hinv.
    destruct (inv_split _ _ _ _ _ Hinv) as (kids & rest & bs & bs0 & w1 & vs & vs0 & -> & Lk & Hwk & Hwr & Er & Ek & Hvs & Hv1 & Hv0 & Hy).
    inversion Hv0; subst vs0. assert (Hb0 : bs0 = []) by (rewrite <- (rev_involutive bs0); rewrite <- H; auto). subst bs0.
    assert (Hrest : rest = []).
    { simpl in Hwr. inversion Hwr as [Hr|]. rewrite <- (rev_involutive rest), <- Hr. auto. }
    subst rest. simpl in Er. inversion Er; subst w1.
    rewrite Hrq in Lk, Hwk. destruct kids as [|tr [|? ?]]; simpl in Lk; try lia.
    exists q, m, tr, bs. simpl. do 6 (split; [auto|]).
    split; [inversion Hwk; auto|]. split; [exact Ek|].
    unfold accept. destruct Hpf as (N & f & q' & _ & _ & _ & _ & _ & Hvar & Hq' & Hidx & Hfn).
    rewrite Hq in Hq'; inversion Hq'; subst q'. rewrite Hidx, Hvs.
    rewrite (run_sem_fn_spec env (variant_names g) nt0 q f bs vs [] (ps_world st) Hfn Hv1).
    destruct (sem (p_action q) (bindings (p_symbols q) bs) (ps_world st)) as [[v w']|]; [|reflexivity].
    destruct Hfn as (_ & Hv' & _). rewrite Hvar in Hv'. inversion Hv' as [Hvv]. simpl. rewrite Hvv, Nat.eqb_refl. reflexivity.
  - (* error *)
    destruct r as [r|]; simpl in Hent; [destruct r; contradiction|].
    rewrite (gn_expected _ _ _ _ _ _ _ Hgen s Hlt), (gn_strs _ _ _ _ _ _ _ Hgen).
    destruct la as [t|]; simpl in *.
    + unfold n_terminals in Hrange. rewrite nth_error_app1 by auto.
      destruct (nth_error (g_terminals g) t) as [str|] eqn:Et; [|apply nth_error_None in Et; lia].
      exists str. split; auto.
    + unfold n_terminals. rewrite nth_error_app2, Nat.sub_diag by auto. simpl. eexists; split; [reflexivity|]. auto.
Qed.

(** One iteration: either still running with the invariant, or stopped. *)
Lemma step_cases st pi ts c : inv st pi ts c ->
  (exists er, ps_token st = Some (inr er) /\ step gp env pr st = finish st (PLexerError er)) \/
  (exists tok, ps_token st = Some (inl tok) /\ class tok = None /\ step gp env pr st = finish st (PPanic NoTokenMatch)) \/
  (exists la s ss, look (ps_token st) la /\ ps_states st = s :: ss /\ step_spec st pi ts c s ss la).
Proof.
  intro H. destruct (inv_top _ _ _ _ H) as (s & ss & Hs & _).
  destruct (ps_token st) as [[tok|er]|] eqn:Et.
  - destruct (class tok) as [t|] eqn:Ec.
    + right; right. exists (Some t), s, ss. split; [constructor; auto|]. split; auto. apply step_ok; auto.
      rewrite Et. constructor; auto.
    + right; left. exists tok. split; auto. split; auto. unfold step. rewrite Hs, Et, Ec. auto.
  - left. exists er. split; auto. unfold step. rewrite Hs, Et. auto.
  - right; right. exists None, s, ss. split; [constructor|]. split; auto. apply step_ok; auto.
    rewrite Et. constructor.
Qed.

Lemma step_inv st pi ts c st' : inv st pi ts c -> step gp env pr st = inl st' ->
  exists pi' ts' c', inv st' pi' ts' c'.
Proof.
  intros H Hs. destruct (step_cases _ _ _ _ H) as [(er & _ & He)|[(tok & _ & _ & He)|(la & s & ss & Hla & Hss & Hsp)]].
  - rewrite He in Hs; discriminate.
  - rewrite He in Hs; discriminate.
  - unfold step_spec in Hsp. destruct (act s la) as [[n|n p|]|].
    + destruct Hsp as (tok & t & fs & st1 & _ & _ & _ & _ & E1 & _ & _ & _ & _ & Hi). rewrite Hs in E1; inversion E1; subst. eauto.
    + destruct Hsp as (q & s0 & ss0 & s1 & kids & rest & bs & f & pi0 & _ & _ & _ & _ & _ & _ & _ & _ & Hm).
      destruct (sem _ _ _) as [[v w']|]; [|rewrite Hm in Hs; discriminate].
      destruct Hm as (st1 & E1 & _ & _ & Hi). rewrite Hs in E1; inversion E1; subst st1. eauto.
    + destruct Hsp as (q & m & tr & bs & _ & _ & _ & _ & _ & _ & _ & _ & Hm).
      destruct (sem _ _ _) as [[v w']|]; rewrite Hm in Hs; discriminate.
    + destruct Hsp as (found & _ & Hm). rewrite Hm in Hs; discriminate.
Qed.

Lemma steps_inv n : forall st st' pi ts c, inv st pi ts c -> steps gp env pr n st st' ->
  exists pi' ts' c', inv st' pi' ts' c'.
Proof.
  induction n as [|n IH]; intros st st' pi ts c H Hs; inversion Hs; subst; eauto.
  destruct (step_inv _ _ _ _ _ H H1) as (pi' & ts' & c' & H'). eauto.
Qed.

(** ** What every outcome means *)
Definition outcome_spec (o : outcome E V W I) (consumed : list Tok) (tk : option (Tok + E)) : Prop :=
  exists pi forest it1 vs w1,
    feeds next it0 consumed it1 /\ next it1 = (tk, oc_iter o) /\
    wf_forest g class forest pi /\ yields forest = consumed /\
    evalf forest w0 = Some (vs, w1) /\ (exists r, derives g [NT nt0] (pi ++ r)) /\
    (forall n, In (NT n) pi -> is_private g n) /\
    match oc_result o with
    | POk v => tk = None /\ exists tr, wf_tree g class tr (NT nt0) /\ yield tr = consumed /\
                                       evalt tr w0 = Some (BVal v, oc_world o)
    | PLexerError er => tk = Some (inr er) /\ oc_world o = w1
    | PParserError found expected => oc_world o = w1 /\ exists la, look tk la /\ term_name la found
    | PPanic UserPanic => oc_world o = w1 /\ exists n p q l kids bs w2, get_production g n p = Some q /\
        forest = l ++ kids /\ wf_forest g class kids (rhs q) /\ evalf kids w2 = Some (bs, w1) /\
        sem (p_action q) (bindings (p_symbols q) bs) w1 = None
    | PPanic NoTokenMatch => oc_world o = w1 /\ exists tok, tk = Some (inl tok) /\ class tok = None
    | PPanic _ => False
    end.

Lemma inv_derives st pi ts c : inv st pi ts c -> exists r, derives g [NT nt0] (rev pi ++ r).
Proof. intro H. eapply (viable_prefix g Hwf tbl states entries Haut nt0 e Hentry). eapply in_path; eauto. Qed.

Lemma path_private pi ss : stack_path states e pi ss -> forall n, In (NT n) pi -> is_private g n.
Proof.
  induction 1 as [|X pi s s' ss H IH Ht]; intros n Hn; [contradiction|].
  destruct Hn as [->|Hn]; [|auto]. unfold trans in Ht. destruct (nth_error states s) as [st|] eqn:Es; [|discriminate].
  destruct (ao_goto _ _ _ _ Haut _ _ _ _ Es Ht) as (st' & _ & Hg & Hne).
  destruct (proj1 (goto_set_nonempty _ _ _ _ _ Hg) Hne) as (it & _ & Hx).
  destruct (next_symbol_production g _ _ Hx) as (q & Hq & Hk). eapply wfg_nt; eauto. eapply nth_error_In; eauto.
Qed.

Lemma step_outcome st pi ts c o : inv st pi ts c -> step gp env pr st = inr o -> outcome_spec o c (ps_token st).
Proof.
  intros H Hs. pose proof H as [Hp Hw Hy (bs & He & Hv) (it1 & Hf & Hn)].
  pose proof (inv_derives _ _ _ _ H) as Hd. unfold outcome_spec.
  assert (Hpr : forall n, In (NT n) (rev pi) -> is_private g n).
  { intros n Hin. apply in_rev in Hin. eapply path_private; eauto. }
  destruct (step_cases _ _ _ _ H) as [(er & Htk & Hst)|[(tok & Htk & Hc & Hst)|(la & s & ss & Hla & Hss & Hsp)]].
  - rewrite Hst in Hs. inversion Hs; subst o; simpl.
    exists (rev pi), (rev ts), it1, bs, (ps_world st). repeat (split; auto).
  - rewrite Hst in Hs. inversion Hs; subst o; simpl.
    exists (rev pi), (rev ts), it1, bs, (ps_world st). repeat (split; auto). eauto.
  - unfold step_spec in Hsp. destruct (act s la) as [[n|n p|]|].
    + destruct Hsp as (tok & t & fs & st1 & _ & _ & _ & _ & E1 & _). rewrite Hs in E1; discriminate.
    + destruct Hsp as (q & s0 & ss0 & s1 & kids & rest & bs1 & f & pi0 & Hq & _ & _ & Hpi & Hts & Lk & Hwk & (w1 & vs1 & Hr & Hk) & Hm).
      destruct (sem _ _ _) as [[v w']|] eqn:Esem.
      * destruct Hm as (st1 & E1 & _). rewrite Hs in E1; discriminate.
      * rewrite Hm in Hs. inversion Hs; subst o; simpl.
        exists (rev pi), (rev ts), it1, bs, (ps_world st). repeat (split; auto).
        exists n, p, q, (rev rest), kids, bs1, w1. repeat (split; auto).
        rewrite Hts, rev_app_distr, rev_involutive. auto.
    + destruct Hsp as (q & m & tr & bs1 & -> & Htk & Hq & Hrq & Hpi & Hts & Hwt & Hev & Hm).
      destruct (sem _ _ _) as [[v w']|] eqn:Esem; rewrite Hm in Hs; inversion Hs; subst o; simpl.
      * exists (rev pi), (rev ts), it1, bs, (ps_world st). repeat (split; auto).
        exists (Node nt0 0 [tr]). split; [|split].
        -- econstructor; eauto. rewrite Hrq. constructor; auto. constructor.
        -- rewrite <- Hy, Hts. reflexivity.
        -- cbn [eval_tree]. rewrite Hq. unfold eval_forest in Hev. rewrite Hev, Esem. auto.
      * exists (rev pi), (rev ts), it1, bs, (ps_world st). repeat (split; auto).
        exists nt0, 0, q, [], [tr], bs1, w0. repeat (split; auto).
        -- rewrite Hts; auto.
        -- rewrite Hrq. constructor; auto. constructor.
    + destruct Hsp as (found & Hfd & Hm). rewrite Hm in Hs. inversion Hs; subst o; simpl.
      exists (rev pi), (rev ts), it1, bs, (ps_world st). repeat (split; auto). eauto.
Qed.

Theorem parse_outcome fuel o : parse gp env fuel pr it0 w0 = Some o -> exists consumed tk, outcome_spec o consumed tk.
Proof.
  intro H. unfold parse in H. destruct (run_steps _ _ _ _ _ _ H) as (n & st' & _ & H1 & H2).
  destruct (steps_inv _ _ _ _ _ _ inv_init H1) as (pi & ts & c & Hi). exists c, (ps_token st'). eapply step_outcome; eauto.
Qed.
End Parser.
