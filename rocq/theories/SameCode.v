(** * SameCode: modules that differ in names and actions only behave alike (C46) *)
From Verif Require Export AlikeSpec PropSpec.

Section SameCode.
Context {A B Tok E V W I : Type}.
Variable f : A -> B.
Variables (gp : generated A) (gp' : generated B).
Hypothesis Hc : same_code f gp gp'.
Variables (env : env_t A Tok E V W I) (env' : env_t B Tok E V W I).
Hypothesis Hsem : forall a b w, e_sem env' (f a) b w = e_sem env a b w.
Hypothesis Hidx : forall t, e_tok_idx env' t = e_tok_idx env t.
Hypothesis Hval : forall t, e_tok_val env' t = e_tok_val env t.
Hypothesis Hnext : forall i, e_next env' i = e_next env i.
Variables (pr pr' : parser_struct).
Hypothesis Hpr : same_entry pr pr'.

Lemma sc_run_sem_fn x stack w : run_sem_fn env' (map_sem_fn f x) stack w = run_sem_fn env x stack w.
Proof. unfold run_sem_fn. simpl. destruct (run_pops (sf_pops x) stack []) as [[s b]|e]; auto. rewrite Hsem. auto. Qed.
Lemma sc_dispatch st s t : dispatch gp' env' pr' st s t = dispatch gp env pr st s t.
Proof.
  destruct Hc as [H1 H2 H3 H4 H5 H6 H7]. destruct Hpr as (P1 & P2 & P3 & P4).
  unfold dispatch, shift, reduce, accept. rewrite H1, H2, H3, H4, H5, Hnext, P2, P4.
  destruct (index2 (gp_action gp) s t) as [[[n|nt n a|]|]|]; auto.
  - destruct (e_next env (ps_iter st)). destruct (ps_token st) as [[tok|e]|]; auto. rewrite Hval. auto.
  - rewrite nth_error_map. destruct (nth_error (gp_sem_actions gp) a); simpl; auto. rewrite sc_run_sem_fn. auto.
  - rewrite nth_error_map. destruct (nth_error (gp_sem_actions gp) (pr_action_idx pr)); simpl; auto. rewrite sc_run_sem_fn. auto.
Qed.
Lemma sc_step st : step gp' env' pr' st = step gp env pr st.
Proof.
  unfold step. destruct (ps_states st); auto. destruct (ps_token st) as [[tok|e]|]; auto.
  - rewrite Hidx. destruct (e_tok_idx env tok); auto. apply sc_dispatch.
  - rewrite (sc_n _ _ _ Hc). apply sc_dispatch.
Qed.
Lemma sc_run fuel : forall st, run gp' env' fuel pr' st = run gp env fuel pr st.
Proof. induction fuel; intro st; simpl; auto. rewrite sc_step. destruct (step gp env pr st); auto. Qed.
Lemma sc_init it w : init_pstate env' pr' it w = init_pstate env pr it w.
Proof. unfold init_pstate. rewrite Hnext. destruct Hpr as (_ & _ & -> & _). auto. Qed.
Theorem sc_parse fuel it w : parse gp' env' fuel pr' it w = parse gp env fuel pr it w.
Proof. unfold parse. rewrite sc_init. apply sc_run. Qed.
Lemma sc_dispatch_events st s t : dispatch_events gp' env' pr' st s t = dispatch_events gp env pr st s t.
Proof.
  destruct Hc as [H1 _ _ _ _ _ _]. destruct Hpr as (_ & _ & _ & P4).
  unfold dispatch_events. rewrite H1, P4, Hnext. auto.
Qed.
Lemma sc_run_events fuel : forall st, run_events gp' env' fuel pr' st = run_events gp env fuel pr st.
Proof.
  induction fuel; intro st; simpl; auto. rewrite sc_step. f_equal; [|destruct (step gp env pr st); auto].
  unfold step_events. rewrite (sc_n _ _ _ Hc). destruct (ps_states st); auto. destruct (ps_token st) as [[tok|e]|]; auto.
  - rewrite Hidx. destruct (e_tok_idx env tok); auto. apply sc_dispatch_events.
  - apply sc_dispatch_events.
Qed.
Theorem sc_parse_events fuel it w : parse_events gp' env' fuel pr' it w = parse_events gp env fuel pr it w.
Proof. unfold parse_events. rewrite Hnext, sc_init, sc_run_events. auto. Qed.
End SameCode.

Section Returns.
Context {A B E V W I : Type}.
Variable f : A -> B.
Variables (gp : generated (lexpr A)) (gp' : generated (lexpr B)).
Hypothesis Hc : same_code (map_lexpr f) gp gp'.
Variables (pr pr' : parser_struct).
Hypothesis Hpr : same_entry pr pr'.
Variables (inj : rval -> V) (usem : B -> list (string * bval V) -> W -> option (V * W)) (next : I -> option (rval + E) * I).

Theorem same_code_parse fuel it w :
  parse gp' (user_env gp' inj usem next) fuel pr' it w = parse gp (user_env gp inj (fun a => usem (f a)) next) fuel pr it w.
Proof.
  apply (sc_parse (map_lexpr f) gp gp' Hc); auto.
  - intros [a|x] b w0; reflexivity.
  - intro t. cbn. rewrite (sc_conv _ _ _ Hc). auto.
  - intro t. cbn. rewrite (sc_conv _ _ _ Hc). auto.
Qed.
Theorem same_code_events fuel it w :
  parse_events gp' (user_env gp' inj usem next) fuel pr' it w = parse_events gp (user_env gp inj (fun a => usem (f a)) next) fuel pr it w.
Proof.
  apply (sc_parse_events (map_lexpr f) gp gp' Hc); auto.
  - intros [a|x] b w0; reflexivity.
  - intro t. cbn. rewrite (sc_conv _ _ _ Hc). auto.
  - intro t. cbn. rewrite (sc_conv _ _ _ Hc). auto.
Qed.
Theorem same_code_returns it w o evs :
  returns_with gp' inj usem next pr' it w o evs <-> returns_with gp inj (fun a => usem (f a)) next pr it w o evs.
Proof. unfold returns_with. split; intros (fuel & H); exists fuel; rewrite same_code_parse, same_code_events in *; auto. Qed.
Theorem same_code_outcome it w o :
  returns gp' inj usem next pr' it w o <-> returns gp inj (fun a => usem (f a)) next pr it w o.
Proof. unfold returns. split; intros (fuel & H); exists fuel; rewrite same_code_parse in *; auto. Qed.
End Returns.
