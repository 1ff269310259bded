(** * UserProofs: outcomes of [Entry::parse] in terms of the user's grammar *)
From Verif Require Export MacroProofs.

Section Ext.
Context {A Tok V W : Type}.
Variable nts : list (ast_non_terminal A).
Variables f1 f2 : Tok -> list V.
Hypothesis Hf : forall tok, f1 tok = f2 tok.
Variable sem : A -> list (string * bval V) -> W -> option (V * W).

Lemma ueval_ext : forall t w, ueval nts f1 sem t w = ueval nts f2 sem t w.
Proof.
  fix IH 1. intros [tok|nm p kids] w.
  - cbn. rewrite Hf. reflexivity.
  - cbn. destruct (uproduction nts nm p) as [pr|]; [|reflexivity].
    assert (E : forall w, ueval_list (ueval nts f1 sem) kids w = ueval_list (ueval nts f2 sem) kids w).
    { clear w. induction kids as [|k kids IHk]; intro w; cbn; [reflexivity|].
      rewrite IH. destruct (ueval nts f2 sem k w) as [[v w1]|]; [|reflexivity].
      rewrite IHk. reflexivity. }
    rewrite E. reflexivity.
Qed.
Lemma uevals_ext ts : forall w, uevals nts f1 sem ts w = uevals nts f2 sem ts w.
Proof.
  induction ts as [|t ts IH]; intro w; unfold uevals in *; cbn; [reflexivity|].
  rewrite ueval_ext. destruct (ueval nts f2 sem t w) as [[v w1]|]; [|reflexivity]. rewrite IH. reflexivity.
Qed.
End Ext.

Section User.
Context {A : Type}.
Variable items : list (grammar_item A).
Notation nts := (declared_nts items).
Notation cs := (token_entries items).
Hypothesis Hnames : distinct_names items.
Hypothesis Hplain : plain_patterns items.
Variable gp : generated (lexpr A).
Variable ti : list (string * nat).
Variable g : grammar (lexpr A).
Variable tbl : first_table.
Variable states : list lr1_state.
Variable entries : list (nat * nat).
Variable act : nat -> option nat -> option aact.
Hypothesis Hlow : lowered nts cs ti g.
Hypothesis Hgen : generated_ok g cs tbl states entries act gp.
Notation ni := (nt_indices_of nts).

Let Hwf : wf_grammar g := lowered_wf _ _ _ _ Hlow.

Lemma conv_eq : gp_conversions gp = cs.
Proof. apply (gn_conv _ _ _ _ _ _ _ Hgen). Qed.

Lemma n_terms_eq : n_terminals g = List.length cs.
Proof. unfold n_terminals. rewrite (lo_terms _ _ _ _ Hlow). apply map_length. Qed.

(** Parsers and [pub] declarations *)
Lemma parser_entry pr : In pr (gp_parsers gp) ->
  exists N i e, In (N, i) (slots 0 nts) /\ an_pub N = true /\ pr_name pr = an_name N /\
    pr_return_ty pr = an_type N /\ parser_for g (gp_sem_actions gp) entries pr (S i) e.
Proof.
  intro H. destruct (gn_parser _ _ _ _ _ _ _ Hgen _ H) as (nt & e & Hpf).
  pose proof Hpf as Hpf'. destruct Hpf as (M & f & q & Hin & HM & Hn & Hr & _).
  destruct (ao_entry _ _ _ _ (gn_aut _ _ _ _ _ _ _ Hgen) _ _ Hin) as ((M' & HM' & Hp) & _).
  assert (M' = M) by congruence. subst M'.
  destruct (public_inv nts cs ti g Hlow _ _ HM Hp) as (N & i & Hs & Hpub & -> & Hnm & Hty).
  exists N, i, e. repeat split; auto; congruence.
Qed.

Lemma entry_parser N i : In (N, i) (slots 0 nts) -> an_pub N = true ->
  exists pr e, In pr (gp_parsers gp) /\ pr_name pr = an_name N /\ pr_return_ty pr = an_type N /\
    parser_for g (gp_sem_actions gp) entries pr (S i) e.
Proof.
  intros Hs Hp. pose proof (entry_nt nts cs ti g Hlow N i Hs Hp) as HN.
  assert (Hpub : is_public g (S i)) by (eexists; split; [exact HN|reflexivity]).
  destruct (ao_entries_complete _ _ _ _ (gn_aut _ _ _ _ _ _ _ Hgen) _ Hpub) as (e & Hin).
  destruct (gn_parser_all _ _ _ _ _ _ _ Hgen _ _ Hin) as (pr & Hpr & Hpf).
  exists pr, e. pose proof Hpf as Hpf'. destruct Hpf as (M & f & q & _ & HM & Hn & Hr & _).
  rewrite HN in HM. inversion HM; subst M. auto.
Qed.

Context {E V W I : Type}.
Variable inj : rval -> V.
Variable usem : A -> list (string * bval V) -> W -> option (V * W).
Variable next : I -> option (rval + E) * I.
Notation env := (user_env gp inj usem next).
Notation cidx := (token_terminal_idx cs).
Notation class := (token_class cs).
Notation fields := (fun tok => map inj (token_fields cs tok)).

Lemma env_cidx : forall tok, e_tok_idx env tok = cidx tok.
Proof. intro tok. cbn. rewrite conv_eq. reflexivity. Qed.

Lemma env_tokens_ok : tokens_ok g env.
Proof. apply user_tokens_ok; rewrite conv_eq; [exact Hplain|apply n_terms_eq]. Qed.

Lemma env_fields tok : tok_fields env tok = fields tok.
Proof. rewrite user_fields; rewrite conv_eq; auto. Qed.

Lemma env_class tok : class tok = match e_tok_idx env tok with Some i => nth_error (map cv_from cs) i | None => None end.
Proof. rewrite <- conv_eq. apply user_class. Qed.

Lemma env_range tok i : e_tok_idx env tok = Some i -> i < List.length cs.
Proof. rewrite <- conv_eq. apply tok_idx_range. Qed.

Notation lt := (ltree nts).
Notation sym_rel := (sym_rel nts cs).
Notation wft := (wf_tree g (e_tok_idx env)).
Notation wff := (wf_forest g (e_tok_idx env)).
Notation evalt := (eval_tree g (tok_fields env) (lsem usem)).
Notation evalf := (eval_forest g (tok_fields env) (lsem usem)).
Notation uev := (ueval nts fields usem).
Notation uevs := (uevals nts fields usem).

Lemma u_tree_up tr X s : wft tr X -> sym_rel s X -> exists t, utree_of nts class t s /\ lt t = tr.
Proof. intros. eapply (proj1 (tree_up nts cs ti g Hlow Hnames (e_tok_idx env) class env_class)); eauto. Qed.
Lemma u_forest_up trs Xs ss : wff trs Xs -> Forall2 sym_rel ss Xs -> exists ts, uforest_of nts class ts ss /\ map lt ts = trs.
Proof. intros. eapply (proj2 (tree_up nts cs ti g Hlow Hnames (e_tok_idx env) class env_class)); eauto. Qed.
Lemma u_eval t s X w : utree_of nts class t s -> sym_rel s X -> evalt (lt t) w = uev t w.
Proof.
  intros H1 H2. rewrite (proj1 (eval_down nts cs ti g Hlow Hnames class (tok_fields env) usem) _ _ H1 _ H2).
  apply ueval_ext. exact env_fields.
Qed.
Lemma u_evals ts ss Xs w : uforest_of nts class ts ss -> Forall2 sym_rel ss Xs -> evalf (map lt ts) w = uevs ts w.
Proof.
  intros H1 H2. rewrite (proj2 (eval_down nts cs ti g Hlow Hnames class (tok_fields env) usem) _ _ H1 _ H2).
  apply uevals_ext. exact env_fields.
Qed.

(** Symbols *)
Lemma sym_rel_unnamed s X : sym_rel s X <-> sym_rel (unnamed s) X.
Proof. unfold LowerTrees.sym_rel. assert (H : unnamed (unnamed s) = unnamed s) by (induction s; auto). rewrite H. tauto. Qed.

Lemma slots_snd (l : list (ast_non_terminal A)) : forall k N i, In (N, i) (slots k l) -> k <= i.
Proof.
  induction l as [|M l IH]; intros k N i H; [contradiction|]. destruct H as [H|H]; [inversion H; lia|].
  apply IH in H. lia.
Qed.
Lemma slots_inj (l : list (ast_non_terminal A)) : forall k N M i, In (N, i) (slots k l) -> In (M, i) (slots k l) -> N = M.
Proof.
  induction l as [|N0 l IH]; intros k N M i H1 H2; [contradiction|].
  assert (Hw : 1 <= width N0) by (unfold width; destruct (an_pub N0); lia).
  destruct H1 as [H1|H1], H2 as [H2|H2].
  - congruence.
  - inversion H1; subst. apply slots_snd in H2. lia.
  - inversion H2; subst. apply slots_snd in H1. lia.
  - eapply IH; eauto.
Qed.

Lemma sym_rel_fun s s' X : sym_rel s X -> sym_rel s' X -> unnamed s = unnamed s'.
Proof.
  unfold LowerTrees.sym_rel. intros H1 H2.
  destruct (unnamed s) as [t|n| |] eqn:E1; try contradiction; destruct (unnamed s') as [t'|n'| |] eqn:E2; try contradiction;
    destruct H1 as (i & Hi & Hx); destruct H2 as (j & Hj & Hy); subst X; inversion Hy; subst.
  - congruence.
  - destruct (nt_indices_inv _ _ _ Hi) as (N & HN & <-). destruct (nt_indices_inv _ _ _ Hj) as (M & HM & <-).
    rewrite (slots_inj _ _ _ _ _ HN HM). reflexivity.
Qed.

Lemma wf_unique : forall tr X Y, wft tr X -> wft tr Y -> X = Y.
Proof. intros tr X Y H1 H2. destruct H1; inversion H2; subst; congruence. Qed.
Lemma wff_unique trs : forall Xs Ys, wff trs Xs -> wff trs Ys -> Xs = Ys.
Proof.
  induction trs as [|t trs IH]; intros Xs Ys H1 H2; inversion H1; inversion H2; subst; auto.
  f_equal; [eapply wf_unique; eauto|apply IH; auto].
Qed.

Lemma uforest_unnamed ts ss : uforest_of nts class ts ss -> uforest_of nts class ts (map unnamed ss).
Proof.
  assert (H : forall t s, utree_of nts class t s -> utree_of nts class t (unnamed s)).
  { intros t s H. induction H; cbn; auto; try (econstructor; eauto; fail). }
  induction ts as [|t ts IH] in ss |- *; intro Hf; inversion Hf; subst; cbn; constructor; auto.
Qed.

Lemma uforest_app a b sa sb : uforest_of nts class a sa -> uforest_of nts class b sb -> uforest_of nts class (a ++ b) (sa ++ sb).
Proof. induction a as [|t a IH] in sa |- *; intros H1 H2; inversion H1; subst; cbn; [auto|constructor; auto]. Qed.

Lemma uyields_lt (ts : list (utree rval)) : yields (map lt ts) = flat_map uyield ts.
Proof. unfold yields. induction ts as [|t ts IH]; cbn; [reflexivity|]. rewrite yield_ltree, IH. reflexivity. Qed.

Lemma sym_list_fun ss ss' Xs : Forall2 sym_rel ss Xs -> Forall2 sym_rel ss' Xs -> map unnamed ss = map unnamed ss'.
Proof.
  intro H. revert ss'. induction H as [|s X ss Xs H1 H2 IH]; intros ss' H; inversion H; subst; cbn; [reflexivity|].
  f_equal; [eapply sym_rel_fun; eauto|auto].
Qed.

Lemma map_unnamed_id ss : Forall (fun s => unnamed s = s) ss -> map unnamed ss = ss.
Proof. induction 1; cbn; congruence. Qed.

(** ** Outcomes, user level *)
Definition user_outcome (nm : string) (it0 : I) (w0 : W) (o : outcome E V W I) (consumed : list rval) (tk : option (rval + E)) : Prop :=
  exists syms forest it1 vs w1,
    feeds next it0 consumed it1 /\ next it1 = (tk, oc_iter o) /\
    uforest_of nts class forest syms /\ flat_map uyield forest = consumed /\
    uevs forest w0 = Some (vs, w1) /\ (exists r, uderives nts [ASNonTerminal nm] (syms ++ r)) /\
    match oc_result o with
    | POk v => tk = None /\ exists tr, utree_of nts class tr (ASNonTerminal nm) /\ uyield tr = consumed /\
                                       uev tr w0 = Some (BVal v, oc_world o)
    | PLexerError er => tk = Some (inr er) /\ oc_world o = w1
    | PParserError found expected => oc_world o = w1 /\
        match tk with
        | None => found = "end-of-input"%string
        | Some (inl tok) => class tok = Some found
        | Some (inr _) => False
        end
    | PPanic UserPanic => oc_world o = w1 /\ exists n p q l kids bs w2, uproduction nts n p = Some q /\
        forest = l ++ kids /\ uforest_of nts class kids (ap_symbols q) /\ uevs kids w2 = Some (bs, w1) /\
        usem (action_expr (ap_action q)) (ubindings (ap_symbols q) bs) w1 = None
    | PPanic NoTokenMatch => oc_world o = w1 /\ exists tok, tk = Some (inl tok) /\ class tok = None
    | PPanic _ => False
    end.

(** Sentential forms of an entry point *)
Lemma entry_derives N i Xs : In (N, i) (slots 0 nts) -> an_pub N = true -> derives g [NT (S i)] Xs ->
  Xs = [NT (S i)] \/ derives g [NT i] Xs.
Proof.
  intros HN Hp H. inversion H as [|a b c Hs Hd]; subst; auto. right.
  inversion Hs as [l n p q r Hq Heq]; subst. destruct l as [|x l]; [|destruct l; discriminate].
  cbn in Heq. inversion Heq; subst. cbn in Hd. rewrite app_nil_r in Hd.
  unfold get_production in Hq. rewrite (entry_nt nts cs ti g Hlow N i HN Hp) in Hq. cbn in Hq.
  destruct p as [|[|p]]; cbn in Hq; try discriminate. inversion Hq; subst. exact Hd.
Qed.

Lemma body_rel N i : In (N, i) (slots 0 nts) -> sym_rel (ASNonTerminal (an_name N)) (NT i).
Proof. intro H. unfold LowerTrees.sym_rel. cbn. exists i. split; auto. apply (slot_index nts Hnames); auto. Qed.

(** Symbols of a prefix of a sentential form. *)
Lemma sentential_up N i Xs r : In (N, i) (slots 0 nts) -> an_pub N = true -> derives g [NT (S i)] (Xs ++ r) ->
  (forall n, In (NT n) Xs -> is_private g n) ->
  exists ss, Forall2 sym_rel ss Xs /\ Forall (fun s => unnamed s = s) ss /\
    exists r', uderives nts [ASNonTerminal (an_name N)] (ss ++ r').
Proof.
  intros HN Hp Hd Hpr. destruct (entry_derives _ _ _ HN Hp Hd) as [E1|Hd'].
  - destruct Xs as [|X Xs].
    + exists []. split; [constructor|]. split; [constructor|]. exists [ASNonTerminal (an_name N)]. constructor.
    + exfalso. inversion E1; subst. assert (HP : is_public g (S i)).
      { eexists. split; [eapply entry_nt; eauto|reflexivity]. }
      eapply public_private_excl; [exact HP|]. apply Hpr. left; auto.
  - destruct (derives_up nts cs ti g Hlow Hnames _ _ Hd' [ASNonTerminal (an_name N)]) as (ss & H1 & H2 & H3).
    + constructor; [apply body_rel; auto|constructor].
    + constructor; [reflexivity|constructor].
    + apply Forall2_app_inv_r in H2. destruct H2 as (s1 & s2 & H2 & _ & ->). apply Forall_app in H3. destruct H3 as [H3 _].
      exists s1. split; auto. split; auto. exists s2; auto.
Qed.

Variable it0 : I.
Variable w0 : W.

Theorem outcome_up N i nm o consumed tk : In (N, i) (slots 0 nts) -> an_pub N = true -> nm = an_name N ->
  outcome_spec g env (S i) it0 w0 o consumed tk -> user_outcome nm it0 w0 o consumed tk.
Proof.
  intros HN Hpub Hnm (pi & forest & it1 & vs & w1 & H1 & H2 & H3 & H4 & H5 & (r & H6) & H7 & H8).
  destruct (sentential_up N i pi r HN Hpub H6 H7) as (ss & Hss & Hun & Hr).
  destruct (u_forest_up _ _ _ H3 Hss) as (ts & Hts & Hlt).
  rewrite Hnm. subst forest.
  rewrite uyields_lt in H4. rewrite (u_evals _ _ _ _ Hts Hss) in H5.
  destruct (oc_result o) as [v|er|found expected|p] eqn:Er.
  - exists ss, ts, it1, vs, w1. repeat (split; [assumption|]). rewrite Er.
    destruct H8 as (-> & tr & Hw & Hy & He). split; auto.
    destruct (entry_up nts cs ti g Hlow Hnames _ class env_class N i tr HN Hpub Hw) as (t & Ht & ->).
    destruct (entry_down nts cs ti g Hlow Hnames _ class env_class (tok_fields env) usem N i t HN Hpub Ht) as (_ & Hy' & He').
    exists t. split; auto. split; [congruence|]. cbn in He. cbn in He'. rewrite He' in He.
    rewrite <- He. symmetry. apply ueval_ext. exact env_fields.
  - exists ss, ts, it1, vs, w1. repeat (split; [assumption|]). rewrite Er. exact H8.
  - exists ss, ts, it1, vs, w1. repeat (split; [assumption|]). rewrite Er.
    destruct H8 as (Hw & la & Hla & Htn). split; auto. destruct Hla as [|tok t Hc]; cbn in Htn; auto.
    rewrite env_class, Hc. rewrite (lo_terms _ _ _ _ Hlow) in Htn. exact Htn.
  - destruct p; try contradiction.
    + destruct H8 as (Hw & tok & -> & Hc). exists ss, ts, it1, vs, w1.
      repeat (split; [assumption|]). rewrite Er. split; auto. exists tok. split; auto. rewrite env_class, Hc. reflexivity.
    + destruct H8 as (Hw & n & p & q & l & kids & bs & w2 & Hq & Hsp & Hk & Hek & Hsem).
      rewrite Hsp in H3.
      assert (Hpi : exists Xl, pi = Xl ++ rhs q /\ wff l Xl).
      { apply wf_forest_Forall2 in H3. apply Forall2_app_inv_l in H3. destruct H3 as (Xl & Xk & F1 & F2 & ->).
        apply wf_forest_Forall2 in F1, F2. exists Xl. split; auto. f_equal. eapply wff_unique; eauto. }
      destruct Hpi as (Xl & -> & Hl).
      destruct (get_production_inv nts cs ti g Hlow _ _ _ Hq) as [(M & j & HM & HMp & -> & -> & ->)|(M & j & HM & -> & Hadd)].
      * (* the entry production's own expression cannot panic *)
        exfalso. cbn in Hk. inversion Hk as [|k kr X Xr Hk1 Hk2]; subst. inversion Hk2; subst.
        destruct (u_tree_up _ _ _ Hk1 (body_rel _ _ HM)) as (t & Ht & Hlt). subst k.
        unfold eval_forest in Hek. cbn in Hek.
        rewrite (u_eval _ _ _ _ Ht (body_rel _ _ HM)) in Hek. destruct (uev t w2) as [[b w3]|] eqn:Eu; [|discriminate].
        destruct (nt_value nts class fields usem (an_name M) t w2 b w3 Eu Ht) as (x & ->).
        inversion Hek; subst. cbn in Hsem. discriminate.
      * rename j into n. assert (Hni : map_get String.eqb (an_name M) ni = Some n) by (apply (slot_index nts Hnames); auto).
        destruct (production_up nts cs ti g Hlow Hnames _ _ _ _ Hni Hq) as (up & Hup & Hlp).
        destruct (lprod_rhs nts cs ti g Hlow _ _ Hlp) as (_ & Hact & Hsyms).
        assert (Hsr : Forall2 sym_rel (ap_symbols up) (rhs q)) by (apply Forall2_rhs; auto).
        destruct (u_forest_up _ _ _ Hk Hsr) as (uk & Huk & Hluk).
        apply Forall2_app_inv_r in Hss. destruct Hss as (sl & sk & Hsl & Hsk & ->).
        apply Forall_app in Hun. destruct Hun as [Hun1 Hun2].
        destruct (u_forest_up _ _ _ Hl Hsl) as (ul & Hul & Hlul).
        assert (Hsk' : sk = map unnamed (ap_symbols up)) by (rewrite <- (map_unnamed_id sk Hun2); eapply sym_list_fun; eauto).
        exists (sl ++ sk), (ul ++ uk), it1, vs, w1. rewrite Er.
        assert (Hf : uforest_of nts class (ul ++ uk) (sl ++ sk)).
        { apply uforest_app; auto. rewrite Hsk'. apply uforest_unnamed; auto. }
        assert (Hm : map lt (ul ++ uk) = map lt ts) by (rewrite map_app; congruence).
        split; auto. split; auto. split; auto. split.
        { rewrite <- H4. rewrite <- !uyields_lt. congruence. }
        split.
        { rewrite <- H5. rewrite <- (u_evals _ _ (Xl ++ rhs q) _ Hf), <- (u_evals _ _ (Xl ++ rhs q) _ Hts), Hm; auto; apply Forall2_app; auto. }
        split; auto. split; auto. exists (an_name M), p, up, ul, uk, bs, w2. repeat (split; [assumption||reflexivity|]).
        split.
        { rewrite <- (u_evals _ _ _ _ Huk Hsr), Hluk. exact Hek. }
        rewrite Hact in Hsem. cbn [lsem e_sem user_env] in Hsem. rewrite <- (bindings_ub nts cs _ _ Hsyms). exact Hsem.
Qed.
End User.
