(** * UserPrefix: viable prefixes and error reports, in terms of the user's grammar *)
From Verif Require Export PropProofs RunPrefix.

Section UDerives.
Context {A : Type}.
Variable nts : list (ast_non_terminal A).
Notation ud := (uderives nts).

Lemma uderives_trans a b c : ud a b -> ud b c -> ud a c.
Proof. induction 1; intros; auto. econstructor; eauto. Qed.
Lemma udstep_ctx l r a b : udstep nts a b -> udstep nts (l ++ a ++ r) (l ++ b ++ r).
Proof.
  destruct 1 as [l' nt p pr r' Hp].
  replace (l ++ (l' ++ ASNonTerminal nt :: r') ++ r) with ((l ++ l') ++ ASNonTerminal nt :: (r' ++ r)) by (rewrite <- !app_assoc; reflexivity).
  replace (l ++ (l' ++ map unnamed (ap_symbols pr) ++ r') ++ r) with ((l ++ l') ++ map unnamed (ap_symbols pr) ++ (r' ++ r)) by (rewrite <- !app_assoc; reflexivity).
  econstructor; eauto.
Qed.
Lemma uderives_ctx l r a b : ud a b -> ud (l ++ a ++ r) (l ++ b ++ r).
Proof. induction 1; [constructor|]. econstructor; eauto. apply udstep_ctx; auto. Qed.
Lemma uderives_app a b c d : ud a b -> ud c d -> ud (a ++ c) (b ++ d).
Proof.
  intros H1 H2. eapply uderives_trans.
  - apply (uderives_ctx [] c) in H1. exact H1.
  - apply (uderives_ctx b []) in H2. rewrite !app_nil_r in H2. exact H2.
Qed.
End UDerives.

Section UserPrefix.
Context {A : Type}.
Variable items : list (grammar_item A).
Notation nts := (declared_nts items).
Notation cs := (token_entries items).
Hypothesis Hnames : distinct_names items.
Variable ti : list (string * nat).
Variable g : grammar (lexpr A).
Hypothesis Hlow : lowered nts cs ti g.
Notation ni := (nt_indices_of nts).
Notation sym_rel := (sym_rel nts cs).
Notation plain ss := (Forall (fun s => unnamed s = s) ss).
Notation tname t s := (nth_error (map cv_from cs) t = Some s).

Lemma terminals_up cw : forall ss, Forall2 sym_rel ss (map T cw) -> plain ss ->
  exists ws, ss = map ASTerminal ws /\ Forall2 (fun t s => tname t s) cw ws.
Proof.
  induction cw as [|t cw IH]; intros ss H Hp; inversion H as [|s X l Xs H1 H2]; subst.
  - exists []. split; constructor.
  - inversion Hp as [|? ? P1 P2]; subst. destruct (plain_eq items s _ P1 H1) as (nm & -> & Hn).
    destruct (IH _ H2 P2) as (ws & -> & Hws). exists (nm :: ws). split; auto.
Qed.
Lemma terminals_down ws cw : Forall2 (fun t s => tname t s) cw ws -> Forall2 sym_rel (map ASTerminal ws) (map T cw).
Proof. induction 1; cbn; constructor; auto. exists x. auto. Qed.

Lemma plain_productive (Hall : all_productive nts) : forall ss Xs, Forall2 sym_rel ss Xs -> plain ss -> exists w, uderives nts ss (map ASTerminal w).
Proof.
  induction 1 as [|s X ss Xs H1 H2 IH]; intro Hp.
  - exists []. constructor.
  - inversion Hp as [|? ? P1 P2]; subst. destruct (IH P2) as (w & Hw). pose proof (plain_eq items s X P1 H1) as Hs.
    destruct X as [t|n]; destruct Hs as (nm & -> & Hn).
    + destruct (nt_indices_inv _ _ _ Hn) as (N & HN & <-).
      destruct (Hall N ltac:(eapply slots_In; eauto)) as (w1 & Hw1).
      exists (w1 ++ w). rewrite map_app. apply (uderives_app nts [ASNonTerminal (an_name N)]); auto.
    + exists (nm :: w). cbn. apply (uderives_app nts [ASTerminal nm] [ASTerminal nm]); auto. constructor.
Qed.

Section Entry.
Variable N : ast_non_terminal A.
Variable i : nat.
Hypothesis HN : In (N, i) (slots 0 nts).
Hypothesis Hpub : an_pub N = true.

Lemma entry_step_down Xs : derives g [NT i] Xs -> derives g [NT (S i)] Xs.
Proof.
  intro H. eapply derives_trans; [|exact H].
  pose proof (entry_nt nts cs ti g Hlow N i HN Hpub) as He.
  apply (derives_prod g (S i) 0 (entry_production i)). unfold get_production. rewrite He. reflexivity.
Qed.

Lemma up_prefix (Hall : all_productive nts) cw r : derives g [NT (S i)] (map T cw ++ r) ->
  exists ws, Forall2 (fun t s => tname t s) cw ws /\ string_prefix nts (an_name N) ws.
Proof.
  intro H. destruct (entry_derives items ti g Hlow N i _ HN Hpub H) as [E1|Hd].
  - destruct cw as [|t cw]; [|discriminate]. exists []. split; [constructor|].
    destruct (Hall N ltac:(eapply slots_In; eauto)) as (w & Hw). exists w. exact Hw.
  - destruct (derives_up nts cs ti g Hlow Hnames _ _ Hd [ASNonTerminal (an_name N)]) as (ss & H1 & H2 & H3).
    + constructor; [eapply body_rel; eauto|constructor].
    + constructor; [reflexivity|constructor].
    + apply Forall2_app_inv_r in H2. destruct H2 as (s1 & s2 & F1 & F2 & ->). apply Forall_app in H3. destruct H3 as [P1 P2].
      destruct (terminals_up _ _ F1 P1) as (ws & -> & Hws). destruct (plain_productive Hall _ _ F2 P2) as (w & Hw).
      exists ws. split; auto. exists w. rewrite map_app. eapply uderives_trans; [exact H1|].
      apply uderives_app; auto. constructor.
Qed.

Lemma down_prefix cw ws : Forall2 (fun t s => tname t s) cw ws -> string_prefix nts (an_name N) ws ->
  exists rest, derives g [NT (S i)] (map T (cw ++ rest)).
Proof.
  intros Hf (post & Hd).
  destruct (derives_down items Hnames ti g Hlow _ _ Hd [NT i]) as (Ys & D & F).
  { constructor; [eapply body_rel; eauto|constructor]. }
  assert (HY : exists w', Ys = map T w' /\ Forall2 (fun t s => tname t s) w' (ws ++ post)).
  { clear - F. revert Ys F. generalize (ws ++ post). induction l as [|t w IH]; intros Ys HY; inversion HY as [|s Y ss Ys' H1 H2]; subst.
    - exists []; split; constructor.
    - destruct (IH _ H2) as (w' & -> & Hw'). destruct H1 as (j & Hj & ->). exists (j :: w'); split; auto. }
  destruct HY as (w' & -> & Hw'). apply Forall2_app_inv_r in Hw'. destruct Hw' as (c' & rest & H1 & H2 & ->).
  assert (c' = cw).
  { clear -Hf H1 Hlow. revert c' H1. induction Hf as [|t s cw ws Ht Hf IH]; intros c' H1; inversion H1; subst; auto.
    f_equal; [eapply terminal_unique; eauto|auto]. }
  subst c'. exists rest. apply entry_step_down. exact D.
Qed.
End Entry.

Lemma all_productive_tails : all_productive nts -> tails_productive nts.
Proof.
  intros H m (n & p & pr & X & l & Hp & Hb & Hin).
  assert (Hfind : exists M, In M nts /\ an_name M = n /\ nth_error (an_productions M) p = Some pr).
  { unfold uproduction in Hp. destruct (find _ nts) as [M|] eqn:Ef; [|discriminate]. apply find_some in Ef.
    destruct Ef as [E1 E2]. apply String.eqb_eq in E2. eauto. }
  destruct Hfind as (M & HM & Hnm & Hnth).
  assert (Hslot : exists j, In (M, j) (slots 0 nts)).
  { clear -HM. revert HM. generalize 0. induction nts as [|M0 l IH]; intros k H; [contradiction|].
    destruct H as [<-|H]; [eexists; left; reflexivity|]. destruct (IH (k + width M0) H) as (j & Hj). exists j. right; exact Hj. }
  destruct Hslot as (j & Hj).
  assert (Hni : map_get String.eqb n ni = Some j) by (subst n; apply (slot_index nts Hnames); auto).
  destruct (production_down nts cs ti g Hlow Hnames _ _ _ _ Hni Hp) as (q & Hq & Hl).
  pose proof (body_rel_rhs items ti g Hlow _ _ Hl) as Hr. rewrite Hb in Hr. inversion Hr as [|s Y ss Ys H1 H2 E1 E2]; subst.
  apply in_split in Hin. destruct Hin as (a & b & ->). apply Forall2_app_inv_l in H2. destruct H2 as (Ya & Yb & _ & F2 & _).
  inversion F2 as [|s2 Y2 sr Yr F3 F4]; subst. destruct F3 as (k & Hk & _).
  destruct (nt_indices_inv _ _ _ Hk) as (K & HK & <-). apply H. eapply slots_In; eauto.
Qed.

Lemma plain_productive_reliable : tails_plain nts -> all_productive nts -> tails_reliable nts.
Proof. intros H1 H2. split; [apply all_productive_tails; auto|auto]. Qed.
End UserPrefix.

Section CorrectPrefix.
Context {A : Type}.
Variable items : list (grammar_item A).
Notation nts := (declared_nts items).
Notation cs := (token_entries items).
Hypothesis Hnames : distinct_names items.
Hypothesis Hplain : plain_patterns items.
Variable gp : generated (lexpr A).
Hypothesis Hexp : expands items gp.
Notation class := (token_class cs).
Context {E V W I : Type}.
Variable inj : rval -> V.
Variable usem : A -> list (string * bval V) -> W -> option (V * W).
Variable next : I -> option (rval + E) * I.
Variable pr : parser_struct.
Hypothesis Hpr : In pr (gp_parsers gp).
Variable it0 : I.
Variable w0 : W.
Hypothesis Hlr : ulr1_grammar nts.
Hypothesis Htp : tails_plain nts.
Hypothesis Hall : all_productive nts.
Notation cl := (@Some nat).
Notation tname t s := (nth_error (map cv_from cs) t = Some s).

Theorem correct_prefix_with o evs : returns_with gp inj usem next pr it0 w0 o evs -> exists toks r,
  nexts_of evs = map (fun t => Some (inl t)) toks ++ [r] /\
  feeds_then next it0 toks r (oc_iter o) /\
  sentence_prefix nts class (pr_name pr) toks /\
  forall found expected, oc_result o = PParserError found expected ->
    match r with
    | None => found = "end-of-input"%string /\ ~ sentence nts class (pr_name pr) toks
    | Some (inl tok) => class tok = Some found /\ ~ sentence_prefix nts class (pr_name pr) (toks ++ [tok])
    | Some (inr _) => False
    end /\
    exists listed, expected = listing items listed /\
      forall s, In s (map cv_from cs) -> (listed s = true <->
        exists w, Forall2 (fun tok s => class tok = Some s) toks w /\ string_prefix nts (pr_name pr) (w ++ [s])).
Proof.
  intro H.
  destruct (run_data items Hnames Hplain gp Hexp inj usem next pr Hpr it0 w0 o evs H) as (ho & fl & Hho & ti & g & tbl & states & entries & act & N & i & e & n & st & c & b & H1 & H2 & H3 & H4 & H5 & HN & Hpub & Hnm & Hpf & Htr & Hst & Hu & Q1 & Q2 & Q3 & Q4).
  pose proof (env_tokens_ok items Hplain gp ti g tbl states entries act H1 H3 inj usem next) as Htok.
  pose proof (gn_aut _ _ _ _ _ _ _ H3) as Haut. pose proof (gn_act _ _ _ _ _ _ _ H3) as Hact.
  assert (Hent : In (S i, e) entries) by (eapply Hentry; eauto).
  pose proof (tails_plain_complete items Hnames ti g H1 ho Hho fl tbl H4 Htp) as Hcomp.
  pose proof (first_table_sound g ho (hok_terms ho Hho) fl tbl H4) as Hsound.
  assert (Hno : no_override g states act) by (eapply lr1_no_override; eauto; eapply lr1_up; eauto).
  assert (Hrel : tails_reliable nts) by (eapply plain_productive_reliable; eauto).
  pose proof (reliable_inhabited items Hnames ti g H1 ho Hho fl tbl H4 Hrel) as Hinh.
  destruct (trace_inv g H2 cs tbl states entries act gp H3 pr (S i) e Hpf _ Htok it0 w0 _ _ _ _ Htr) as (pi & ts & Hi).
  assert (Hcl : forall toks cw, classes (e_tok_idx (user_env gp inj usem next)) toks cw -> forall ws, Forall2 (fun t s => tname t s) cw ws -> Forall2 (fun tok s => class tok = Some s) toks ws).
  { induction 1 as [|tok t toks cw Ht Hc IH]; intros ws Hws; inversion Hws; subst; constructor; auto.
    rewrite (env_class items gp g tbl states entries act H3 inj usem next), Ht. assumption. }
  assert (Hcl' : forall toks ws, Forall2 (fun tok s => class tok = Some s) toks ws -> exists cw, classes (e_tok_idx (user_env gp inj usem next)) toks cw /\ Forall2 (fun t s => tname t s) cw ws).
  { induction 1 as [|tok s toks ws Hs Hf IH]; [exists []; split; constructor|]. destruct IH as (cw & C1 & C2).
    rewrite (env_class items gp g tbl states entries act H3 inj usem next) in Hs.
    destruct (e_tok_idx (user_env gp inj usem next) tok) as [t|] eqn:Et; [|discriminate].
    exists (t :: cw). split; constructor; auto. }
  (* the stack derives the consumed tokens *)
  destruct (proj2 (tree_derives g (e_tok_idx (user_env gp inj usem next))) _ _ (in_wf _ _ _ _ _ _ _ _ _ _ Hi)) as (cw & Hcw & Hdw).
  rewrite (in_yield _ _ _ _ _ _ _ _ _ _ Hi) in Hcw.
  assert (Hpre : exists r, derives g [NT (S i)] (rev pi ++ r)).
  { eapply (viable_prefix g H2 tbl states entries Haut (S i) e Hent). eapply in_path; eauto. }
  assert (Hup : forall z, derives g [NT (S i)] (rev pi ++ z) -> derives g [NT (S i)] (map T cw ++ z)).
  { intros z Hz. eapply derives_trans; [exact Hz|]. apply derives_app; [exact Hdw|constructor]. }
  exists c, (ps_token st). pose proof Hu as (syms & forest & it1 & vs & w1 & F & Nx & _). rewrite Hnm.
  split; [exact Q1|]. split; [exists it1; auto|]. split.
  { destruct Hpre as (z & Hz). destruct (up_prefix items Hnames ti g H1 N i HN Hpub Hall cw z (Hup _ Hz)) as (ws & Hws & Hsp).
    exists ws. split; auto. eapply Hcl; eauto. }
  intros found expected Hx.
  destruct (parser_error_state g H2 cs tbl states entries act gp H3 pr (S i) e Hpf _ Htok it0 w0 Hinh _ _ _ _ _ _ _ Htr Hst Hx)
    as (-> & la & s & ss & Hss & Hla & Ha & Hfd & Hex & Hoo).
  assert (Hlisted : forall rest la, derives g [NT (S i)] (map T (cw ++ rest)) -> peek cl rest la -> act s la <> None).
  { intros rest la0 Hd Hpk. eapply (continuation_listed g H2 cs tbl states entries act gp H3 pr (S i) e Hpf _ Htok it0 w0 Hcomp Hno); eauto. }
  assert (Hterm : g_terminals g = map cv_from cs) by (apply (lo_terms _ _ _ _ H1)).
  assert (Hnd : NoDup (map cv_from cs)) by (apply (ti_dup _ _ _ (lo_ti _ _ _ _ H1))).
  assert (Hdn : forall toks' ws t x, Forall2 (fun tok s => class tok = Some s) c ws -> toks' = ws ++ [x] -> tname t x ->
     string_prefix nts (an_name N) toks' -> act s (Some t) <> None).
  { intros toks' ws t x Hws -> Ht Hsp. destruct (Hcl' _ _ Hws) as (cw' & C1 & C2).
    assert (cw' = cw) by (eapply classes_fun; eauto). subst cw'.
    assert (Hf2 : Forall2 (fun t s => tname t s) (cw ++ [t]) (ws ++ [x])) by (apply Forall2_app; auto).
    destruct (down_prefix items Hnames ti g H1 N i HN Hpub _ _ Hf2 Hsp) as (rest & Hd). rewrite <- app_assoc in Hd.
    apply (Hlisted ([t] ++ rest) (Some t) Hd). constructor; reflexivity. }
  split.
  - inversion Hla as [Hx1|tok t Hc Hx1]; subst la.
    + (* end of input *) split.
      { destruct Hu as (? & ? & ? & ? & ? & _ & _ & _ & _ & _ & _ & Hm). rewrite Hx, <- Hx1 in Hm. apply Hm. }
      intros (t & Ht & Hy).
      destruct (entry_down nts cs ti g H1 Hnames _ class (env_class items gp g tbl states entries act H3 inj usem next) (tok_fields (user_env gp inj usem next)) usem N i t HN Hpub Ht) as (Hw & Hy' & _).
      destruct (proj1 (tree_derives g _) _ _ Hw) as (cw' & C1 & D1). rewrite Hy', Hy in C1.
      assert (cw' = cw) by (eapply classes_fun; eauto). subst cw'.
      apply (Hlisted [] None); [rewrite app_nil_r; exact D1|constructor|exact Ha].
    + split.
      { rewrite (env_class items gp g tbl states entries act H3 inj usem next), Hc. cbn in Hfd. rewrite Hterm in Hfd. exact Hfd. }
      intros (ws & Hws & Hsp). apply Forall2_app_inv_l in Hws. destruct Hws as (w1' & w2' & G1 & G2 & ->).
      inversion G2 as [|? x ? rr Hx2 Hrr]; subst. inversion Hrr; subst.
      rewrite (env_class items gp g tbl states entries act H3 inj usem next), Hc in Hx2.
      eapply Hdn; eauto.
  - assert (Hby : forall i0 s0, nth_error (map cv_from cs) i0 = Some s0 -> shiftable act s i0 = by_name items (shiftable act s) s0).
    { intros i0 s0 Hi0. unfold by_name. rewrite (index_of_nth items _ _ Hnd Hi0). reflexivity. }
    exists (by_name items (shiftable act s)). split.
    + rewrite Hex, err_expected_filter, Hterm. unfold listing, join. f_equal. apply filter_enumerate. exact Hby.
    + intros x Hin. apply In_nth_error in Hin. destruct Hin as (t & Ht). rewrite <- (Hby _ _ Ht). unfold shiftable.
      split.
      * intro Hsome. assert (Hne : act s (Some t) <> None) by (destruct (act s (Some t)); congruence).
        pose proof (in_path _ _ _ _ _ _ _ _ _ _ Hi) as Hp. rewrite Hss in Hp.
        destruct (listed_continuation g H2 tbl states entries Haut Hsound (S i) e Hent act Hact _ _ _ _ Hp Hne) as (z & Hz & z' & ->).
        pose proof (Hup _ Hz) as Hz'.
        assert (Hz2 : derives g [NT (S i)] (map T (cw ++ [t]) ++ z')) by (rewrite map_app, <- app_assoc; exact Hz').
        destruct (up_prefix items Hnames ti g H1 N i HN Hpub Hall _ _ Hz2) as (ws & Hws & Hsp).
        apply Forall2_app_inv_l in Hws. destruct Hws as (w1' & w2' & G1 & G2 & ->).
        inversion G2 as [|? y ? rr Hy Hrr]; subst. inversion Hrr; subst. assert (y = x) by congruence. subst y.
        exists w1'. split; auto. eapply Hcl; eauto.
      * intros (ws & Hws & Hsp). destruct (act s (Some t)) eqn:Ea; auto. exfalso. eapply Hdn; eauto.
Qed.
Theorem correct_prefix o : returns gp inj usem next pr it0 w0 o -> exists toks r,
  feeds_then next it0 toks r (oc_iter o) /\
  sentence_prefix nts class (pr_name pr) toks /\
  forall found expected, oc_result o = PParserError found expected ->
    match r with
    | None => found = "end-of-input"%string /\ ~ sentence nts class (pr_name pr) toks
    | Some (inl tok) => class tok = Some found /\ ~ sentence_prefix nts class (pr_name pr) (toks ++ [tok])
    | Some (inr _) => False
    end /\
    exists listed, expected = listing items listed /\
      forall s, In s (map cv_from cs) -> (listed s = true <->
        exists w, Forall2 (fun tok s => class tok = Some s) toks w /\ string_prefix nts (pr_name pr) (w ++ [s])).
Proof.
  intro Hret. destruct (returns_events gp inj usem next pr it0 w0 o Hret) as (evs & H).
  destruct (correct_prefix_with o evs H) as (toks & r & _ & H'). eauto.
Qed.
End CorrectPrefix.
