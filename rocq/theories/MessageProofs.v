(** * MessageProofs: what the conflict panics carry *)
From Verif Require Export MessageSpec ComputedProofs PropertiesGen.

Lemma foldM_panic {X B} (f : B -> X -> res B) l : forall b p, foldM f l b = Panic p ->
  exists l1 x l2 b1, l = l1 ++ x :: l2 /\ foldM f l1 b = Ok b1 /\ f b1 x = Panic p.
Proof.
  induction l as [|x l IH]; intros b p H; cbn in H; [discriminate|].
  destruct (f b x) as [b1|q|] eqn:E; cbn [bind] in H; [|injection H as <-|discriminate].
  - destruct (IH _ _ H) as (l1 & y & l2 & b2 & -> & H1 & H2). exists (x :: l1), y, l2, b2. cbn. rewrite E. auto.
  - exists [], x, l, b. auto.
Qed.

Section TableMessage.
Context {A : Type}.

(** Panic [p] reports that [it] asks for a reduction where [b] already asked for something. *)
Definition conflict_at (g : grammar A) (s : nat) (st : lr1_state) (b it : item) (p : panic) : Prop :=
  (exists n, wants_shift g st b (it_la it) n /\ p = PShiftReduce s (it_la it) n (it_nt it) (it_prod it)) \/
  (wants_reduce g b (it_la it) /\ p = PReduceReduce s (it_la it) (it_nt b) (it_prod b) (it_nt it) (it_prod it)) \/
  (wants_accept g b (it_la it) /\ p = PAcceptReduce s (it_la it) (it_nt it) (it_prod it)).

Definition conflict_in (g : grammar A) (states : list lr1_state) (p : panic) : Prop :=
  exists s st l1 it l2 b, nth_error states s = Some st /\ st_items st = l1 ++ it :: l2 /\ In b l1 /\
    wants_reduce g it (it_la it) /\ conflict_at g s st b it p.

Section OneGrammar.
Variable g : grammar A.
Variable ho : hash_order.
Hypothesis Hho : hash_order_ok ho.

Lemma table_item_panic s st l it tb p : TableProofs.item_ok g it -> state_inv g s st l tb ->
  table_item ho g s st tb it = Panic p ->
  wants_reduce g it (it_la it) /\ exists b, In b l /\ conflict_at g s st b it p.
Proof.
  intros (N & pr & HN & Hpr & Hone) [Hin Hgo].
  destruct (rule_a_spec g s st l it tb Hin) as (tb1 & Ha & Hag & Han & Hao & Has & Hak).
  unfold table_item. rewrite Ha. cbn [bind]. rewrite HN, Hpr.
  destruct (is_complete g it && negb (nt_public N)) eqn:Ered.
  2:{ cbn [bind]. destruct (nt_public N && Nat.eqb (it_cursor it) 1 && match it_la it with None => true | Some _ => false end) eqn:Eacc; cbn [bind]; [|discriminate].
      apply andb_true_iff in Eacc. destruct Eacc as [Eacc _]. apply andb_true_iff in Eacc. destruct Eacc as [Hp _]. rewrite (Hone Hp). discriminate. }
  apply andb_true_iff in Ered. destruct Ered as [Hc Hp]. apply negb_true_iff in Hp. rewrite Hp. cbn [andb].
  assert (Hred : wants_reduce g it (it_la it)) by (split; auto; split; auto; exists N; auto).
  assert (Hg : get_action tb1 s (it_la it) = get_action tb s (it_la it)).
  { apply Hak. intros n (t & _ & H & _). apply next_not_complete in H. congruence. }
  unfold add_reduce. rewrite Hg. destruct (get_action tb s (it_la it)) as [a|] eqn:Ea; cbn [bind]; [|discriminate].
  intro H. split; auto. pose proof (tv_inv _ _ _ _ _ Hin _ _ Ea) as Hi. destruct a as [n|nt q act|]; injection H as <-.
  - destruct Hi as (b & Hb & Hw). exists b. split; auto. left. eauto.
  - destruct Hi as (b & pr' & Hb & Hw & <- & <- & _). exists b. split; auto. right; left. auto.
  - destruct Hi as (b & Hb & Hw). exists b. split; auto. right; right. auto.
Qed.

Lemma build_table_panic states p : TableProofs.states_ok g states -> build_lr1_table ho g states = Panic p -> conflict_in g states p.
Proof.
  intros Hok. unfold build_lr1_table.
  assert (Hgen : forall l, (exists r, states = l ++ r) ->
            foldM (table_state ho g) (enumerate l) (table_new (List.length states)) = Panic p -> conflict_in g states p).
  { induction l as [|st l IH] using rev_ind; intros (r & Hr) H; [discriminate|].
    rewrite enumerate_app, foldM_app in H.
    assert (Hr' : states = l ++ [st] ++ r) by (rewrite Hr, <- app_assoc; auto).
    destruct (build_prefix_spec g ho Hho states Hok l) as (P1 & _ & _); [eauto|].
    destruct (foldM (table_state ho g) (enumerate l) (table_new (List.length states))) as [tb1|q|]; cbn [bind] in H; [|apply IH; eauto|discriminate].
    destruct (P1 _ eq_refl) as (_ & _ & _ & Hfr). specialize (Hfr (List.length l) ltac:(lia)). set (k := List.length l) in *.
    assert (Hst : nth_error states k = Some st) by (unfold k; rewrite Hr', nth_error_app2, Nat.sub_diag by lia; reflexivity).
    clearbody k. destruct (Hok _ _ Hst) as (Hnd & Hits & _).
    cbn [foldM] in H. unfold table_state in H. cbn [fst snd] in H.
    destruct (foldM (table_item ho g k st) (st_items st) tb1) as [tb'|q|] eqn:Hx; cbn [bind] in H; [discriminate| |discriminate].
    injection H as ->.
    destruct (foldM_panic _ _ _ _ Hx) as (m1 & it & m2 & tb2 & Eits & Hpre2 & Hit).
    assert (Hinv0 : state_inv g k st [] tb1).
    { destruct Hfr as [F1 F2]. constructor; [constructor; [intros ? ? ? []|intros ? ? []|intros ? ? []|]|].
      - intros la a Ha. rewrite F1 in Ha. discriminate.
      - auto. }
    destruct (table_items_spec g ho Hho k st Hnd m1 [] tb1) as (T1 & _ & _); auto.
    { apply Forall_forall. intros x Hin. apply Hits. rewrite Eits. apply in_app_iff. auto. }
    destruct (T1 _ Hpre2) as (_ & Hinv & _). cbn [app] in Hinv.
    destruct (table_item_panic k st m1 it tb2 p) as (Hw & b & Hb & Hc); auto.
    { apply Hits. rewrite Eits. apply in_app_iff. right; left; auto. }
    exists k, st, m1, it, m2, b. auto. }
  apply Hgen. exists []. rewrite app_nil_r. auto.
Qed.
End OneGrammar.
End TableMessage.

Lemma generate_panic_conflict {A} ho fuel (g : grammar A) te p : hash_order_ok ho -> wf_grammar g ->
  generate_lr1_parser ho fuel g te = Panic p -> is_conflict p ->
  exists tbl states entries, generate_first_table ho fuel g = Ok tbl /\
    generate_lr1_automaton ho fuel g tbl = Ok (states, entries) /\ conflict_in g states p.
Proof.
  intros Hho Hwf H Hc.
  pose proof (generate_panics_gen ho Hho (fun p => exists tbl states entries, generate_first_table ho fuel g = Ok tbl /\
    generate_lr1_automaton ho fuel g tbl = Ok (states, entries) /\ conflict_in g states p) fuel g te Hwf) as HG.
  assert (HG' : panics (fun p => p = PTryFrom /\ too_big ho fuel g \/ p = PRawName /\ raw_stop te g \/
     exists tbl states entries, generate_first_table ho fuel g = Ok tbl /\
    generate_lr1_automaton ho fuel g tbl = Ok (states, entries) /\ conflict_in g states p) (generate_lr1_parser ho fuel g te)).
  { apply HG. intros tbl states entries fns g' Ht Ha Hs q Hq. exists tbl, states, entries. split; auto. split; auto.
    pose proof (generate_lr1_automaton_ok g tbl ho Hho Hwf _ _ _ Ha) as Haut.
    pose proof (generate_semantic_action_table_spec _ _ _ _ Hs) as Hgo.
    pose proof (automaton_states_ok _ _ _ _ _ _ _ Hwf Hgo Haut) as Hso.
    destruct (build_table_panic g' ho Hho states q Hso Hq) as (s & st & l1 & it & l2 & b & H1 & H2 & H3 & H4 & H5).
    exists s, st, l1, it, l2, b. split; auto. split; auto. split; auto. split; [eapply tr_wants_reduce; eauto|].
    destruct H5 as [(n & (t & E1 & E2 & E3) & ->)|[(Hr & ->)|((W1 & W2 & W3 & W4) & ->)]].
    - left. exists n. split; auto. exists t. split; auto. split; auto. rewrite <- E2. symmetry. eapply tr_next_symbol; eauto.
    - right; left. split; auto. eapply tr_wants_reduce; eauto.
    - right; right. split; auto. split; [eapply tr_public; eauto|auto]. }
  destruct (HG' p H) as [(-> & _)|[(-> & _)|HC]]; try contradiction; auto.
Qed.

Lemma str_assoc (a b c : string) : ((a ++ b) ++ c = a ++ (b ++ c))%string.
Proof. induction a as [|x a IH]; cbn [append]; [reflexivity|rewrite IH; reflexivity]. Qed.

Section Explain.
Context {A : Type}.
Variable items : list (grammar_item A).
Notation nts := (declared_nts items).
Notation cs := (token_entries items).
Notation names := (map cv_from cs).
Hypothesis Hnames : distinct_names items.
Variable ti : list (string * nat).
Variable g : grammar (lexpr A).
Hypothesis Hlow : lowered nts cs ti g.
Variable tbl : first_table.
Variable states : list lr1_state.
Variable entries : list (nat * nat).
Hypothesis Hstages : stages items g tbl states entries.
Hypothesis Haut : automaton_ok g tbl states entries.
Variables (gf : list symbol -> option nat -> option nat -> Prop) (uf : list ast_symbol -> option string -> option string -> Prop).
Hypothesis Hlu : lookahead_up items g tbl gf uf.
Let Hwf : wf_grammar g := lowered_wf _ _ _ _ Hlow.

Lemma symbol_index_of s X : unnamed s = s -> sym_rel nts cs s X -> symbol_index items s X.
Proof.
  intros Hu Hr. pose proof (plain_eq items s X Hu Hr) as H. destruct X as [i|i]; destruct H as (x & -> & H); cbn; auto.
  apply lowered_index_iff; auto.
Qed.

Lemma conflict_explained p msg : conflict_in g states p -> panic_message names p = Some msg ->
  exists N gamma, In N nts /\ an_pub N = true /\ conflict_message items uf (an_name N) gamma msg.
Proof.
  intros (s & st & l1 & it & l2 & b & Hst & Heq & Hb & (Hc & Hpriv & _) & Hcf) Hmsg.
  destruct (ao_reach _ _ _ _ Haut s) as (nt & e & pi & ss & Hen & Hp); [apply nth_error_Some; congruence|].
  destruct (ao_entry _ _ _ _ Haut _ _ Hen) as ((M & HM & HMp) & _).
  assert (Hv : forall it', In it' (st_items st) -> ivb g gf nt (rev pi) it').
  { destruct (valid_items g tbl states entries Haut nt e Hen _ _ Hp) as (s' & ss' & st' & E & Hst' & _ & Hi).
    inversion E; subst s' ss'. assert (st' = st) by congruence. subst st'.
    intros it' Hit. apply Hi in Hit. destruct Hit as (d & Hvd). eapply b_sound; eauto. }
  assert (HS : is_public g nt) by (exists M; auto).
  assert (HE : is_entry g nt) by (exists M; auto).
  destruct (public_inv nts cs ti g Hlow _ _ HM HMp) as (N & i & HN & Hpub & -> & HNm & _).
  assert (HNin : In N nts) by (eapply slots_In; eauto).
  assert (Hit : In it (st_items st)) by (rewrite Heq; apply in_app_iff; right; left; auto).
  assert (Hb' : In b (st_items st)) by (rewrite Heq; apply in_app_iff; left; auto).
  assert (Hlt : item_lt b it).
  { eapply sorted_split; [|exact Hb]. rewrite <- Heq. eapply ao_sorted; eauto. }
  set (gamma := rev pi) in *.
  destruct (ivb_prod items ti g Hlow gf _ _ _ HE (Hv _ Hit)) as (pr & Hpr).
  destruct (ivb_prod items ti g Hlow gf _ _ _ HE (Hv _ Hb')) as (pb & Hpb).
  pose proof (b_complete_reduces g gf _ _ _ _ (Hv _ Hit) Hpr Hc) as Hr.
  destruct (b_reduces_up items Hnames ti g Hlow tbl gf uf Hlu N i HN Hpub _ _ _ _ Hr) as (g1 & a & la1 & A1 & A2 & A3 & A4 & A5).
  destruct (lhs_private items g _ _ _ A3 Hpriv HS) as (an & ->).
  assert (Hsame : forall n p la', reduces_by g gf (S i) gamma n p la' -> forall lhs, lhs_rel items i lhs n -> forall x, la_rel items x la' ->
            ureduces_by nts uf (an_name N) g1 lhs p x).
  { intros n q la' H lhs Hl x Hx.
    destruct (b_reduces_up items Hnames ti g Hlow tbl gf uf Hlu N i HN Hpub _ _ _ _ H) as (g2 & b2 & la2 & B1 & B2 & B3 & B4 & B5).
    rewrite (plain_fun items gamma g1 g2 A1 B1 A2 B2). rewrite (lhs_rel_fun items ti g Hlow N i HN Hpub _ _ _ Hl B3).
    rewrite (la_rel_fun items _ _ _ Hx B4). exact B5. }
  assert (Hidx : Forall2 (symbol_index items) g1 gamma).
  { clear - A1 A2 Hnames. clearbody gamma. induction A1 as [|x y l l' H1 H2 IH]; constructor; inversion A2; subst; auto.
    apply symbol_index_of; auto. }
  assert (Hfol : follow states e gamma = Some s).
  { apply follow_path. exists ss. unfold gamma. rewrite rev_involutive. exact Hp. }
  assert (Hsa : state_after items (an_name N) g1 s).
  { exists g, tbl, states, entries, (S i), M, e, gamma. repeat (split; [assumption|]). exact Hfol. }
  assert (Hra : reduction items an (it_prod it) ("Reduce(" ++ decimal (it_nt it) ++ ", " ++ decimal (it_prod it) ++ ")")%string%string).
  { constructor. apply lowered_index_iff; auto. }
  exists N, g1. split; auto. split; auto.
  destruct Hcf as [(n & (t & Ela & Hn & Hgo) & ->)|[((Hcb & Hpb' & Hlb) & ->)|((Hpubb & Hcb & Hlab & Hlb) & ->)]].
  - destruct (b_valid_up items Hnames ti g Hlow tbl gf uf Hlu N i HN Hpub _ _ _ _ _ (Hv _ Hb')) as (g2 & bl & la2 & B1 & B2 & B3 & B4 & B5).
    pose proof (plain_fun items gamma g1 g2 A1 B1 A2 B2). subst g2.
    destruct (urhs_up items Hnames ti g Hlow N i HN Hpub _ _ _ _ B3 Hpb) as (l & L1 & L2 & L3).
    assert (Hk : nth_error (rhs pb) (it_cursor b) = Some (T t)).
    { destruct (next_symbol_production g _ _ Hn) as (q & Hq & Hk). congruence. }
    destruct (Forall2_nth _ _ _ _ _ L2 Hk) as (sy & Hsy & Hsr).
    assert (Hsu : unnamed sy = sy) by (eapply Forall_forall in L3; [exact L3|eapply nth_error_In; eauto]).
    destruct (plain_eq items _ _ Hsu Hsr) as (t' & -> & Ht').
    rewrite Ela in *. destruct la1 as [t1|]; [|contradiction]. cbn in A4. assert (t1 = t') by congruence. subst t1.
    cbn [panic_message] in Hmsg. rewrite Ht' in Hmsg. cbn [option_map] in Hmsg. injection Hmsg as <-.
    assert (Hsb : state_after items (an_name N) (g1 ++ [ASTerminal t'])%list n).
    { exists g, tbl, states, entries, (S i), M, e, (gamma ++ [T t])%list. repeat (split; [assumption|]).
      split; [apply Forall2_app; [exact Hidx|constructor; [exact Ht'|constructor]]|].
      apply follow_path. exists (s :: ss). rewrite rev_app_distr. cbn [rev app]. unfold gamma. rewrite rev_involutive.
      constructor; [exact Hp|]. unfold trans. rewrite Hst. exact Hgo. }
    assert (Hsh : ushifts_by nts uf (an_name N) g1 t') by (exists bl, (it_prod b), (it_cursor b), la2, l; auto).
    exact (cm_shift_reduce items uf (an_name N) g1 s t' n an (it_prod it) _ Hsa Hsb Hsh A5 Hra).
  - pose proof (b_complete_reduces g gf _ _ _ _ (Hv _ Hb') Hpb Hcb) as Hr2.
    destruct (b_reduces_up items Hnames ti g Hlow tbl gf uf Hlu N i HN Hpub _ _ _ _ Hr2) as (g2 & bl & la2 & B1 & B2 & B3 & B4 & B5).
    destruct (lhs_private items g _ _ _ B3 Hpb' HS) as (bn & ->).
    assert (Hrb : reduction items bn (it_prod b) ("Reduce(" ++ decimal (it_nt b) ++ ", " ++ decimal (it_prod b) ++ ")")%string%string).
    { constructor. apply lowered_index_iff; auto. }
    assert (Hne : (bn, it_prod b) <> (an, it_prod it)).
    { intro E. inversion E as [[E1 E2]]. subst bn. pose proof (lhs_rel_inj _ _ _ _ _ A3 B3) as E3.
      unfold is_complete in Hc, Hcb. apply Nat.eqb_eq in Hc, Hcb. unfold item_rhs in Hc, Hcb. rewrite <- E3, E2 in Hcb.
      rewrite item_lt_iff in Hlt. rewrite Hlb in Hlt. lia. }
    assert (B5' : ureduces_by nts uf (an_name N) g1 (Some bn) (it_prod b) la1) by (eapply Hsame; eauto; congruence).
    pose proof (cm_reduce_reduce items uf (an_name N) g1 s la1 _ _ _ _ _ _ Hsa B5' A5 Hne Hrb Hra) as Hcm.
    cbn [panic_message] in Hmsg.
    destruct (it_la it) as [t|], la1 as [t1|]; try contradiction.
    + cbn in A4. rewrite A4 in Hmsg. cbn [option_map] in Hmsg. injection Hmsg as <-. rewrite !str_assoc in Hcm. exact Hcm.
    + cbn [option_map] in Hmsg. injection Hmsg as <-. rewrite !str_assoc in Hcm. exact Hcm.
  - rewrite Hlb in *.
    assert (Hr2 : reduces_by g gf (S i) gamma (it_nt b) (it_prod b) None).
    { exists pb. split; auto. destruct (wf_public_prod g Hwf _ _ _ Hpb Hpubb) as (_ & m & Hm & _).
      rewrite Hm. simpl. specialize (Hv _ Hb'). unfold ivb in Hv. rewrite Hcb, Hlab in Hv. auto. }
    destruct (b_reduces_up items Hnames ti g Hlow tbl gf uf Hlu N i HN Hpub _ _ _ _ Hr2) as (g2 & bl & la2 & B1 & B2 & B3 & B4 & B5).
    assert (bl = None).
    { destruct bl as [bn|]; auto. exfalso. cbn in B3. eapply public_private_excl; [exact Hpubb|]. eapply index_private; eauto. }
    subst bl. destruct la1; [contradiction|].
    destruct (wf_public_prod g Hwf _ _ _ Hpb Hpubb) as (Hp0 & m & Hm & _). rewrite Hp0 in Hr2.
    cbn [panic_message option_map] in Hmsg. injection Hmsg as <-.
    assert (Hacc : ureduces_by nts uf (an_name N) g1 None 0 None) by (apply (Hsame _ _ _ Hr2); [exact B3|exact Logic.I]).
    exact (cm_accept_reduce items uf (an_name N) g1 s an (it_prod it) _ Hsa Hacc A5 Hra).
Qed.
End Explain.
