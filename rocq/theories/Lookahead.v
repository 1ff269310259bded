(** * Lookahead: valid items with respect to a lookahead relation, in the lowered grammar, in the user's
    grammar and in the automaton *)
From Verif Require Export UserDown.

Section Bundle.
Context {A : Type}.
Variable items : list (grammar_item A).
Notation nts := (declared_nts items).
Notation cs := (token_entries items).
Notation sym_rel := (sym_rel nts cs).
Notation plain ss := (Forall (fun s => unnamed s = s) ss).
Notation la_rel := (la_rel items).

(** [gf] (lowered grammar) and [uf] (user's grammar) are the same lookahead relation, and it includes
    ([lookahead_up]), on tails of productions is included in ([lookahead_down]), the one the automaton is built with. *)
Record lookahead_up (g : grammar (lexpr A)) (tbl : first_table) (gf : list symbol -> option nat -> option nat -> Prop)
  (uf : list ast_symbol -> option string -> option string -> Prop) : Prop := {
  fb_up : forall ss Xs la la' x, Forall2 sym_rel ss Xs -> plain ss -> la_rel la' la -> gf Xs la x -> exists x', la_rel x' x /\ uf ss la' x';
  fb_sound : forall l la x, first_la tbl l la x -> gf l la x
}.
Record lookahead_down (g : grammar (lexpr A)) (tbl : first_table) (gf : list symbol -> option nat -> option nat -> Prop)
  (uf : list ast_symbol -> option string -> option string -> Prop) : Prop := {
  fb_down : forall ss Xs la la' x, Forall2 sym_rel ss Xs -> la_rel la la' -> uf ss la x -> exists x', la_rel x x' /\ gf Xs la' x';
  fb_complete : forall n p pr k la x, get_production g n p = Some pr -> gf (skipn (k + 1) (rhs pr)) la x ->
    first_la tbl (skipn (k + 1) (rhs pr)) la x
}.

Hypothesis Hnames : distinct_names items.
Variable ti : list (string * nat).
Variable g : grammar (lexpr A).
Hypothesis Hlow : lowered nts cs ti g.

(** True FIRST sets. *)
Lemma true_up tbl : (forall n, flag tbl n = true -> nullable g n) /\ (forall n t, In t (terms tbl n) -> first_of g n t) ->
  lookahead_up g tbl (in_first g) (uin_first nts).
Proof.
  intro Hs. constructor.
  - intros ss Xs la la' x. apply (in_first_up items Hnames ti g Hlow).
  - apply first_la_sound; auto.
Qed.
Lemma true_down tbl : first_complete_tails g tbl -> lookahead_down g tbl (in_first g) (uin_first nts).
Proof.
  intros Hfc. constructor.
  - intros ss Xs la la' x. apply (in_first_down items Hnames ti g Hlow).
  - intros n p pr k la x Hp Hx. apply (first_la_complete_spec g tbl); auto. apply (tail_complete g tbl Hfc _ _ _ _ Hp).
Qed.

Variable tbl : first_table.
Variables (gf : list symbol -> option nat -> option nat -> Prop) (uf : list ast_symbol -> option string -> option string -> Prop).
Hypothesis Hlu : lookahead_up g tbl gf uf.
Hypothesis Hld : lookahead_down g tbl gf uf.
Variable states : list lr1_state.
Variable entries : list (nat * nat).
Hypothesis Haut : automaton_ok g tbl states entries.
Let Hwf : wf_grammar g := lowered_wf _ _ _ _ Hlow.

Definition ivb (S : nat) (gamma : list symbol) (it : item) : Prop :=
  valid_by g gf S gamma (it_nt it) (it_prod it) (it_cursor it) (it_la it).

Lemma b_sound nt0 d pi it : valid g tbl nt0 d pi it -> ivb nt0 (rev pi) it.
Proof.
  induction 1 as [|d pi it x H IH Hs|d pi it X H IH Hn]; unfold ivb in *.
  - simpl. constructor.
  - destruct Hs as (n & p & pr & la & Hn & Hp & Hf & ->). simpl.
    destruct (next_symbol_production g _ _ Hn) as (q & Hq & Hk).
    eapply lv_closure; eauto. rewrite (item_rhs_prod g _ _ Hq) in Hf. rewrite Nat.add_1_r. apply (fb_sound _ _ _ _ Hlu); auto.
  - destruct (next_symbol_production g _ _ Hn) as (q & Hq & Hk). simpl. rewrite <- Nat.add_1_r. eapply lv_move; eauto.
Qed.
Lemma b_complete nt0 gamma n p k la : valid_by g gf nt0 gamma n p k la -> exists d, valid g tbl nt0 d (rev gamma) (mkit n p k la).
Proof.
  unfold mkit. induction 1 as [|gamma B p k la pr C q pr' x H (d & IH) Hp Hk Hq Hx|gamma B p k la pr X H (d & IH) Hp Hk].
  - exists 0. constructor.
  - exists (S d). eapply v_step; eauto. exists C, q, pr', x.
    split; [eapply nth_error_next; eauto|]. split; auto. split; [|reflexivity].
    simpl. rewrite (item_rhs_prod g {| it_nt := B; it_prod := p; it_cursor := k; it_la := la |} pr Hp).
    pose proof (fb_complete _ _ _ _ Hld _ _ _ _ _ _ Hp Hx) as Hc. rewrite Nat.add_1_r in Hc. exact Hc.
  - exists d. rewrite rev_app_distr. simpl. rewrite Nat.add_1_r.
    apply (v_adv g tbl nt0 d (rev gamma) {| it_nt := B; it_prod := p; it_cursor := k; it_la := la |} X); auto.
    eapply nth_error_next; eauto.
Qed.

Lemma b_complete_reduces S gamma it pr : ivb S gamma it -> get_production g (it_nt it) (it_prod it) = Some pr ->
  is_complete g it = true -> reduces_by g gf S gamma (it_nt it) (it_prod it) (it_la it).
Proof.
  intros Hv Hp Hc. exists pr. split; auto. unfold is_complete in Hc. apply Nat.eqb_eq in Hc.
  rewrite (item_rhs_prod g _ _ Hp) in Hc. unfold ivb in Hv. congruence.
Qed.
Lemma ivb_prod S gamma it : is_entry g S -> ivb S gamma it -> exists pr, get_production g (it_nt it) (it_prod it) = Some pr.
Proof.
  unfold ivb. intros (N & HN & Hp) H. destruct (wfg_pub g Hwf _ _ HN Hp) as (pr & m & H1 & H2).
  remember (it_nt it) as n. remember (it_prod it) as p. remember (it_cursor it) as k. remember (it_la it) as la.
  clear Heqn Heqp Heqk Heqla. induction H; eauto. exists pr. unfold get_production. rewrite HN, H1. auto.
Qed.
Lemma b_state_items s st : nth_error states s = Some st -> exists S gamma, is_entry g S /\
  forall it, In it (st_items st) -> ivb S gamma it.
Proof.
  intro Hst. destruct (ao_reach _ _ _ _ Haut s) as (nt & e & pi & ss & Hen & Hp).
  { apply nth_error_Some; congruence. }
  exists nt, (rev pi). split.
  - destruct (ao_entry _ _ _ _ Haut _ _ Hen) as ((N & H1 & H2) & _). exists N; auto.
  - destruct (valid_items g tbl states entries Haut nt e Hen _ _ Hp) as (s' & ss' & st' & Heq & Hst' & _ & Hi).
    inversion Heq; subst s' ss'. assert (st' = st) by congruence. subst st'.
    intros it Hit. apply Hi in Hit. destruct Hit as (d & Hv). eapply b_sound; eauto.
Qed.

Section Entry.
Variable N : ast_non_terminal A.
Variable i : nat.
Hypothesis HN : In (N, i) (slots 0 nts).
Hypothesis Hpub : an_pub N = true.
Notation S0 := (S i).
Notation lhs_rel := (lhs_rel items i).

Lemma b_valid_up gamma n p k la : valid_by g gf S0 gamma n p k la ->
  exists gamma' lhs la', Forall2 sym_rel gamma' gamma /\ plain gamma' /\ lhs_rel lhs n /\ la_rel la' la /\
    uvalid_by nts uf (an_name N) gamma' lhs p k la'.
Proof.
  induction 1 as [|gamma B p k la pr C q pr' x H IH Hpr Hk Hq Hx|gamma B p k la pr X H IH Hpr Hk].
  - exists [], None, None. split; [constructor|]. split; [constructor|]. cbn. split; auto. split; auto. constructor.
  - destruct IH as (gamma' & lhs & la' & G1 & G2 & G3 & G4 & G5).
    destruct (urhs_up items Hnames ti g Hlow N i HN Hpub _ _ _ _ G3 Hpr) as (l & L1 & L2 & L3).
    destruct (Forall2_nth _ _ _ _ _ L2 Hk) as (s & Hs & Hsr).
    assert (Hsu : unnamed s = s) by (eapply Forall_forall in L3; [exact L3|eapply nth_error_In; eauto]).
    destruct (plain_eq items _ _ Hsu Hsr) as (nm & -> & Hnm).
    destruct (fb_up _ _ _ _ Hlu _ _ _ _ _ (Forall2_skipn _ _ _ (k + 1) L2) (Forall_skipn_ _ _ (k + 1) L3) G4 Hx) as (x' & X1 & X2).
    destruct (urhs_up items Hnames ti g Hlow N i HN Hpub (Some nm) C q pr' Hnm Hq) as (l' & L1' & _).
    exists gamma', (Some nm), x'. split; auto. split; auto. split; auto. split; auto. eapply ulv_closure; eauto.
  - destruct IH as (gamma' & lhs & la' & G1 & G2 & G3 & G4 & G5).
    destruct (urhs_up items Hnames ti g Hlow N i HN Hpub _ _ _ _ G3 Hpr) as (l & L1 & L2 & L3).
    destruct (Forall2_nth _ _ _ _ _ L2 Hk) as (s & Hs & Hsr).
    assert (Hsu : unnamed s = s) by (eapply Forall_forall in L3; [exact L3|eapply nth_error_In; eauto]).
    exists (gamma' ++ [s]), lhs, la'. split; [apply Forall2_app; auto|]. split; [apply Forall_app; auto|].
    split; auto. split; auto. eapply ulv_move; eauto.
Qed.
Lemma b_reduces_up gamma n p la : reduces_by g gf S0 gamma n p la ->
  exists gamma' lhs la', Forall2 sym_rel gamma' gamma /\ plain gamma' /\ lhs_rel lhs n /\ la_rel la' la /\
    ureduces_by nts uf (an_name N) gamma' lhs p la'.
Proof.
  intros (pr & Hpr & Hv). destruct (b_valid_up _ _ _ _ _ Hv) as (gamma' & lhs & la' & G1 & G2 & G3 & G4 & G5).
  destruct (urhs_up items Hnames ti g Hlow N i HN Hpub _ _ _ _ G3 Hpr) as (l & L1 & L2 & L3).
  exists gamma', lhs, la'. repeat (split; auto). exists l. split; auto. rewrite (Forall2_length_ _ _ _ L2). exact G5.
Qed.
Lemma b_shifts_up gamma t : shifts_by g gf S0 gamma t ->
  exists gamma' t', Forall2 sym_rel gamma' gamma /\ plain gamma' /\ nth_error (map cv_from cs) t = Some t' /\
    ushifts_by nts uf (an_name N) gamma' t'.
Proof.
  intros (B & p & k & la & pr & Hv & Hpr & Hk). destruct (b_valid_up _ _ _ _ _ Hv) as (gamma' & lhs & la' & G1 & G2 & G3 & G4 & G5).
  destruct (urhs_up items Hnames ti g Hlow N i HN Hpub _ _ _ _ G3 Hpr) as (l & L1 & L2 & L3).
  destruct (Forall2_nth _ _ _ _ _ L2 Hk) as (s & Hs & Hsr).
  assert (Hsu : unnamed s = s) by (eapply Forall_forall in L3; [exact L3|eapply nth_error_In; eauto]).
  destruct (plain_eq items _ _ Hsu Hsr) as (t' & -> & Ht).
  exists gamma', t'. repeat (split; auto). exists lhs, p, k, la', l. auto.
Qed.
Lemma b_valid_down gamma lhs p k la : uvalid_by nts uf (an_name N) gamma lhs p k la ->
  exists gamma' n la', Forall2 sym_rel gamma gamma' /\ lhs_rel lhs n /\ la_rel la la' /\ valid_by g gf S0 gamma' n p k la'.
Proof.
  induction 1 as [|gamma lhs p k la l C q l' x H IH Hl Hk Hq Hx|gamma lhs p k la l X H IH Hl Hk].
  - exists [], S0, None. split; [constructor|]. cbn. split; auto. split; auto. constructor.
  - destruct IH as (gamma' & n & la' & G1 & G2 & G3 & G4).
    destruct (urhs_down items Hnames ti g Hlow N i HN Hpub _ _ _ _ G2 Hl) as (pr & L1 & L2).
    destruct (Forall2_nth_l _ _ _ _ _ L2 Hk) as (Y & HY & (c & Hc & ->)).
    destruct (urhs_down items Hnames ti g Hlow N i HN Hpub (Some C) c q l' Hc Hq) as (pr' & L1' & _).
    destruct (fb_down _ _ _ _ Hld _ _ _ _ _ (Forall2_skipn _ _ _ (k + 1) L2) G3 Hx) as (x' & X1 & X2).
    exists gamma', c, x'. split; auto. split; [exact Hc|]. split; auto. eapply lv_closure; eauto.
  - destruct IH as (gamma' & n & la' & G1 & G2 & G3 & G4).
    destruct (urhs_down items Hnames ti g Hlow N i HN Hpub _ _ _ _ G2 Hl) as (pr & L1 & L2).
    destruct (Forall2_nth_l _ _ _ _ _ L2 Hk) as (Y & HY & Hr).
    exists (gamma' ++ [Y]), n, la'. split; [apply Forall2_app; auto|]. split; auto. split; auto. eapply lv_move; eauto.
Qed.

Lemma b_reduces_down gamma lhs p la : ureduces_by nts uf (an_name N) gamma lhs p la ->
  exists gamma' n la', Forall2 sym_rel gamma gamma' /\ lhs_rel lhs n /\ la_rel la la' /\ reduces_by g gf S0 gamma' n p la'.
Proof.
  intros (l & Hl & Hv). destruct (b_valid_down _ _ _ _ _ Hv) as (gamma' & n & la' & G1 & G2 & G3 & G4).
  destruct (urhs_down items Hnames ti g Hlow N i HN Hpub _ _ _ _ G2 Hl) as (pr & L1 & L2).
  exists gamma', n, la'. repeat (split; auto). exists pr. split; auto. rewrite <- (Forall2_length_ _ _ _ L2). exact G4.
Qed.

(** One state holds (the lowered versions of) all items valid for [gamma]. *)
Lemma b_user_state gamma lhs p k la : uvalid_by nts uf (an_name N) gamma lhs p k la ->
  exists s st, nth_error states s = Some st /\
    forall lhs' p' k' la', uvalid_by nts uf (an_name N) gamma lhs' p' k' la' ->
      exists n x, lhs_rel lhs' n /\ la_rel la' x /\ In (mkit n p' k' x) (st_items st).
Proof.
  intro H. destruct (b_valid_down _ _ _ _ _ H) as (gamma' & n & x & G1 & _ & _ & G4).
  assert (HP : is_public g S0) by (eexists; split; [eapply entry_nt; eauto|reflexivity]).
  destruct (ao_entries_complete _ _ _ _ Haut _ HP) as (e & Hen).
  destruct (b_complete _ _ _ _ _ _ G4) as (d & Hv).
  destruct (valid_state g tbl states entries Haut _ _ Hen _ _ _ Hv) as (s & st & Hst & Hi).
  exists s, st. split; auto. intros lhs' p' k' la' H'.
  destruct (b_valid_down _ _ _ _ _ H') as (g2 & n' & x' & K1 & K2 & K3 & K4).
  assert (g2 = gamma') by (eapply (sym_list_det items ti g Hlow); eauto). subst g2.
  exists n', x'. split; auto. split; auto. apply Hi. eapply b_complete; eauto.
Qed.
End Entry.
End Bundle.
