(** * UserDown: LR(1) items of the user's grammar are items of the lowered grammar, and in the automaton *)
From Verif Require Export UserLr1.

Section Path.
Context {A : Type}.
Variable g : grammar A.
Variable tbl : first_table.
Variable states : list lr1_state.
Variable entries : list (nat * nat).
Hypothesis Haut : automaton_ok g tbl states entries.
Variable nt0 e : nat.
Hypothesis Hentry : In (nt0, e) entries.

(** Every string with a valid item leads somewhere. *)
Lemma valid_path d pi it : valid g tbl nt0 d pi it -> exists ss, stack_path states e pi ss.
Proof.
  induction 1 as [|d pi it x H IH Hs|d pi it X H IH Hn].
  - exists [e]. constructor.
  - exact IH.
  - destruct IH as (ss & Hp).
    destruct (valid_items g tbl states entries Haut nt0 e Hentry _ _ Hp) as (s & ss' & st & -> & Hst & _ & Hi).
    destruct (ao_total _ _ _ _ Haut _ _ it X Hst) as (j & Hj); [apply Hi; eauto|auto|].
    exists (j :: s :: ss'). constructor; auto. unfold trans. rewrite Hst. exact Hj.
Qed.

(** All items valid for a string are in one state. *)
Lemma valid_state d pi it : valid g tbl nt0 d pi it -> exists s st, nth_error states s = Some st /\
  (forall it', In it' (st_items st) <-> exists d', valid g tbl nt0 d' pi it').
Proof.
  intro H. destruct (valid_path _ _ _ H) as (ss & Hp).
  destruct (valid_items g tbl states entries Haut nt0 e Hentry _ _ Hp) as (s & ss' & st & -> & Hst & _ & Hi). eauto.
Qed.
End Path.

Section UserDown.
Context {A : Type}.
Variable items : list (grammar_item A).
Notation nts := (declared_nts items).
Notation cs := (token_entries items).
Hypothesis Hnames : distinct_names items.
Variable ti : list (string * nat).
Variable g : grammar (lexpr A).
Hypothesis Hlow : lowered nts cs ti g.
Notation ni := (nt_indices_of nts).
Notation sym_rel := (sym_rel nts cs).
Variable N : ast_non_terminal A.
Variable i : nat.
Hypothesis HN : In (N, i) (slots 0 nts).
Hypothesis Hpub : an_pub N = true.
Notation S0 := (S i).
Notation lhs_rel := (lhs_rel items i).
Notation la_rel := (la_rel items).

Lemma sym_rel_det s X Y : sym_rel s X -> sym_rel s Y -> X = Y.
Proof.
  unfold LowerTrees.sym_rel. destruct (unnamed s); try contradiction; intros (a & H1 & ->) (b & H2 & ->); f_equal.
  - eapply terminal_unique; eauto.
  - congruence.
Qed.
Lemma sym_list_det ss : forall Xs Ys, Forall2 sym_rel ss Xs -> Forall2 sym_rel ss Ys -> Xs = Ys.
Proof.
  induction ss as [|s ss IH]; intros Xs Ys H1 H2; inversion H1; inversion H2; subst; auto.
  f_equal; [eapply sym_rel_det; eauto|apply IH; auto].
Qed.
Lemma la_rel_det x y y' : la_rel x y -> la_rel x y' -> y = y'.
Proof.
  destruct x as [x|], y as [y|], y' as [y'|]; cbn; try tauto. intros H1 H2. f_equal. eapply terminal_unique; eauto.
Qed.

Lemma urhs_down lhs n p l : lhs_rel lhs n -> urhs nts (an_name N) lhs p = Some l ->
  exists q, get_production g n p = Some q /\ Forall2 sym_rel l (rhs q).
Proof.
  intros Hl Hu. destruct lhs as [nm|]; cbn in Hl, Hu.
  - destruct (uproduction nts nm p) as [up|] eqn:Eu; [|discriminate]. cbn in Hu. injection Hu as <-.
    destruct (production_down nts cs ti g Hlow Hnames _ _ _ _ Hl Eu) as (q & Hq & Hlp).
    exists q. split; auto. eapply body_rel_rhs; eauto.
  - subst n. destruct (Nat.eqb_spec p 0) as [->|]; [|discriminate]. injection Hu as <-.
    unfold get_production. rewrite (entry_nt nts cs ti g Hlow N i HN Hpub). cbn. eexists. split; [reflexivity|].
    cbn. constructor; [|constructor]. eapply body_rel; eauto.
Qed.

Lemma Forall2_nth_l {X Y} (R : X -> Y -> Prop) l l' k x : Forall2 R l l' -> nth_error l k = Some x ->
  exists y, nth_error l' k = Some y /\ R x y.
Proof. intros H. revert k. induction H as [|x' y' l l' H1 H2 IH]; intros [|k] E; cbn in *; try discriminate; [inversion E; subst; eauto|apply IH; auto]. Qed.

Lemma in_first_down ss Xs la la' x : Forall2 sym_rel ss Xs -> la_rel la la' -> uin_first nts ss la x ->
  exists x', la_rel x x' /\ in_first g Xs la' x'.
Proof.
  intros Hf Hl [(t & r & -> & Hd)|[Hd ->]].
  - destruct (derives_down items Hnames ti g Hlow _ _ Hd _ Hf) as (Ys & H1 & H2).
    inversion H2 as [|s Y ss' Ys' F1 F2]; subst. destruct F1 as (j & Hj & ->).
    exists (Some j). split; [exact Hj|]. left. exists j. split; auto. exists Ys'. exact H1.
  - destruct (derives_down items Hnames ti g Hlow _ _ Hd _ Hf) as (Ys & H1 & H2). inversion H2; subst.
    exists la'. split; auto. right. auto.
Qed.

Lemma lr1_valid_down gamma lhs p k la : ulr1_valid nts (an_name N) gamma lhs p k la ->
  exists gamma' n la', Forall2 sym_rel gamma gamma' /\ lhs_rel lhs n /\ la_rel la la' /\ lr1_valid g S0 gamma' n p k la'.
Proof.
  induction 1 as [|gamma lhs p k la l C q l' x H IH Hl Hk Hq Hx|gamma lhs p k la l X H IH Hl Hk].
  - exists [], S0, None. split; [constructor|]. cbn. split; auto. split; auto. constructor.
  - destruct IH as (gamma' & n & la' & G1 & G2 & G3 & G4).
    destruct (urhs_down _ _ _ _ G2 Hl) as (pr & L1 & L2).
    destruct (Forall2_nth_l _ _ _ _ _ L2 Hk) as (Y & HY & (c & Hc & ->)).
    destruct (urhs_down (Some C) c q l' Hc Hq) as (pr' & L1' & _).
    destruct (in_first_down _ _ _ _ _ (Forall2_skipn _ _ _ (k + 1) L2) G3 Hx) as (x' & X1 & X2).
    exists gamma', c, x'. split; auto. split; [exact Hc|]. split; auto. eapply lv_closure; eauto.
  - destruct IH as (gamma' & n & la' & G1 & G2 & G3 & G4).
    destruct (urhs_down _ _ _ _ G2 Hl) as (pr & L1 & L2).
    destruct (Forall2_nth_l _ _ _ _ _ L2 Hk) as (Y & HY & Hr).
    exists (gamma' ++ [Y]), n, la'. split; [apply Forall2_app; auto|]. split; auto. split; auto. eapply lv_move; eauto.
Qed.

Lemma reduces_down gamma lhs p la : ulr1_reduces nts (an_name N) gamma lhs p la ->
  exists gamma' n la', Forall2 sym_rel gamma gamma' /\ lhs_rel lhs n /\ la_rel la la' /\ lr1_reduces g S0 gamma' n p la'.
Proof.
  intros (l & Hl & Hv). destruct (lr1_valid_down _ _ _ _ _ Hv) as (gamma' & n & la' & G1 & G2 & G3 & G4).
  destruct (urhs_down _ _ _ _ G2 Hl) as (pr & L1 & L2).
  exists gamma', n, la'. repeat (split; auto). exists pr. split; auto. rewrite <- (Forall2_length_ _ _ _ L2). exact G4.
Qed.

(** ** Into the automaton *)
Variable tbl : first_table.
Variable states : list lr1_state.
Variable entries : list (nat * nat).
Hypothesis Haut : automaton_ok g tbl states entries.
Hypothesis Hfc : first_complete_tails g tbl.

Definition mkit (n p k : nat) (la : option nat) : item := {| it_nt := n; it_prod := p; it_cursor := k; it_la := la |}.

(** One state holds (the lowered versions of) all items valid for [gamma]. *)
Lemma user_state gamma lhs p k la : ulr1_valid nts (an_name N) gamma lhs p k la ->
  exists s st, nth_error states s = Some st /\
    forall lhs' p' k' la', ulr1_valid nts (an_name N) gamma lhs' p' k' la' ->
      exists n x, lhs_rel lhs' n /\ la_rel la' x /\ In (mkit n p' k' x) (st_items st).
Proof.
  intro H. destruct (lr1_valid_down _ _ _ _ _ H) as (gamma' & n & x & G1 & _ & _ & G4).
  assert (HP : is_public g S0) by (eexists; split; [eapply entry_nt; eauto|reflexivity]).
  destruct (ao_entries_complete _ _ _ _ Haut _ HP) as (e & Hen).
  destruct (lr1_valid_complete g tbl _ Hfc _ _ _ _ _ G4) as (d & Hv).
  destruct (valid_state g tbl states entries Haut _ _ Hen _ _ _ Hv) as (s & st & Hst & Hi).
  exists s, st. split; auto. intros lhs' p' k' la' H'.
  destruct (lr1_valid_down _ _ _ _ _ H') as (g2 & n' & x' & K1 & K2 & K3 & K4).
  assert (g2 = gamma') by (eapply sym_list_det; eauto). subst g2.
  exists n', x'. split; auto. split; auto. apply Hi. eapply lr1_valid_complete; eauto.
Qed.
End UserDown.
