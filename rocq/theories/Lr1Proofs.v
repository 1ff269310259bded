(** * Lr1Proofs: the computed automaton against the textbook LR(1) automaton *)
From Verif Require Export Lr1Spec Complete.

Section Lr1Proofs.
Context {A : Type}.
Variable g : grammar A.
Hypothesis Hwf : wf_grammar g.
Variable tbl : first_table.
Hypothesis Hsound : (forall n, flag tbl n = true -> nullable g n) /\ (forall n t, In t (terms tbl n) -> first_of g n t).
Variable states : list lr1_state.
Variable entries : list (nat * nat).
Hypothesis Haut : automaton_ok g tbl states entries.

Lemma in_first_nil la : in_first g [] la la.
Proof. right. split; [constructor|auto]. Qed.

Lemma derives_nil_inv l : derives g [] l -> l = [].
Proof.
  intro H. remember [] as x. induction H as [|a b c Hs Hd IH]; subst; auto.
  inversion Hs. destruct l; discriminate.
Qed.

(** FIRST of a sequence in terms of nullable / first_of *)
Lemma in_first_iff l la x : in_first g l la x <->
  (exists t, x = Some t /\ first_seq g l t) \/ (nullable_seq g l /\ x = la).
Proof.
  unfold in_first, derives_first, derives_empty. split.
  - intros [(t & -> & r & H)|[H ->]].
    + left. exists t. split; auto. eapply derives_first_seq; eauto. constructor.
    + right. split; auto. apply derives_nullable; auto.
  - intros [(t & -> & H)|[H ->]].
    + left. exists t. split; auto.
      clear - H. induction H as [t r|m r t H|m r t Hn H IHfirst_seq].
      * exists r. constructor.
      * apply first_of_derives in H. destruct H as (r' & H). exists (r' ++ r).
        change (NT m :: r) with ([NT m] ++ r). change (T t :: r' ++ r) with ((T t :: r') ++ r).
        apply derives_app; auto. constructor.
      * destruct IHfirst_seq as (r' & H1). exists r'.
        change (NT m :: r) with ([NT m] ++ r). change (T t :: r') with ([] ++ T t :: r').
        apply derives_app; auto. apply nullable_iff; auto.
    + right. split; auto. apply (proj2 (nullable_derives g)); auto.
Qed.

Lemma first_la_sound l la x : first_la tbl l la x -> in_first g l la x.
Proof.
  intro H. apply in_first_iff. induction H as [la|t r la|n r la t Ht|n r la x Hf H IH].
  - right. split; [constructor|auto].
  - left. exists t. split; auto. constructor.
  - left. exists t. split; auto. constructor. apply Hsound; auto.
  - assert (nullable g n) by (apply Hsound; auto).
    destruct IH as [(t & -> & IH)|[IH ->]].
    + left. exists t. split; auto. apply first_seq_skip; auto.
    + right. split; auto. constructor; auto.
Qed.

Lemma first_la_complete_spec l la x : (forall m, In (NT m) l -> first_complete_at g tbl m) ->
  in_first g l la x -> first_la tbl l la x.
Proof.
  intros Hc H. apply in_first_iff in H. destruct H as [(t & -> & H)|[H ->]].
  - induction H as [t r|m r t H|m r t Hn H IH].
    + constructor.
    + apply fl_NT. apply (Hc m); [left; auto|auto].
    + apply fl_skip; [apply (Hc m); [left; auto|auto]|]. apply IH. intros; apply Hc; right; auto.
  - induction l as [|X l IH]; [constructor|]. inversion H; subst.
    apply fl_skip; [apply (Hc m); [left; auto|auto]|]. apply IH; auto. intros; apply Hc; right; auto.
Qed.

Variable nt0 e : nat.
Hypothesis Hentry : In (nt0, e) entries.

Definition iv (gamma : list symbol) (it : item) : Prop :=
  lr1_valid g nt0 gamma (it_nt it) (it_prod it) (it_cursor it) (it_la it).

(** Everything in the computed item sets is LR(1)-valid. *)
Lemma valid_lr1 d pi it : valid g tbl nt0 d pi it -> iv (rev pi) it.
Proof.
  induction 1 as [|d pi it x H IH Hs|d pi it X H IH Hn]; unfold iv in *.
  - simpl. constructor.
  - destruct Hs as (n & p & pr & la & Hn & Hp & Hf & ->). simpl.
    destruct (next_symbol_production g _ _ Hn) as (q & Hq & Hk).
    eapply lv_closure; eauto. rewrite (item_rhs_prod g _ _ Hq) in Hf. rewrite Nat.add_1_r. apply first_la_sound; auto.
  - destruct (next_symbol_production g _ _ Hn) as (q & Hq & Hk). simpl. rewrite <- Nat.add_1_r. eapply lv_move; eauto.
Qed.

Hypothesis Hfc : first_complete_tails g tbl.

Lemma nth_error_next it pr X : get_production g (it_nt it) (it_prod it) = Some pr ->
  nth_error (rhs pr) (it_cursor it) = Some X -> next_symbol g it = Some X.
Proof. intros H1 H2. unfold next_symbol. rewrite (item_rhs_prod g _ _ H1). auto. Qed.

Lemma tail_complete n p pr k : get_production g n p = Some pr -> forall m, In (NT m) (skipn (k + 1) (rhs pr)) ->
  first_complete_at g tbl m.
Proof.
  intros H m Hm. rewrite Nat.add_1_r in Hm. destruct (rhs pr) as [|X l] eqn:E; [contradiction|]. simpl in Hm.
  eapply Hfc; eauto. eapply skipn_In; eauto.
Qed.

Lemma lr1_valid_complete gamma n p k la : lr1_valid g nt0 gamma n p k la ->
  exists d, valid g tbl nt0 d (rev gamma) {| it_nt := n; it_prod := p; it_cursor := k; it_la := la |}.
Proof.
  induction 1 as [|gamma B p k la pr C q pr' x H (d & IH) Hp Hk Hq Hx|gamma B p k la pr X H (d & IH) Hp Hk].
  - exists 0. constructor.
  - exists (S d). eapply v_step; eauto. exists C, q, pr', x.
    split; [eapply nth_error_next; eauto|]. split; auto. split; [|reflexivity].
    simpl. rewrite (item_rhs_prod g {| it_nt := B; it_prod := p; it_cursor := k; it_la := la |} pr Hp).
    rewrite Nat.add_1_r in Hx. apply first_la_complete_spec; auto.
    intros m Hm. apply (tail_complete _ _ _ k Hp). rewrite Nat.add_1_r. exact Hm.
  - exists d. rewrite rev_app_distr. simpl. rewrite Nat.add_1_r.
    apply (v_adv g tbl nt0 d (rev gamma) {| it_nt := B; it_prod := p; it_cursor := k; it_la := la |} X); auto.
    eapply nth_error_next; eauto.
Qed.
End Lr1Proofs.

Section Lr1Conflicts.
Context {A : Type}.
Variable g : grammar A.
Hypothesis Hwf : wf_grammar g.
Variable tbl : first_table.
Hypothesis Hsound : (forall n, flag tbl n = true -> nullable g n) /\ (forall n t, In t (terms tbl n) -> first_of g n t).
Variable states : list lr1_state.
Variable entries : list (nat * nat).
Hypothesis Haut : automaton_ok g tbl states entries.

(** Items of a state are valid for some string, simultaneously. *)
Lemma state_items_valid s st : nth_error states s = Some st -> exists S gamma, is_entry g S /\
  forall it, In it (st_items st) -> iv g S gamma it.
Proof.
  intro Hst. destruct (ao_reach _ _ _ _ Haut s) as (nt & e & pi & ss & Hen & Hp).
  { apply nth_error_Some; congruence. }
  exists nt, (rev pi). split.
  - destruct (ao_entry _ _ _ _ Haut _ _ Hen) as ((N & H1 & H2) & _). exists N; auto.
  - destruct (valid_items g tbl states entries Haut nt e Hen _ _ Hp) as (s' & ss' & st' & Heq & Hst' & _ & Hi).
    inversion Heq; subst s' ss'. assert (st' = st) by congruence. subst st'.
    intros it Hit. apply Hi in Hit. destruct Hit as (d & Hv). eapply valid_lr1; eauto.
Qed.

Lemma complete_reduces S gamma it pr : iv g S gamma it -> get_production g (it_nt it) (it_prod it) = Some pr ->
  is_complete g it = true -> lr1_reduces g S gamma (it_nt it) (it_prod it) (it_la it).
Proof.
  intros Hv Hp Hc. exists pr. split; auto. unfold is_complete in Hc. apply Nat.eqb_eq in Hc.
  rewrite (item_rhs_prod g _ _ Hp) in Hc. unfold iv in Hv. congruence.
Qed.

Lemma iv_prod S gamma it : is_entry g S -> iv g S gamma it -> exists pr, get_production g (it_nt it) (it_prod it) = Some pr.
Proof.
  unfold iv. intros (N & HN & Hp) H. destruct (wfg_pub g Hwf _ _ HN Hp) as (pr & m & H1 & H2).
  remember (it_nt it) as n. remember (it_prod it) as p. remember (it_cursor it) as k. remember (it_la it) as la.
  clear Heqn Heqp Heqk Heqla. induction H; eauto. exists pr. unfold get_production. rewrite HN, H1. auto.
Qed.

Hypothesis Hlr1 : lr1_grammar g.

(** An LR(1) grammar has no conflict the code could report... *)
Theorem lr1_no_detected_conflict : no_detected_conflict g states.
Proof.
  intros s st Hst l1 it l2 Heq la b (Hc & Hpriv & Hla) Hb Hw.
  destruct (state_items_valid _ _ Hst) as (S & gamma & HS & Hv).
  assert (Hit : In it (st_items st)) by (rewrite Heq; apply in_app_iff; right; left; auto).
  assert (Hb' : In b (st_items st)) by (rewrite Heq; apply in_app_iff; left; auto).
  destruct (iv_prod _ _ _ HS (Hv _ Hit)) as (pr & Hpr).
  destruct (iv_prod _ _ _ HS (Hv _ Hb')) as (pb & Hpb).
  pose proof (complete_reduces _ _ _ _ (Hv _ Hit) Hpr Hc) as Hr. rewrite Hla in Hr.
  destruct (Hlr1 S gamma HS) as [Hrr Hsr].
  destruct Hw as [(n & t & -> & Hn & _)|[(Hcb & Hpb' & Hlb)|(Hpubb & Hcb & Hlab & Hlb)]].
  - apply (Hsr _ _ _ Hr). destruct (next_symbol_production g _ _ Hn) as (q & Hq & Hk).
    exists (it_nt b), (it_prod b), (it_cursor b), (it_la b), q. split; auto. apply Hv; auto.
  - pose proof (complete_reduces _ _ _ _ (Hv _ Hb') Hpb Hcb) as Hr2. rewrite Hlb in Hr2.
    destruct (Hrr _ _ _ _ _ Hr Hr2) as [E1 E2].
    (* same complete item twice in a strictly sorted list *)
    assert (b = it).
    { destruct it as [a1 a2 a3 a4], b as [b1 b2 b3 b4]. simpl in *. subst.
      unfold is_complete in *. apply Nat.eqb_eq in Hc, Hcb. unfold item_rhs in *. simpl in *. congruence. }
    subst b. pose proof (ao_sorted _ _ _ _ Haut _ _ Hst) as Hs. rewrite Heq in Hs.
    apply in_split in Hb. destruct Hb as (x & y & ->). rewrite <- app_assoc in Hs. simpl in Hs.
    apply sorted_NoDup in Hs. apply NoDup_remove_2 in Hs. apply Hs. apply in_app_iff. right. apply in_app_iff. right. left; auto.
  - assert (Hr2 : lr1_reduces g S gamma (it_nt b) (it_prod b) la).
    { exists pb. split; auto. destruct (wf_public_prod g Hwf _ _ _ Hpb Hpubb) as (_ & m & Hm & _).
      rewrite Hm. simpl. specialize (Hv _ Hb'). unfold iv in Hv. rewrite Hcb, Hlab in Hv. rewrite Hlb. exact Hv. }
    destruct (Hrr _ _ _ _ _ Hr Hr2) as [E1 E2]. rewrite <- E1 in Hpubb. exact (public_private_excl g _ Hpubb Hpriv).
Qed.

(** ... and no reduction is overridden. *)
Theorem lr1_no_override act : act_ok g states act -> no_override g states act.
Proof.
  intros Hact s st it Hst Hit Hred.
  destruct (state_items_valid _ _ Hst) as (S & gamma & HS & Hv).
  destruct (iv_prod _ _ _ HS (Hv _ Hit)) as (pr & Hpr). destruct Hred as [Hc Hpriv].
  pose proof (complete_reduces _ _ _ _ (Hv _ Hit) Hpr Hc) as Hr. destruct (Hlr1 S gamma HS) as [Hrr Hsr].
  destruct (ac_reduce _ _ _ Hact _ _ _ Hst Hit (conj Hc Hpriv)) as [H|[(n & H)|H]]; auto; exfalso.
  - destruct (ac_inv _ _ _ Hact _ _ _ H) as (st' & Hst' & b & t & Hla & Hb & Hn & _).
    assert (st' = st) by congruence. subst st'. rewrite Hla in Hr. apply (Hsr _ _ _ Hr).
    destruct (next_symbol_production g _ _ Hn) as (q & Hq & Hk).
    exists (it_nt b), (it_prod b), (it_cursor b), (it_la b), q. split; auto. apply Hv; auto.
  - destruct (ac_inv _ _ _ Hact _ _ _ H) as (st' & Hst' & Hla & b & Hb & (Hpubb & Hcb & Hlab)).
    assert (st' = st) by congruence. subst st'. rewrite Hla in Hr.
    destruct (iv_prod _ _ _ HS (Hv _ Hb)) as (pb & Hpb).
    assert (Hr2 : lr1_reduces g S gamma (it_nt b) (it_prod b) None).
    { exists pb. split; auto. destruct (wf_public_prod g Hwf _ _ _ Hpb Hpubb) as (_ & m & Hm & _).
      rewrite Hm. simpl. specialize (Hv _ Hb). unfold iv in Hv. rewrite Hcb, Hlab in Hv. auto. }
    destruct (Hrr _ _ _ _ _ Hr Hr2) as [E1 E2]. rewrite <- E1 in Hpubb. exact (public_private_excl g _ Hpubb Hpriv).
Qed.
End Lr1Conflicts.
