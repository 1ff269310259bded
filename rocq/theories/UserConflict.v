(** * UserConflict: which conflicts of the user's grammar the table builder reports *)
From Verif Require Export Lookahead.

Section Sorted.
Lemma sorted_before l : sorted_items l -> forall a b, In a l -> In b l -> item_lt a b ->
  exists l1 l2, l = l1 ++ b :: l2 /\ In a l1.
Proof.
  intros Hs a b Ha Hb Hlt. apply in_split in Hb. destruct Hb as (l1 & l2 & ->). exists l1, l2. split; auto.
  apply in_app_iff in Ha. destruct Ha as [Ha|[->|Ha]]; auto; exfalso.
  - eapply item_lt_irrefl; eauto.
  - assert (Hba : item_lt b a).
    { clear - Hs Ha. induction l1 as [|x l1 IH]; cbn in Hs; inversion Hs as [|? ? H1 H2]; subst.
      - eapply Forall_forall in H2; eauto.
      - auto. }
    rewrite item_lt_iff in Hlt, Hba. lia.
Qed.
Lemma sorted_split l1 b l2 a : sorted_items (l1 ++ b :: l2) -> In a l1 -> item_lt a b.
Proof.
  induction l1 as [|x l1 IH]; cbn; intros Hs Ha; [contradiction|]. inversion Hs as [|? ? H1 H2]; subst.
  destruct Ha as [->|Ha]; [|auto]. eapply Forall_forall in H2; [exact H2|]. apply in_app_iff. right. left. auto.
Qed.
End Sorted.

Section Conflict.
Context {A : Type}.
Variable items : list (grammar_item A).
Notation nts := (declared_nts items).
Notation cs := (token_entries items).
Hypothesis Hnames : distinct_names items.
Variable ti : list (string * nat).
Variable g : grammar (lexpr A).
Hypothesis Hlow : lowered nts cs ti g.
Notation ni := (nt_indices_of nts).
Let Hwf : wf_grammar g := lowered_wf _ _ _ _ Hlow.
Variable tbl : first_table.
Variable states : list lr1_state.
Variable entries : list (nat * nat).
Hypothesis Haut : automaton_ok g tbl states entries.
Variables (gf : list symbol -> option nat -> option nat -> Prop) (uf : list ast_symbol -> option string -> option string -> Prop).

(** Indices follow declaration order. *)
Lemma slots_nth (l : list (ast_non_terminal A)) : forall k a N, nth_error l a = Some N ->
  exists i, nth_error (slots k l) a = Some (N, i) /\ k <= i.
Proof.
  induction l as [|M l IH]; intros k [|a] N H; cbn in *; try discriminate.
  - inversion H; subst. exists k. auto.
  - destruct (IH (k + width M) _ _ H) as (i & H1 & H2). exists i. split; auto. lia.
Qed.
Lemma slots_mono (l : list (ast_non_terminal A)) : forall k a b N M i j, a < b ->
  nth_error (slots k l) a = Some (N, i) -> nth_error (slots k l) b = Some (M, j) -> i + width N <= j.
Proof.
  induction l as [|M0 l IH]; intros k a b N M i j Hab H1 H2; [destruct a; discriminate|].
  destruct b as [|b]; [lia|]. destruct a as [|a]; cbn in H1, H2.
  - inversion H1; subst. apply nth_error_In in H2. apply slots_snd in H2. lia.
  - eapply IH; [|exact H1|exact H2]. lia.
Qed.
Lemma width_pos (N : ast_non_terminal A) : 1 <= width N.
Proof. unfold width; destruct (an_pub N); lia. Qed.

Lemma before_iff N M i j : In (N, i) (slots 0 nts) -> In (M, j) (slots 0 nts) ->
  declared_before nts (an_name N) (an_name M) <-> i < j.
Proof.
  intros HN HM. split.
  - intros (a & b & Hab & Ha & Hb). rewrite nth_error_map in Ha, Hb.
    destruct (nth_error nts a) as [N'|] eqn:Ea; [|discriminate]. destruct (nth_error nts b) as [M'|] eqn:Eb; [|discriminate].
    cbn in Ha, Hb. injection Ha as Ha. injection Hb as Hb.
    destruct (slots_nth _ 0 _ _ Ea) as (i' & Ei & _). destruct (slots_nth _ 0 _ _ Eb) as (j' & Ej & _).
    pose proof (slots_mono _ _ _ _ _ _ _ _ Hab Ei Ej) as Hm. pose proof (width_pos N').
    apply nth_error_In in Ei, Ej.
    pose proof (slot_index nts Hnames _ _ HN) as Q1. pose proof (slot_index nts Hnames _ _ Ei) as Q2.
    pose proof (slot_index nts Hnames _ _ HM) as Q3. pose proof (slot_index nts Hnames _ _ Ej) as Q4.
    rewrite Ha in Q2. rewrite Hb in Q4. assert (i = i') by congruence. assert (j = j') by congruence. lia.
  - intro Hij. apply In_nth_error in HN, HM. destruct HN as (a & Ha), HM as (b & Hb).
    assert (Hab : a < b).
    { destruct (Nat.lt_trichotomy a b) as [H|[->|H]]; auto; exfalso.
      - rewrite Ha in Hb. inversion Hb. lia.
      - pose proof (slots_mono _ _ _ _ _ _ _ _ H Hb Ha). pose proof (width_pos M). lia. }
    exists a, b. split; auto.
    assert (Hf : forall (l : list (ast_non_terminal A)) k c x, nth_error (slots k l) c = Some x -> nth_error (map an_name l) c = Some (an_name (fst x))).
    { clear. induction l as [|M l IH]; intros k [|c] x H; cbn in *; try discriminate; [inversion H; auto|eapply IH; eauto]. }
    split; [apply (Hf _ _ _ _ Ha)|apply (Hf _ _ _ _ Hb)].
Qed.

Lemma before_index a b n m : map_get String.eqb a ni = Some n -> map_get String.eqb b ni = Some m ->
  declared_before nts a b <-> n < m.
Proof.
  intros H1 H2. destruct (nt_indices_inv _ _ _ H1) as (N & HN & <-). destruct (nt_indices_inv _ _ _ H2) as (M & HM & <-).
  apply before_iff; auto.
Qed.

Lemma index_private a n : map_get String.eqb a ni = Some n -> is_private g n.
Proof. intro H. destruct (nt_indices_inv _ _ _ H) as (N & HN & _). eapply slot_private; eauto. Qed.

(** ** No detected conflict: nothing to report *)
Section Sound.
Hypothesis Hld : lookahead_down items g tbl gf uf.
Hypothesis Hno : no_detected_conflict g states.

Lemma no_detected_no_reported : no_reported_conflict_by nts uf.
Proof.
  intros N gamma HNin Hpub Hrc.
  destruct (proj1 (in_map_iff fst (slots 0 nts) N)) as ((N0 & i) & E0 & HN).
  { rewrite slots_fst. exact HNin. }
  cbn in E0. subst N0.
  assert (Hrd : forall lhs p la, ureduces_by nts uf (an_name N) gamma lhs p la -> exists l,
            urhs nts (an_name N) lhs p = Some l /\ uvalid_by nts uf (an_name N) gamma lhs p (List.length l) la) by (intros ? ? ? H; exact H).
  assert (Hcomp : forall lhs n p l la, lhs_rel items i lhs n -> urhs nts (an_name N) lhs p = Some l ->
            is_complete g (mkit n p (List.length l) la) = true /\ exists q, get_production g n p = Some q /\ Forall2 (sym_rel nts cs) l (rhs q)).
  { intros lhs n p l la Hl Hu. destruct (urhs_down items Hnames ti g Hlow N i HN Hpub _ _ _ _ Hl Hu) as (q & Hq & Hf).
    split; [|eauto]. unfold is_complete, item_rhs. cbn. rewrite Hq. apply Nat.eqb_eq. apply (Forall2_length_ _ _ _ Hf). }
  assert (Hwr : forall a n p l la, lhs_rel items i (Some a) n -> urhs nts (an_name N) (Some a) p = Some l ->
            wants_reduce g (mkit n p (List.length l) la) la).
  { intros a n p l la Hl Hu. destruct (Hcomp _ _ _ _ la Hl Hu) as [Hc _]. split; auto. split; auto. eapply index_private; eauto. }
  destruct Hrc as [(a & p & b & q & la & H1 & H2 & Hne)|[(a & p & b & q & k & la & l2 & t & H1 & H2 & Hu2 & Hk & Hbef)|(a & p & H1 & H2 & Hbef)]].
  - destruct H1 as (l1 & Hu1 & H1). destruct H2 as (l2 & Hu2 & H2).
    destruct (b_user_state items Hnames ti g Hlow tbl gf uf Hld states entries Haut N i HN Hpub _ _ _ _ _ H1) as (s & st & Hst & Hall).
    destruct (Hall _ _ _ _ H1) as (n & x & L1 & X1 & I1). destruct (Hall _ _ _ _ H2) as (m & x' & L2 & X2 & I2).
    assert (x' = x) by (eapply la_rel_det; eauto). subst x'.
    pose proof (Hwr _ _ _ _ x L1 Hu1) as W1. pose proof (Hwr _ _ _ _ x L2 Hu2) as W2.
    assert (Hnm : (n, p) <> (m, q)).
    { intro E. inversion E; subst. apply Hne. pose proof (lhs_rel_fun items ti g Hlow N i HN Hpub _ _ _ L1 L2) as E2. congruence. }
    assert (Hord : item_lt (mkit n p (List.length l1) x) (mkit m q (List.length l2) x) \/ item_lt (mkit m q (List.length l2) x) (mkit n p (List.length l1) x)).
    { rewrite !item_lt_iff. cbn. destruct (Nat.eq_dec n m) as [->|]; [|lia]. destruct (Nat.eq_dec p q) as [->|]; [congruence|lia]. }
    destruct Hord as [Ho|Ho].
    + destruct (sorted_before _ (ao_sorted _ _ _ _ Haut _ _ Hst) _ _ I1 I2 Ho) as (y & z & Heq & Hin).
      apply (Hno _ _ Hst _ _ _ Heq x _ W2 Hin). right; left. exact W1.
    + destruct (sorted_before _ (ao_sorted _ _ _ _ Haut _ _ Hst) _ _ I2 I1 Ho) as (y & z & Heq & Hin).
      apply (Hno _ _ Hst _ _ _ Heq x _ W1 Hin). right; left. exact W2.
  - destruct H1 as (l1 & Hu1 & H1).
    destruct (b_user_state items Hnames ti g Hlow tbl gf uf Hld states entries Haut N i HN Hpub _ _ _ _ _ H1) as (s & st & Hst & Hall).
    destruct (Hall _ _ _ _ H1) as (n & x & L1 & X1 & I1). destruct (Hall _ _ _ _ H2) as (m & x' & L2 & X2 & I2).
    pose proof (Hwr _ _ _ _ x L1 Hu1) as W1.
    destruct (urhs_down items Hnames ti g Hlow N i HN Hpub _ _ _ _ L2 Hu2) as (pq & Hpq & Hf).
    destruct (Forall2_nth_l _ _ _ _ _ Hf Hk) as (Y & HY & (ty & Hty & ->)).
    destruct x as [tx|]; [|contradiction]. cbn in X1. assert (tx = ty) by (eapply terminal_unique; eauto). subst tx.
    assert (Hnx : next_symbol g (mkit m q k x') = Some (T ty)) by (eapply nth_error_next; eauto).
    destruct (ao_total _ _ _ _ Haut _ _ _ _ Hst I2 Hnx) as (j & Hj).
    assert (Ho : item_lt (mkit m q k x') (mkit n p (List.length l1) (Some ty))).
    { rewrite item_lt_iff. cbn. destruct Hbef as [Hbef|[-> Hqp]].
      - left. apply (before_index _ _ _ _ L2 L1) in Hbef. exact Hbef.
      - cbn in L1, L2. assert (m = n) by congruence. subst m. right. split; auto.
        destruct (Nat.eq_dec q p) as [->|]; [|lia]. right. split; auto. left.
        assert (l2 = l1) by congruence. subst l2. apply nth_error_Some. congruence. }
    destruct (sorted_before _ (ao_sorted _ _ _ _ Haut _ _ Hst) _ _ I2 I1 Ho) as (y & z & Heq & Hin).
    apply (Hno _ _ Hst _ _ _ Heq (Some ty) _ W1 Hin). left. exists j, ty. auto.
  - destruct H1 as (l1 & Hu1 & H1). destruct H2 as (l2 & Hu2 & H2).
    destruct (b_user_state items Hnames ti g Hlow tbl gf uf Hld states entries Haut N i HN Hpub _ _ _ _ _ H1) as (s & st & Hst & Hall).
    destruct (Hall _ _ _ _ H1) as (n & x & L1 & X1 & I1). destruct (Hall _ _ _ _ H2) as (m & x' & L2 & X2 & I2).
    destruct x; [contradiction|]. destruct x'; [contradiction|].
    pose proof (Hwr _ _ _ _ None L1 Hu1) as W1. cbn in L2. subst m.
    cbn in Hu2. injection Hu2 as <-.
    assert (Ho : item_lt (mkit (S i) 0 1 None) (mkit n p (List.length l1) None)).
    { rewrite item_lt_iff. cbn. left. pose proof (slot_index nts Hnames _ _ HN) as Hi.
      apply (before_index _ _ _ _ Hi L1) in Hbef.
      destruct (Nat.eq_dec n (S i)) as [->|]; [|lia]. exfalso.
      pose proof (index_private _ _ L1) as Hpv.
      assert (HP : is_public g (S i)) by (eexists; split; [eapply entry_nt; eauto|reflexivity]).
      eapply public_private_excl; eauto. }
    destruct (sorted_before _ (ao_sorted _ _ _ _ Haut _ _ Hst) _ _ I2 I1 Ho) as (y & z & Heq & Hin).
    apply (Hno _ _ Hst _ _ _ Heq None _ W1 Hin). right; right. repeat split; auto.
    eexists; split; [eapply entry_nt; eauto|reflexivity].
Qed.
End Sound.

(** ** Nothing to report: no detected conflict *)
Section NoSpurious.
Hypothesis Hlu : lookahead_up items g tbl gf uf.
Hypothesis Hnr : no_reported_conflict_by nts uf.

Lemma lhs_private i a n : lhs_rel items i a n -> is_private g n -> is_public g (S i) -> exists nm, a = Some nm.
Proof. intros H1 H2 H3. destruct a as [nm|]; eauto. cbn in H1. subst. exfalso. eapply public_private_excl; eauto. Qed.

Lemma no_reported_no_detected : no_detected_conflict g states.
Proof.
  intros s st Hst l1 it l2 Heq la b (Hc & Hpriv & Hla) Hb Hw.
  destruct (b_state_items items g tbl gf uf Hlu states entries Haut _ _ Hst) as (S0 & gamma & HS & Hv).
  pose proof HS as (M & HM & HMp).
  destruct (public_inv nts cs ti g Hlow _ _ HM HMp) as (N & i & HN & Hpub & -> & _).
  assert (HNin : In N nts) by (eapply slots_In; eauto).
  assert (Hit : In it (st_items st)) by (rewrite Heq; apply in_app_iff; right; left; auto).
  assert (Hb' : In b (st_items st)) by (rewrite Heq; apply in_app_iff; left; auto).
  assert (Hlt : item_lt b it).
  { eapply sorted_split; [|exact Hb]. rewrite <- Heq. eapply ao_sorted; eauto. }
  destruct (ivb_prod items ti g Hlow gf _ _ _ HS (Hv _ Hit)) as (pr & Hpr).
  destruct (ivb_prod items ti g Hlow gf _ _ _ HS (Hv _ Hb')) as (pb & Hpb).
  pose proof (b_complete_reduces g gf _ _ _ _ (Hv _ Hit) Hpr Hc) as Hr. rewrite Hla in Hr.
  destruct (b_reduces_up items Hnames ti g Hlow tbl gf uf Hlu N i HN Hpub _ _ _ _ Hr) as (g1 & a & la1 & A1 & A2 & A3 & A4 & A5).
  destruct (lhs_private _ _ _ A3 Hpriv HS) as (an & ->).
  assert (Hsame : forall n p la', reduces_by g gf (S i) gamma n p la' -> forall lhs, lhs_rel items i lhs n -> forall x, la_rel items x la' ->
            ureduces_by nts uf (an_name N) g1 lhs p x).
  { intros n p la' H lhs Hl x Hx.
    destruct (b_reduces_up items Hnames ti g Hlow tbl gf uf Hlu N i HN Hpub _ _ _ _ H) as (g2 & b2 & la2 & B1 & B2 & B3 & B4 & B5).
    rewrite (plain_fun items gamma g1 g2 A1 B1 A2 B2). rewrite (lhs_rel_fun items ti g Hlow N i HN Hpub _ _ _ Hl B3).
    rewrite (la_rel_fun items _ _ _ Hx B4). exact B5. }
  apply (Hnr N g1 HNin Hpub).
  destruct Hw as [(n & t & -> & Hn & _)|[(Hcb & Hpb' & Hlb)|(Hpubb & Hcb & Hlab & Hlb)]].
  - right; left.
    destruct (b_valid_up items Hnames ti g Hlow tbl gf uf Hlu N i HN Hpub _ _ _ _ _ (Hv _ Hb')) as (g2 & bl & la2 & B1 & B2 & B3 & B4 & B5).
    pose proof (plain_fun items gamma g1 g2 A1 B1 A2 B2). subst g2.
    destruct (urhs_up items Hnames ti g Hlow N i HN Hpub _ _ _ _ B3 Hpb) as (l & L1 & L2 & L3).
    assert (Hk : nth_error (rhs pb) (it_cursor b) = Some (T t)).
    { destruct (next_symbol_production g _ _ Hn) as (q & Hq & Hk). congruence. }
    destruct (Forall2_nth _ _ _ _ _ L2 Hk) as (sy & Hsy & Hsr).
    assert (Hsu : unnamed sy = sy) by (eapply Forall_forall in L3; [exact L3|eapply nth_error_In; eauto]).
    destruct (plain_eq items _ _ Hsu Hsr) as (t' & -> & Ht').
    destruct la1 as [t1|]; [|contradiction]. cbn in A4. assert (t1 = t') by congruence. subst t1.
    assert (Hbl : exists bn, bl = Some bn).
    { destruct bl as [bn|]; eauto. exfalso. unfold urhs in L1. destruct (Nat.eqb (it_prod b) 0); [|discriminate]. injection L1 as <-.
      destruct (it_cursor b) as [|[|]]; cbn in Hsy; discriminate. }
    destruct Hbl as (bn & ->).
    exists an, (it_prod it), bn, (it_prod b), (it_cursor b), la2, l, t'. repeat (split; [assumption|]).
    rewrite item_lt_iff in Hlt. destruct Hlt as [Hlt|[E1 Hlt]].
    + left. apply (before_index _ _ _ _ B3 A3). exact Hlt.
    + right. split; [|lia]. rewrite E1 in B3. pose proof (lhs_rel_fun items ti g Hlow N i HN Hpub _ _ _ A3 B3). congruence.
  - left.
    pose proof (b_complete_reduces g gf _ _ _ _ (Hv _ Hb') Hpb Hcb) as Hr2. rewrite Hlb in Hr2.
    destruct (b_reduces_up items Hnames ti g Hlow tbl gf uf Hlu N i HN Hpub _ _ _ _ Hr2) as (g2 & bl & la2 & B1 & B2 & B3 & B4 & B5).
    destruct (lhs_private _ _ _ B3 Hpb' HS) as (bn & ->).
    exists an, (it_prod it), bn, (it_prod b), la1. split; auto. split; [apply (Hsame _ _ _ Hr2); auto|].
    intro E. inversion E as [[E1 E2]]. rewrite <- E1 in B3. pose proof (lhs_rel_inj _ _ _ _ _ A3 B3) as E3.
    unfold is_complete in Hc, Hcb. apply Nat.eqb_eq in Hc, Hcb. unfold item_rhs in Hc, Hcb. rewrite <- E3, <- E2 in Hcb.
    rewrite item_lt_iff in Hlt. rewrite Hla, Hlb in Hlt. lia.
  - right; right. rewrite Hlb in *. clear Hlb la.
    assert (Hr2 : reduces_by g gf (S i) gamma (it_nt b) (it_prod b) None).
    { exists pb. split; auto. destruct (wf_public_prod g Hwf _ _ _ Hpb Hpubb) as (_ & m & Hm & _).
      rewrite Hm. simpl. specialize (Hv _ Hb'). unfold ivb in Hv. rewrite Hcb, Hlab in Hv. auto. }
    destruct (b_reduces_up items Hnames ti g Hlow tbl gf uf Hlu N i HN Hpub _ _ _ _ Hr2) as (g2 & bl & la2 & B1 & B2 & B3 & B4 & B5).
    assert (bl = None).
    { destruct bl as [bn|]; auto. exfalso. cbn in B3. eapply public_private_excl; [exact Hpubb|]. eapply index_private; eauto. }
    subst bl. cbn in B3. destruct la1; [contradiction|].
    destruct (wf_public_prod g Hwf _ _ _ Hpb Hpubb) as (Hp0 & m & Hm & _).
    exists an, (it_prod it). split; auto. split.
    + rewrite Hp0 in Hr2. apply (Hsame _ _ _ Hr2); [exact B3|exact Logic.I].
    + pose proof (slot_index nts Hnames _ _ HN) as Hi. apply (before_index _ _ _ _ Hi A3).
      rewrite item_lt_iff in Hlt. rewrite B3 in Hlt.
      destruct (Nat.eq_dec (it_nt it) (S i)) as [E|]; [|lia]. exfalso. rewrite E in Hpriv. eapply public_private_excl; eauto.
Qed.
End NoSpurious.
End Conflict.
