(** * UserLr1: the grammar classes of USpec.v and the lowered grammar *)
From Verif Require Export USpec UserProofs RunTrace FirstClosed.

Section UserLr1.
Context {A : Type}.
Variable items : list (grammar_item A).
Notation nts := (declared_nts items).
Notation cs := (token_entries items).
Hypothesis Hnames : distinct_names items.
Variable ti : list (string * nat).
Variable g : grammar (lexpr A).
Hypothesis Hlow : lowered nts cs ti g.
Notation ni := (nt_indices_of nts).
Notation sym_rel := (sym_rel nts cs).
Notation plain ss := (Forall (fun s => unnamed s = s) ss).

Lemma unnamed_idem s : unnamed (unnamed s) = unnamed s.
Proof. induction s; cbn; auto. Qed.
Lemma body_plain (pr : ast_production A) : plain (body pr).
Proof. apply Forall_forall. intros x H. apply in_map_iff in H. destruct H as (y & <- & _). apply unnamed_idem. Qed.

Lemma body_rel_rhs (pr : ast_production A) (q : production (lexpr A)) : lprod ni ti pr = Ok q -> Forall2 sym_rel (body pr) (rhs q).
Proof.
  intro H. destruct (lprod_rhs nts cs ti g Hlow _ _ H) as (_ & _ & Hr). apply Forall2_rhs in Hr. unfold body.
  change (rhs q) with (map bs_symbol (p_symbols q)) in *.
  induction Hr as [|s X ss Xs H1 H2 IH]; cbn; constructor; auto. apply sym_rel_unnamed in H1. exact H1.
Qed.

Lemma plain_eq s X : unnamed s = s -> sym_rel s X ->
  match X with T i => exists t, s = ASTerminal t /\ nth_error (map cv_from cs) i = Some t
             | NT i => exists n, s = ASNonTerminal n /\ map_get String.eqb n ni = Some i end.
Proof.
  unfold LowerTrees.sym_rel. intros E H. rewrite E in H. destruct s; try contradiction; destruct H as (i & H1 & ->); eauto.
Qed.

Lemma dstep_down ss ss' Xs : udstep nts ss ss' -> Forall2 sym_rel ss Xs ->
  exists Ys, dstep g Xs Ys /\ Forall2 sym_rel ss' Ys.
Proof.
  intros Hd Hf. inversion Hd as [l n p pr r Hp]; subst.
  apply Forall2_app_inv_l in Hf. destruct Hf as (X1 & X2 & F1 & F2 & ->). inversion F2 as [|s X r1 r' Hs Hr]; subst.
  destruct Hs as (i & Hi & ->). destruct (production_down nts cs ti g Hlow Hnames _ _ _ _ Hi Hp) as (q & Hq & Hl).
  exists (X1 ++ rhs q ++ r'). split; [econstructor; eauto|]. apply Forall2_app; auto. apply Forall2_app; auto.
  apply body_rel_rhs; auto.
Qed.
Lemma derives_down ss ss' : uderives nts ss ss' -> forall Xs, Forall2 sym_rel ss Xs ->
  exists Ys, derives g Xs Ys /\ Forall2 sym_rel ss' Ys.
Proof.
  induction 1 as [l|l m r Hs Hd IH]; intros Xs Hf.
  - exists Xs. split; [constructor|auto].
  - destruct (dstep_down _ _ _ Hs Hf) as (Y1 & D1 & F1). destruct (IH _ F1) as (Y2 & D2 & F2).
    exists Y2. split; auto. econstructor; eauto.
Qed.

Lemma sym_rel_nt n i : map_get String.eqb n ni = Some i -> sym_rel (ASNonTerminal n) (NT i).
Proof. intro H. exists i. auto. Qed.

Lemma nullable_up n i : map_get String.eqb n ni = Some i -> nullable g i -> unullable nts n.
Proof.
  intros Hi Hn. apply nullable_iff in Hn.
  destruct (derives_up nts cs ti g Hlow Hnames _ _ Hn [ASNonTerminal n]) as (ss & H1 & H2 & _).
  - constructor; [apply sym_rel_nt; auto|constructor].
  - constructor; [reflexivity|constructor].
  - inversion H2; subst. exact H1.
Qed.

(** Non-terminals in tails of lowered productions are declared ones in tails. *)
Lemma tail_up n p q X l m : get_production g n p = Some q -> rhs q = X :: l -> In (NT m) l ->
  exists nm, map_get String.eqb nm ni = Some m /\ in_tail nts nm.
Proof.
  intros Hq Hr Hin.
  destruct (get_production_inv nts cs ti g Hlow _ _ _ Hq) as [(M & j & HM & HMp & -> & -> & ->)|(M & j & HM & -> & Hadd)].
  - cbn in Hr. inversion Hr; subst. contradiction.
  - assert (Hni : map_get String.eqb (an_name M) ni = Some j) by (apply (slot_index nts Hnames); auto).
    destruct (production_up nts cs ti g Hlow Hnames _ _ _ _ Hni Hq) as (up & Hup & Hlp).
    pose proof (body_rel_rhs _ _ Hlp) as Hb. rewrite Hr in Hb. inversion Hb as [|s Y ss Ys H1 H2 E1]; subst.
    apply in_split in Hin. destruct Hin as (a & b & ->). apply Forall2_app_inv_r in H2. destruct H2 as (sa & sb & F1 & F2 & ->).
    inversion F2 as [|s2 Y2 sr Yr F3 F4]; subst.
    pose proof (body_plain up) as Hpl. rewrite <- E1 in Hpl. inversion Hpl as [|? ? _ Hpl1]; subst. apply Forall_app in Hpl1. destruct Hpl1 as [_ Hpl2].
    inversion Hpl2 as [|? ? Hu _]; subst. destruct (plain_eq _ _ Hu F3) as (nm & -> & Hn).
    exists nm. split; auto. exists (an_name M), p, up, s, (sa ++ ASNonTerminal nm :: sr). split; auto. split; auto.
    apply in_app_iff. right. left. auto.
Qed.

Section First.
Variable ho : hash_order.
Hypothesis Hho : hash_order_ok ho.
Variable fuel : nat.
Variable tbl : first_table.
Hypothesis Htbl : generate_first_table ho fuel g = Ok tbl.

Lemma tails_plain_complete : tails_plain nts -> first_complete_tails g tbl.
Proof.
  intros (R & HR1 & HR2).
  assert (Hpl : plain_leading g (fun i => exists n, map_get String.eqb n ni = Some i /\ R n)).
  { intros n p q m r (nm & Hn & HRn) Hq Hr.
    destruct (production_up nts cs ti g Hlow Hnames _ _ _ _ Hn Hq) as (up & Hup & Hlp).
    pose proof (body_rel_rhs _ _ Hlp) as Hb. rewrite Hr in Hb. inversion Hb as [|s Y ss Ys H1 H2 E1]; subst.
    pose proof (body_plain up) as Hpp. rewrite <- E1 in Hpp. inversion Hpp as [|? ? Hu _]; subst.
    destruct (plain_eq _ _ Hu H1) as (mm & -> & Hm). symmetry in E1.
    destruct (HR2 _ _ _ _ _ HRn Hup E1) as [G1 G2]. split; [|eauto]. intro Hnull. apply G1. eapply nullable_up; eauto. }
  intros n p pr X l m Hp Hr Hin. destruct (tail_up _ _ _ _ _ _ Hp Hr Hin) as (nm & Hm & Ht).
  unfold first_complete_at. eapply (first_table_complete_on g ho (hok_terms _ Hho)); eauto. exists nm. split; auto.
Qed.

Lemma tails_inhabited : tails_plain nts -> tails_productive nts -> inhabited_first g tbl.
Proof.
  intros Hpl Hpr n p pr X l m Hp Hr Hin. pose proof (tails_plain_complete Hpl _ _ _ _ _ _ Hp Hr Hin) as [Hn Hf].
  destruct (tail_up _ _ _ _ _ _ Hp Hr Hin) as (nm & Hm & Ht). destruct (Hpr _ Ht) as (w & Hw).
  destruct (derives_down _ _ Hw [NT m]) as (Ys & Hd & HY).
  { constructor; [apply sym_rel_nt; auto|constructor]. }
  destruct w as [|t w].
  - inversion HY; subst. left. apply Hn. apply nullable_iff. exact Hd.
  - inversion HY as [|s Y ss Ys' H1 H2]; subst. destruct H1 as (i & _ & ->). right. exists i. apply Hf.
    apply first_of_iff. exists Ys'. exact Hd.
Qed.

Lemma private_slot n p q : is_private g n -> get_production g n p = Some q -> exists M, In (M, n) (slots 0 nts).
Proof.
  intros Hp Hq.
  destruct (get_production_inv nts cs ti g Hlow _ _ _ Hq) as [(M & j & HM & HMp & -> & _)|(M & j & HM & -> & _)]; eauto.
  exfalso. assert (HP : is_public g (S j)) by (eexists; split; [eapply entry_nt; eauto|reflexivity]).
  eapply public_private_excl; eauto.
Qed.

Lemma empty_direct_down : empty_direct nts -> direct_empty g.
Proof.
  intros H n Hp Hn. assert (Hq : exists p q, get_production g n p = Some q) by (destruct Hn; eauto).
  destruct Hq as (p & q & Hq). destruct (private_slot _ _ _ Hp Hq) as (M & HM).
  assert (Hni : map_get String.eqb (an_name M) ni = Some n) by (apply (slot_index nts Hnames); auto).
  destruct (H _ (nullable_up _ _ Hni Hn)) as (p' & pr & Hup & Hs).
  destruct (production_down nts cs ti g Hlow Hnames _ _ _ _ Hni Hup) as (q' & Hq' & Hlp).
  exists p', q'. split; auto. pose proof (body_rel_rhs _ _ Hlp) as Hb. unfold body in Hb. rewrite Hs in Hb. inversion Hb; auto.
Qed.

Lemma tails_direct_inhabited : empty_direct nts -> tails_productive nts -> inhabited_first g tbl.
Proof.
  intros Hed Hpr n p pr X l m Hp Hr Hin.
  destruct (tail_up _ _ _ _ _ _ Hp Hr Hin) as (nm & Hm & Ht). destruct (Hpr _ Ht) as (w & Hw).
  destruct (derives_down _ _ Hw [NT m]) as (Ys & Hd & HY).
  { constructor; [apply sym_rel_nt; auto|constructor]. }
  assert (HYt : exists w', Ys = map T w').
  { clear - HY. revert Ys HY. induction w as [|t w IH]; intros Ys HY; inversion HY as [|s Y ss Ys' H1 H2]; subst.
    - exists []; auto.
    - destruct (IH _ H2) as (w' & ->). destruct H1 as (j & _ & ->). exists (j :: w'); auto. }
  destruct HYt as (w' & ->).
  eapply (generating_inhabited g (lowered_wf _ _ _ _ Hlow) ho (hok_terms _ Hho) (empty_direct_down Hed)); eauto.
  - eapply derives_generating; [exact Hd|left; auto].
  - eapply wfg_nt; [eapply lowered_wf; eauto|exact Hp|]. rewrite Hr. right; auto.
Qed.

Lemma reliable_inhabited : tails_reliable nts -> inhabited_first g tbl.
Proof. intros [H1 [H2|H2]]; [apply tails_inhabited|apply tails_direct_inhabited]; auto. Qed.
End First.

Lemma no_empty_tails_plain : no_empty_production nts -> tails_plain nts.
Proof.
  intro H. exists (fun _ => True). split; auto. intros n p pr m l _ Hp Hb. split; auto. intro Hn.
  assert (Hne : forall l l', uderives nts l l' -> l <> [] -> l' <> []).
  { clear - H. induction 1 as [|a b c Hs Hd IH]; auto. intros _. apply IH. inversion Hs; subst.
    specialize (H _ _ _ H0). destruct l; cbn; [|discriminate]. destruct (ap_symbols pr); [congruence|discriminate]. }
  apply (Hne _ _ Hn); discriminate || reflexivity.
Qed.

(** ** LR(1) *)
Section Lr1.
Variable N : ast_non_terminal A.
Variable i : nat.
Hypothesis HN : In (N, i) (slots 0 nts).
Hypothesis Hpub : an_pub N = true.
Notation S0 := (S i).

(** Left-hand sides *)
Definition lhs_rel (lhs : option string) (n : nat) : Prop :=
  match lhs with None => n = S0 | Some nm => map_get String.eqb nm ni = Some n end.
Definition la_rel (x : option string) (y : option nat) : Prop :=
  match x, y with
  | None, None => True
  | Some t, Some j => nth_error (map cv_from cs) j = Some t
  | _, _ => False
  end.

Lemma urhs_up lhs n p q : lhs_rel lhs n -> get_production g n p = Some q ->
  exists l, urhs nts (an_name N) lhs p = Some l /\ Forall2 sym_rel l (rhs q) /\ plain l.
Proof.
  intros Hl Hq. destruct lhs as [nm|]; cbn in Hl.
  - destruct (production_up nts cs ti g Hlow Hnames _ _ _ _ Hl Hq) as (up & Hup & Hlp).
    exists (body up). cbn. rewrite Hup. split; auto. split; [apply body_rel_rhs; auto|apply body_plain].
  - subst n. unfold get_production in Hq. rewrite (entry_nt nts cs ti g Hlow N i HN Hpub) in Hq. cbn in Hq.
    destruct p as [|[|p]]; cbn in Hq; try discriminate. inversion Hq; subst. cbn.
    exists [ASNonTerminal (an_name N)]. split; auto. split; [|repeat constructor].
    constructor; [|constructor]. eapply body_rel; eauto.
Qed.

Lemma Forall2_nth {X Y} (R : X -> Y -> Prop) l l' k y : Forall2 R l l' -> nth_error l' k = Some y ->
  exists x, nth_error l k = Some x /\ R x y.
Proof. intros H. revert k. induction H as [|x y' l l' H1 H2 IH]; intros [|k] E; cbn in *; try discriminate; [inversion E; subst; eauto|apply IH; auto]. Qed.
Lemma Forall2_skipn {X Y} (R : X -> Y -> Prop) l l' k : Forall2 R l l' -> Forall2 R (skipn k l) (skipn k l').
Proof. intros H. revert k. induction H as [|x y' l l' H1 H2 IH]; intros [|k]; cbn; auto. Qed.
Lemma Forall_skipn_ {X} (P : X -> Prop) l k : Forall P l -> Forall P (skipn k l).
Proof. intros H. revert k. induction H as [|x l H1 H2 IH]; intros [|k]; cbn; auto. Qed.

Lemma in_first_up ss Xs la la' x : Forall2 sym_rel ss Xs -> plain ss -> la_rel la' la -> in_first g Xs la x ->
  exists x', la_rel x' x /\ uin_first nts ss la' x'.
Proof.
  intros Hf Hp Hl [(t & -> & r & Hd)|[Hd ->]].
  - destruct (derives_up nts cs ti g Hlow Hnames _ _ Hd _ Hf Hp) as (s2 & H1 & H2 & H3).
    inversion H2 as [|s Y ss2 Ys F1 F2]; subst. inversion H3; subst.
    destruct (plain_eq s (T t) ltac:(assumption) F1) as (nm & -> & Hn). exists (Some nm). split; [exact Hn|]. left. eauto.
  - destruct (derives_up nts cs ti g Hlow Hnames _ _ Hd _ Hf Hp) as (s2 & H1 & H2 & H3). inversion H2; subst.
    exists la'. split; auto. right. auto.
Qed.

Lemma lr1_valid_up gamma n p k la : lr1_valid g S0 gamma n p k la ->
  exists gamma' lhs la', Forall2 sym_rel gamma' gamma /\ plain gamma' /\ lhs_rel lhs n /\ la_rel la' la /\
    ulr1_valid nts (an_name N) gamma' lhs p k la'.
Proof.
  induction 1 as [|gamma B p k la pr C q pr' x H IH Hpr Hk Hq Hx|gamma B p k la pr X H IH Hpr Hk].
  - exists [], None, None. split; [constructor|]. split; [constructor|]. cbn. split; auto. split; auto. constructor.
  - destruct IH as (gamma' & lhs & la' & G1 & G2 & G3 & G4 & G5).
    destruct (urhs_up _ _ _ _ G3 Hpr) as (l & L1 & L2 & L3).
    destruct (Forall2_nth _ _ _ _ _ L2 Hk) as (s & Hs & Hsr).
    assert (Hsu : unnamed s = s) by (eapply Forall_forall in L3; [exact L3|eapply nth_error_In; eauto]).
    destruct (plain_eq _ _ Hsu Hsr) as (nm & -> & Hnm).
    destruct (in_first_up _ _ _ _ _ (Forall2_skipn _ _ _ (k + 1) L2) (Forall_skipn_ _ _ (k + 1) L3) G4 Hx) as (x' & X1 & X2).
    destruct (urhs_up (Some nm) C q pr' Hnm Hq) as (l' & L1' & _).
    exists gamma', (Some nm), x'. split; auto. split; auto. split; auto. split; auto. eapply ulv_closure; eauto.
  - destruct IH as (gamma' & lhs & la' & G1 & G2 & G3 & G4 & G5).
    destruct (urhs_up _ _ _ _ G3 Hpr) as (l & L1 & L2 & L3).
    destruct (Forall2_nth _ _ _ _ _ L2 Hk) as (s & Hs & Hsr).
    assert (Hsu : unnamed s = s) by (eapply Forall_forall in L3; [exact L3|eapply nth_error_In; eauto]).
    exists (gamma' ++ [s]), lhs, la'. split; [apply Forall2_app; auto|]. split; [apply Forall_app; auto|].
    split; auto. split; auto. eapply ulv_move; eauto.
Qed.

Lemma plain_fun gamma : forall g1 g2, Forall2 sym_rel g1 gamma -> Forall2 sym_rel g2 gamma -> plain g1 -> plain g2 -> g1 = g2.
Proof. intros g1 g2 H1 H2 P1 P2. rewrite <- (map_unnamed_id g1 P1), <- (map_unnamed_id g2 P2). eapply sym_list_fun; eauto. Qed.
Lemma la_rel_fun x x' y : la_rel x y -> la_rel x' y -> x = x'.
Proof. destruct x, x', y; cbn; try tauto; congruence. Qed.

Lemma reduces_up gamma n p la : lr1_reduces g S0 gamma n p la ->
  exists gamma' lhs la', Forall2 sym_rel gamma' gamma /\ plain gamma' /\ lhs_rel lhs n /\ la_rel la' la /\
    ulr1_reduces nts (an_name N) gamma' lhs p la'.
Proof.
  intros (pr & Hpr & Hv). destruct (lr1_valid_up _ _ _ _ _ Hv) as (gamma' & lhs & la' & G1 & G2 & G3 & G4 & G5).
  destruct (urhs_up _ _ _ _ G3 Hpr) as (l & L1 & L2 & L3).
  exists gamma', lhs, la'. repeat (split; auto). exists l. split; auto. rewrite (Forall2_length_ _ _ _ L2). exact G5.
Qed.
Lemma shifts_up gamma t : lr1_shifts g S0 gamma t ->
  exists gamma' t', Forall2 sym_rel gamma' gamma /\ plain gamma' /\ nth_error (map cv_from cs) t = Some t' /\
    ulr1_shifts nts (an_name N) gamma' t'.
Proof.
  intros (B & p & k & la & pr & Hv & Hpr & Hk). destruct (lr1_valid_up _ _ _ _ _ Hv) as (gamma' & lhs & la' & G1 & G2 & G3 & G4 & G5).
  destruct (urhs_up _ _ _ _ G3 Hpr) as (l & L1 & L2 & L3).
  destruct (Forall2_nth _ _ _ _ _ L2 Hk) as (s & Hs & Hsr).
  assert (Hsu : unnamed s = s) by (eapply Forall_forall in L3; [exact L3|eapply nth_error_In; eauto]).
  destruct (plain_eq _ _ Hsu Hsr) as (t' & -> & Ht).
  exists gamma', t'. repeat (split; auto). exists lhs, p, k, la', l. auto.
Qed.

Lemma lhs_rel_fun a b n : lhs_rel a n -> lhs_rel b n -> a = b.
Proof.
  assert (Hx : forall nm, map_get String.eqb nm ni = Some S0 -> False).
  { intros nm H. destruct (nt_indices_inv _ _ _ H) as (M & HM & _). pose proof (slot_private nts cs ti g Hlow _ _ HM) as Hpv.
    assert (HP : is_public g S0) by (eexists; split; [eapply entry_nt; eauto|reflexivity]).
    eapply public_private_excl; eauto. }
  destruct a as [a|], b as [b|]; cbn; intros H1 H2; subst; auto.
  - assert (Hs : forall nm, map_get String.eqb nm ni = Some n -> sym_rel (ASNonTerminal nm) (NT n)) by (intros; apply sym_rel_nt; auto).
    assert (E : ASNonTerminal a = ASNonTerminal b).
    { change (unnamed (ASNonTerminal a) = unnamed (ASNonTerminal b)). eapply sym_rel_fun; eauto. }
    congruence.
  - exfalso; eauto.
  - exfalso; eauto.
Qed.
Lemma lhs_rel_inj a n m : lhs_rel a n -> lhs_rel a m -> n = m.
Proof. destruct a; cbn; congruence. Qed.
End Lr1.

Lemma lr1_up : ulr1_grammar nts -> lr1_grammar g.
Proof.
  intros H S0 gamma (M & HM & Hp).
  destruct (public_inv nts cs ti g Hlow _ _ HM Hp) as (N & i & HN & Hpub & -> & _).
  destruct (H N) with (gamma := @nil ast_symbol) as [_ _]; [eapply slots_In; eauto|auto|].
  assert (HNin : In N nts) by (eapply slots_In; eauto).
  split.
  - intros B p C q la R1 R2.
    destruct (reduces_up N i HN Hpub _ _ _ _ R1) as (g1 & a & la1 & A1 & A2 & A3 & A4 & A5).
    destruct (reduces_up N i HN Hpub _ _ _ _ R2) as (g2 & b & la2 & B1 & B2 & B3 & B4 & B5).
    pose proof (plain_fun _ _ _ A1 B1 A2 B2). subst g2. pose proof (la_rel_fun _ _ _ A4 B4). subst la2.
    destruct (H N g1 HNin Hpub) as [G _]. destruct (G _ _ _ _ _ A5 B5) as [-> ->]. split; auto.
    eapply lhs_rel_inj; eauto.
  - intros B p t R1 R2.
    destruct (reduces_up N i HN Hpub _ _ _ _ R1) as (g1 & a & la1 & A1 & A2 & A3 & A4 & A5).
    destruct (shifts_up N i HN Hpub _ _ R2) as (g2 & t' & B1 & B2 & B3 & B4).
    pose proof (plain_fun _ _ _ A1 B1 A2 B2). subst g2.
    destruct la1 as [t1|]; [|contradiction]. cbn in A4. assert (t1 = t') by congruence. subst t1.
    destruct (H N g1 HNin Hpub) as [_ G]. eapply G; eauto.
Qed.
End UserLr1.
