(** * KnuthProofs: the generated parser and Knuth's machine proceed in lockstep *)
From Verif Require Export KnuthSpec PropRun ActionProofs Lookahead.

(** Two reductions of a state on the same lookahead are the same (otherwise a conflict is detected). *)
Lemma reduce_unique {A} (g : grammar A) states : no_detected_conflict g states -> forall s st a b, nth_error states s = Some st ->
  In a (st_items st) -> In b (st_items st) -> red_item g a -> red_item g b -> it_la a = it_la b -> a = b.
Proof.
  intros Hnd s st a b Hst Ha Hb [Hca Hpa] [Hcb Hpb] Hla.
  assert (Hdec : a = b \/ a <> b).
  { destruct a as [a1 a2 a3 a4], b as [b1 b2 b3 b4]. cbn in Hla. subst b4.
    destruct (Nat.eq_dec a1 b1), (Nat.eq_dec a2 b2), (Nat.eq_dec a3 b3); subst; auto; right; congruence. }
  destruct Hdec as [|Hne]; auto. exfalso.
  assert (Htwo : (exists l1 l2, st_items st = l1 ++ b :: l2 /\ In a l1) \/ (exists l1 l2, st_items st = l1 ++ a :: l2 /\ In b l1)).
  { revert Ha Hb. generalize (st_items st). induction l as [|x l IH]; [contradiction|]. intros [->|Ha] [->|Hb]; try congruence.
    - left. apply in_split in Hb. destruct Hb as (l1 & l2 & ->). exists (a :: l1), l2. split; [reflexivity|left; reflexivity].
    - right. apply in_split in Ha. destruct Ha as (l1 & l2 & ->). exists (b :: l1), l2. split; [reflexivity|left; reflexivity].
    - destruct (IH Ha Hb) as [(l1 & l2 & -> & H)|(l1 & l2 & -> & H)]; [left|right]; exists (x :: l1), l2; split; auto; right; auto. }
  destruct Htwo as [(l1 & l2 & Hl & Hi)|(l1 & l2 & Hl & Hi)].
  - apply (Hnd s st Hst l1 b l2 Hl (it_la a) a); [split; [exact Hcb|split; auto]|exact Hi|right; left; split; [exact Hca|split; auto]].
  - apply (Hnd s st Hst l1 a l2 Hl (it_la a) b); [split; [exact Hca|split; auto]|exact Hi|right; left; split; [exact Hcb|split; auto]].
Qed.

Section Decisions.
Context {A : Type}.
Variable items : list (grammar_item A).
Notation nts := (declared_nts items).
Notation cs := (token_entries items).
Hypothesis Hnames : distinct_names items.
Variable ti : list (string * nat).
Variable g : grammar (lexpr A).
Hypothesis Hlow : lowered nts cs ti g.
Hypothesis Hwf : wf_grammar g.
Notation sym_rel := (sym_rel nts cs).
Notation plain ss := (Forall (fun s => unnamed s = s) ss).
Variable N : ast_non_terminal A.
Variable i : nat.
Hypothesis HN : In (N, i) (slots 0 nts).
Hypothesis Hpub : an_pub N = true.
Notation S0 := (S i).
Notation start := (an_name N).
Notation lhs_rel := (lhs_rel items i).
Notation la_rel := (la_rel items).
Variable tbl : first_table.
Variables (gf : list symbol -> option nat -> option nat -> Prop) (uf : list ast_symbol -> option string -> option string -> Prop).
Hypothesis Hlu : lookahead_up items g tbl gf uf.
Hypothesis Hld : lookahead_down items g tbl gf uf.
Variable states : list lr1_state.
Variable entries : list (nat * nat).
Hypothesis Haut : automaton_ok g tbl states entries.
Variable act : nat -> option nat -> option aact.
Hypothesis Hact : act_ok g states act.
Variable e : nat.
Hypothesis Hentry : In (S0, e) entries.

Variables (gamma : list ast_symbol) (pi : list symbol) (s : nat) (ss : list nat).
Hypothesis Hpath : stack_path states e pi (s :: ss).
Hypothesis Hgam : Forall2 sym_rel gamma (rev pi).
Hypothesis Hplain : plain gamma.

Lemma valid_iff lhs n p k lan la : lhs_rel lhs n -> la_rel lan la ->
  (valid_by g gf S0 (rev pi) n p k la <-> uvalid_by nts uf start gamma lhs p k lan).
Proof.
  intros Hl Hla. split; intro H.
  - destruct (b_valid_up items Hnames ti g Hlow tbl gf uf Hlu N i HN Hpub _ _ _ _ _ H) as (gamma' & lhs' & la' & G1 & G2 & G3 & G4 & G5).
    assert (gamma' = gamma) by (eapply (plain_fun items); eauto). subst gamma'.
    assert (la' = lan) by (eapply la_rel_fun; eauto). subst la'.
    assert (lhs' = lhs) by (eapply (lhs_rel_fun items ti g Hlow N i HN Hpub); eauto). subst lhs'. exact G5.
  - destruct (b_valid_down items Hnames ti g Hlow tbl gf uf Hld N i HN Hpub _ _ _ _ _ H) as (gamma' & n' & la' & G1 & G2 & G3 & G4).
    assert (gamma' = rev pi) by (eapply (sym_list_det items ti g Hlow); eauto). subst gamma'.
    assert (la' = la) by (eapply (la_rel_det items ti g Hlow); eauto). subst la'.
    assert (n' = n) by (eapply lhs_rel_inj; eauto). subst n'. exact G4.
Qed.

Lemma top_items : exists st, nth_error states s = Some st /\
  forall it, In it (st_items st) <-> valid_by g gf S0 (rev pi) (it_nt it) (it_prod it) (it_cursor it) (it_la it).
Proof.
  destruct (valid_items g tbl states entries Haut S0 e Hentry _ _ Hpath) as (s' & ss' & st & Heq & Hst & _ & Hi).
  injection Heq as <- <-. exists st. split; auto. intro it. rewrite Hi. split.
  - intros (d & H). exact (b_sound items g tbl gf uf Hlu _ _ _ _ H).
  - intro H. destruct (b_complete items g tbl gf uf Hld _ _ _ _ _ _ H) as (d & Hd). rewrite rev_involutive in Hd.
    exists d. destruct it; exact Hd.
Qed.

Lemma la_rel_exists la : la_in_range (n_terminals g) la -> exists lan, la_rel lan la.
Proof.
  destruct la as [t|]; [|exists None; exact Logic.I]. cbn. intro H.
  unfold n_terminals in H. rewrite (lo_terms _ _ _ _ Hlow) in H.
  destruct (nth_error (map cv_from cs) t) as [x|] eqn:Ex; [exists (Some x); exact Ex|apply nth_error_None in Ex; lia].
Qed.

Lemma d_shift lan la : la_rel lan la -> (exists n, act s la = Some (AShift n)) <-> kshifts_by nts uf start gamma lan.
Proof.
  intro Hla. destruct top_items as (st & Hst & Hi). split.
  - intros (n & Ha). destruct (ac_inv _ _ _ Hact _ _ _ Ha) as (st' & Hst' & it & t & -> & Hit & Hnx & _).
    assert (st' = st) by congruence; subst st'. apply Hi in Hit.
    destruct (next_symbol_production g _ _ Hnx) as (q & Hq & Hk).
    destruct lan as [t'|]; [|contradiction]. exists t'. split; auto.
    destruct (b_shifts_up items Hnames ti g Hlow tbl gf uf Hlu N i HN Hpub (rev pi) t) as (gamma' & t2 & B1 & B2 & B3 & B4).
    { exists (it_nt it), (it_prod it), (it_cursor it), (it_la it), q. auto. }
    assert (gamma' = gamma) by (eapply (plain_fun items); eauto). subst gamma'.
    cbn in Hla. assert (t2 = t') by congruence. subst t2. exact B4.
  - intros (t & -> & lhs & p & k & la' & l & Hv & Hl & Hk). destruct la as [tn|]; [|contradiction].
    destruct (b_valid_down items Hnames ti g Hlow tbl gf uf Hld N i HN Hpub _ _ _ _ _ Hv) as (gamma' & n & x & G1 & G2 & G3 & G4).
    assert (gamma' = rev pi) by (eapply (sym_list_det items ti g Hlow); eauto). subst gamma'.
    destruct (urhs_down items Hnames ti g Hlow N i HN Hpub _ _ _ _ G2 Hl) as (q & Q1 & Q2).
    destruct (Forall2_nth_l _ _ _ _ _ Q2 Hk) as (Y & HY & Hr). destruct Hr as (j & Hj & ->).
    assert (j = tn) by (eapply (terminal_unique nts cs ti g Hlow); eauto). subst j.
    destruct (ac_shift _ _ _ Hact s st (mkit n p k x) tn Hst) as (m & _ & Ha).
    + apply Hi. exact G4.
    + eapply nth_error_next; [exact Q1|exact HY].
    + eauto.
Qed.

Lemma entry_pub : is_public g S0.
Proof. eexists; split; [eapply (entry_nt nts cs ti g Hlow); eauto|reflexivity]. Qed.
Lemma entry_prod : exists q, get_production g S0 0 = Some q /\ rhs q = [NT i].
Proof.
  unfold get_production. rewrite (entry_nt nts cs ti g Hlow N i HN Hpub). cbn. eexists. split; [reflexivity|]. reflexivity.
Qed.

Lemma d_accept lan la : la_rel lan la -> act s la = Some AAccept <-> kaccepts_by nts uf start gamma lan.
Proof.
  intro Hla. destruct top_items as (st & Hst & Hi). split.
  - intro Ha. destruct (ac_inv _ _ _ Hact _ _ _ Ha) as (st' & Hst' & -> & it & Hit & (Hp & Hc & Hl)).
    assert (st' = st) by congruence; subst st'.
    destruct lan as [?|]; [contradiction|].
    pose proof (proj1 (Hi _) Hit) as Hv.
    destruct (valid_items g tbl states entries Haut S0 e Hentry _ _ Hpath) as (s' & ss' & st2 & Heq & Hst2 & _ & Hi2).
    injection Heq as <- <-. assert (st2 = st) by congruence; subst st2.
    destruct (proj1 (Hi2 _) Hit) as (d & Hd).
    destruct (valid_public g Hwf tbl S0 _ _ _ Hd Hp) as (Hnt & Hpr & _).
    rewrite Hnt, Hpr, Hc, Hl in Hv. unfold kaccepts_by. exists [ASNonTerminal start]. split; [reflexivity|].
    cbn [List.length]. apply (valid_iff None S0 0 1 None None); [reflexivity|exact Logic.I|exact Hv].
  - intros (l & Hl & Hv). cbn in Hl. injection Hl as <-. cbn [List.length] in Hv.
    assert (Hv' : valid_by g gf S0 (rev pi) S0 0 1 la) by (apply (valid_iff None S0 0 1 lan la); [reflexivity|exact Hla|exact Hv]).
    pose proof (proj2 (Hi (mkit S0 0 1 la)) Hv') as Hit.
    assert (Hnone : la = None).
    { destruct (valid_items g tbl states entries Haut S0 e Hentry _ _ Hpath) as (s' & ss' & st2 & Heq & Hst2 & _ & Hi2).
      injection Heq as <- <-. assert (st2 = st) by congruence; subst st2.
      destruct (proj1 (Hi2 _) Hit) as (d & Hd).
      destruct (valid_public g Hwf tbl S0 _ _ _ Hd entry_pub) as (_ & _ & Hx & _). exact Hx. }
    subst la. eapply (ac_accept _ _ _ Hact); [exact Hst|exact Hit|]. split; [exact entry_pub|split; reflexivity].
Qed.

Lemma d_reduce lan la n p : la_rel lan la -> act s la = Some (AReduce n p) ->
  exists nm, lhs_rel (Some nm) n /\ kreduces_by nts uf start gamma lan nm p.
Proof.
  intros Hla Ha. destruct top_items as (st & Hst & Hi).
  destruct (ac_inv _ _ _ Hact _ _ _ Ha) as (st' & Hst' & it & Hit & (Hc & Hpv) & <- & <- & Hil).
  assert (st' = st) by congruence; subst st'. apply Hi in Hit.
  assert (Hq : exists q, get_production g (it_nt it) (it_prod it) = Some q).
  { eapply (ivb_prod items ti g Hlow gf S0 (rev pi) it); [|exact Hit]. destruct entry_pub as (M & HM & HMp). exists M; auto. }
  destruct Hq as (q & Hq).
  destruct (private_slot items ti g Hlow _ _ _ Hpv Hq) as (M & HM).
  assert (Hnm : lhs_rel (Some (an_name M)) (it_nt it)) by (apply (slot_index nts Hnames); auto).
  exists (an_name M). split; auto. split; [|split].
  - pose proof (b_complete_reduces g gf S0 (rev pi) it q Hit Hq Hc) as Hr.
    destruct (urhs_up items Hnames ti g Hlow N i HN Hpub _ _ _ _ Hnm Hq) as (l & L1 & L2 & _).
    destruct Hr as (q' & Hq' & Hv). assert (q' = q) by congruence; subst q'.
    exists l. split; auto. rewrite (Forall2_length_ _ _ _ L2). eapply valid_iff; [exact Hnm| |exact Hv]. rewrite Hil. exact Hla.
  - intro Hs. apply (d_shift lan la Hla) in Hs. destruct Hs as (m & Hm). congruence.
  - intro Hs. apply (d_accept lan la Hla) in Hs. congruence.
Qed.

Lemma d_reduces lan la nm p : la_rel lan la -> ureduces_by nts uf start gamma (Some nm) p lan ->
  exists n, lhs_rel (Some nm) n /\ (act s la = Some (AReduce n p) \/ kshifts_by nts uf start gamma lan \/ kaccepts_by nts uf start gamma lan).
Proof.
  intros Hla (l & Hl & Hv). destruct top_items as (st & Hst & Hi).
  destruct (b_valid_down items Hnames ti g Hlow tbl gf uf Hld N i HN Hpub _ _ _ _ _ Hv) as (gamma' & n & x & G1 & G2 & G3 & G4).
  assert (gamma' = rev pi) by (eapply (sym_list_det items ti g Hlow); eauto). subst gamma'.
  assert (x = la) by (eapply (la_rel_det items ti g Hlow); eauto). subst x.
  destruct (urhs_down items Hnames ti g Hlow N i HN Hpub _ _ _ _ G2 Hl) as (q & Q1 & Q2).
  exists n. split; auto.
  destruct (ac_reduce _ _ _ Hact s st (mkit n p (List.length l) la) Hst) as [H|[H|H]].
  - apply Hi. exact G4.
  - split.
    + unfold is_complete. apply Nat.eqb_eq. cbn [it_cursor mkit]. rewrite (item_rhs_prod g (mkit n p (List.length l) la) q Q1).
      eapply Forall2_length_; eauto.
    + cbn in G2 |- *. destruct (nt_indices_inv _ _ _ G2) as (M & HM & _). eapply (slot_private nts cs ti g Hlow); eauto.
  - left. exact H.
  - right; left. apply (d_shift lan la Hla). exact H.
  - right; right. apply (d_accept lan la Hla). exact H.
Qed.

Lemma d_blocked lan la : la_rel lan la -> act s la = None <-> kblocked_by nts uf start gamma lan.
Proof.
  intro Hla. split.
  - intro Ha. split; [|split].
    + intro H. apply (d_shift lan la Hla) in H. destruct H as (n & H). congruence.
    + intro H. apply (d_accept lan la Hla) in H. congruence.
    + intros n p H. destruct (d_reduces lan la n p Hla H) as (m & _ & [H1|[H1|H1]]).
      * congruence.
      * apply (d_shift lan la Hla) in H1. destruct H1 as (k & H1). congruence.
      * apply (d_accept lan la Hla) in H1. congruence.
  - intros (B1 & B2 & B3). destruct (act s la) as [[n|n p|]|] eqn:Ea; auto; exfalso.
    + apply B1. apply (d_shift lan la Hla). eauto.
    + destruct (d_reduce lan la n p Hla Ea) as (nm & _ & (H & _)). eapply B3; eauto.
    + apply B2. apply (d_accept lan la Hla). exact Ea.
Qed.

(** A non-terminal to be reduced is unique. *)
Lemma d_reduce_fun lan la nm p : la_rel lan la -> kreduces_by nts uf start gamma lan nm p ->
  exists n, lhs_rel (Some nm) n /\ act s la = Some (AReduce n p).
Proof.
  intros Hla (H & H1 & H2). destruct (d_reduces lan la nm p Hla H) as (n & Hn & [Ha|[Ha|Ha]]); [eauto|contradiction|contradiction].
Qed.
End Decisions.

(** ** The machine is deterministic where reductions are unique *)
Section Deterministic.
Context {A Tok E V W I : Type}.
Variable nts : list (ast_non_terminal A).
Variable uf : list ast_symbol -> option string -> option string -> Prop.
Variable entries : list string.
Variable class : Tok -> option string.
Variable fields : Tok -> list V.
Variable sem : A -> list (string * bval V) -> W -> option (V * W).
Variable next : I -> option (Tok + E) * I.
Variable start : string.
Notation kconf := (kconf Tok E V W I).
Notation kstep := (kstep_by nts uf class fields sem next start).
Notation kstop := (kstop_by nts uf entries class sem start (V := V) (W := W) (I := I) (E := E)).

Inductive kmove : kconf -> list (kevent Tok E) -> kconf + outcome E V W I -> Prop :=
| km_step : forall c evs c', kstep c evs c' -> kmove c evs (inl c')
| km_stop : forall c evs o, kstop c evs o -> kmove c evs (inr o).

Definition kunique (gamma : list ast_symbol) : Prop := forall la n p n' p',
  kreduces_by nts uf start gamma la n p -> kreduces_by nts uf start gamma la n' p' -> n = n' /\ p = p'.

Lemma klook_fun (tk : option (Tok + E)) x y : klook class tk x -> klook class tk y -> x = y.
Proof. intros H1 H2; destruct H1; inversion H2; congruence. Qed.

Lemma klisted_filter gamma l1 l2 : klisted_by nts uf start gamma l1 -> klisted_by nts uf start gamma l2 -> filter l1 entries = filter l2 entries.
Proof.
  intros H1 H2. apply filter_ext. intro t. specialize (H1 t). specialize (H2 t).
  destruct (l1 t), (l2 t); auto; [symmetry; apply H2; apply H1; auto|apply H1; apply H2; auto].
Qed.

Lemma rev_split {X} (a1 a2 r1 r2 : list X) : rev a1 ++ r1 = rev a2 ++ r2 -> List.length a1 = List.length a2 -> a1 = a2 /\ r1 = r2.
Proof.
  intros H HL. destruct (app_inj_length (rev a1) r1 (rev a2) r2) as (E1 & E2); auto.
  - rewrite !rev_length. exact HL.
  - split; auto. rewrite <- (rev_involutive a1), E1, rev_involutive. reflexivity.
Qed.

Lemma kmove_fun c e1 r1 e2 r2 : kunique (symbols c) -> kmove c e1 r1 -> kmove c e2 r2 -> e1 = e2 /\ r1 = r2.
Proof.
  intros Hu H1 H2. unfold symbols in Hu.
  destruct H1 as [c evs c' Hs|c evs o Hs]; inversion H2 as [c0 evs2 c2 Hs2 E1 E2 E3|c0 evs2 o2 Hs2 E1 E2 E3]; subst; clear H2.
  - destruct Hs as [st tok t it w r it' Hc Hsh Hn|args rest tk it w la n p pr v w' Hk Hr Hp HL Hv].
    + inversion Hs2 as [st2 tok2 t2 it2 w2 r2 it2' Hc2 Hsh2 Hn2|args rest tk it2 w2 la n p pr v w' Hk Hr Hp HL Hv]; subst.
      * assert (t2 = t) by congruence. subst t2. rewrite Hn in Hn2. injection Hn2 as -> ->. auto.
      * exfalso. inversion Hk; subst. assert (t0 = t) by congruence. subst t0. destruct Hr as (_ & Hr & _). contradiction.
    + cbn [kc_stack] in Hu. inversion Hs2 as [st2 tok2 t2 it2 w2 r2 it2' Hc2 Hsh2 Hn2|args2 rest2 tk2 it2 w2 la2 n2 p2 pr2 v2 w2' Hk2 Hr2 Hp2 HL2 Hv2]; subst.
      * exfalso. inversion Hk; subst. assert (t2 = t) by congruence. subst t2. destruct Hr as (_ & Hr & _). contradiction.
      * pose proof (klook_fun _ _ _ Hk Hk2). subst la2. match goal with H : rev args2 ++ rest2 = _ |- _ => rewrite H in Hr2; rename H into Hrev end.
        destruct (Hu _ _ _ _ _ Hr Hr2) as (<- & <-).
        assert (pr2 = pr) by congruence. subst pr2. destruct (rev_split _ _ _ _ Hrev) as (-> & ->); [congruence|].
        rewrite Hv in Hv2. injection Hv2 as <- <-. auto.
  - exfalso. destruct Hs as [st tok t it w r it' Hc Hsh Hn|args rest tk it w la n p pr v w' Hk Hr Hp HL Hv].
    + inversion Hs2 as [|args rest tk it2 w2 la n p pr Hk Hr Hp HL Hv| | |st2 tk2 it2 w2 la listed Hk Hb Hl]; subst.
      * inversion Hk; subst. assert (t0 = t) by congruence. subst t0. destruct Hr as (_ & Hr & _). contradiction.
      * congruence.
      * inversion Hk; subst. assert (t0 = t) by congruence. subst t0. destruct Hb as (Hb & _). contradiction.
    + cbn [kc_stack] in Hu. inversion Hs2 as [v2 it2 w2 Ha Est|args2 rest2 tk2 it2 w2 la2 n2 p2 pr2 Hk2 Hr2 Hp2 HL2 Hv2| | |st2 tk2 it2 w2 la2 listed Hk2 Hb Hl]; subst.
      * inversion Hk; subst. destruct Hr as (_ & _ & Hr). rewrite <- Est in Hr. exact (Hr Ha).
      * pose proof (klook_fun _ _ _ Hk Hk2). subst la2. match goal with H : rev args2 ++ rest2 = _ |- _ => rewrite H in Hr2; rename H into Hrev end.
        destruct (Hu _ _ _ _ _ Hr Hr2) as (<- & <-).
        assert (pr2 = pr) by congruence. subst pr2. destruct (rev_split _ _ _ _ Hrev) as (-> & ->); [congruence|]. congruence.
      * inversion Hk.
      * inversion Hk; congruence.
      * pose proof (klook_fun _ _ _ Hk Hk2). subst la2. destruct Hb as (_ & _ & Hb). destruct Hr as (Hr & _). eapply Hb; eauto.
  - exfalso. destruct Hs2 as [st tok t it w r it' Hc Hsh Hn|args rest tk it w la n p pr v w' Hk Hr Hp HL Hv].
    + inversion Hs as [|args rest tk it2 w2 la n p pr Hk Hr Hp HL Hv| | |st2 tk2 it2 w2 la listed Hk Hb Hl]; subst.
      * inversion Hk; subst. assert (t0 = t) by congruence. subst t0. destruct Hr as (_ & Hr & _). contradiction.
      * congruence.
      * inversion Hk; subst. assert (t0 = t) by congruence. subst t0. destruct Hb as (Hb & _). contradiction.
    + cbn [kc_stack] in Hu. inversion Hs as [v2 it2 w2 Ha Est|args2 rest2 tk2 it2 w2 la2 n2 p2 pr2 Hk2 Hr2 Hp2 HL2 Hv2| | |st2 tk2 it2 w2 la2 listed Hk2 Hb Hl]; subst.
      * inversion Hk; subst. destruct Hr as (_ & _ & Hr). rewrite <- Est in Hr. exact (Hr Ha).
      * pose proof (klook_fun _ _ _ Hk Hk2). subst la2. match goal with H : rev args2 ++ rest2 = _ |- _ => rewrite H in Hr2; rename H into Hrev end.
        destruct (Hu _ _ _ _ _ Hr Hr2) as (<- & <-).
        assert (pr2 = pr) by congruence. subst pr2. destruct (rev_split _ _ _ _ Hrev) as (-> & ->); [congruence|]. congruence.
      * inversion Hk.
      * inversion Hk; congruence.
      * pose proof (klook_fun _ _ _ Hk Hk2). subst la2. destruct Hb as (_ & _ & Hb). destruct Hr as (Hr & _). eapply Hb; eauto.
  - destruct Hs as [v it w Ha|args rest tk it w la n p pr Hk Hr Hp HL Hv|st e it w|st tok it w Hc|st tk it w la listed Hk Hb Hl].
    + inversion Hs2 as [v2 it2 w2 Ha2 Est|args2 rest2 tk2 it2 w2 la2 n2 p2 pr2 Hk2 Hr2 Hp2 HL2 Hv2 Est| | |st2 tk2 it2 w2 la2 listed Hk2 Hb Hl]; subst; auto; exfalso.
      * inversion Hk2; subst. destruct Hr2 as (_ & _ & Hr). rewrite Est in Hr. exact (Hr Ha).
      * inversion Hk2; subst. destruct Hb as (_ & Hb & _). exact (Hb Ha).
    + cbn [kc_stack] in Hu. inversion Hs2 as [v2 it2 w2 Ha Est|args2 rest2 tk2 it2 w2 la2 n2 p2 pr2 Hk2 Hr2 Hp2 HL2 Hv2| | |st2 tk2 it2 w2 la2 listed Hk2 Hb Hl]; subst.
      * exfalso. inversion Hk; subst. destruct Hr as (_ & _ & Hr). rewrite <- Est in Hr. exact (Hr Ha).
      * pose proof (klook_fun _ _ _ Hk Hk2). subst la2. match goal with H : rev args2 ++ rest2 = _ |- _ => rewrite H in Hr2; rename H into Hrev end.
        destruct (Hu _ _ _ _ _ Hr Hr2) as (<- & <-). auto.
      * exfalso. inversion Hk.
      * exfalso. inversion Hk; congruence.
      * exfalso. pose proof (klook_fun _ _ _ Hk Hk2). subst la2. destruct Hb as (_ & _ & Hb). destruct Hr as (Hr & _). eapply Hb; eauto.
    + inversion Hs2 as [|? ? ? ? ? ? ? ? ? Hk2| | |? ? ? ? ? ? Hk2]; subst; auto; exfalso; inversion Hk2.
    + inversion Hs2 as [|? ? ? ? ? ? ? ? ? Hk2| | |? ? ? ? ? ? Hk2]; subst; auto; exfalso; inversion Hk2; congruence.
    + inversion Hs2 as [v2 it2 w2 Ha2 Est|args2 rest2 tk2 it2 w2 la2 n2 p2 pr2 Hk2 Hr2 Hp2 HL2 Hv2 Est| | |st2 tk2 it2 w2 la2 listed2 Hk2 Hb2 Hl2]; subst.
      * exfalso. inversion Hk; subst. destruct Hb as (_ & Hb & _). exact (Hb Ha2).
      * exfalso. pose proof (klook_fun _ _ _ Hk Hk2). subst la2. destruct Hb as (_ & _ & Hb). destruct Hr2 as (Hr2 & _). eapply Hb; eauto.
      * exfalso. inversion Hk.
      * exfalso. inversion Hk; congruence.
      * pose proof (klook_fun _ _ _ Hk Hk2). subst la2. rewrite (klisted_filter _ _ _ Hl Hl2). auto.
Qed.
End Deterministic.

(** ** Lockstep *)
Section Lockstep.
Context {A : Type}.
Variable items : list (grammar_item A).
Notation nts := (declared_nts items).
Notation cs := (token_entries items).
Hypothesis Hnames : distinct_names items.
Hypothesis Hpatterns : plain_patterns items.
Variable ti : list (string * nat).
Variable g : grammar (lexpr A).
Hypothesis Hlow : lowered nts cs ti g.
Hypothesis Hwf : wf_grammar g.
Variable N : ast_non_terminal A.
Variable i : nat.
Hypothesis HN : In (N, i) (slots 0 nts).
Hypothesis Hpub : an_pub N = true.
Notation S0 := (S i).
Notation start := (an_name N).
Notation sym_rel := (sym_rel nts cs).
Notation plain ss := (Forall (fun s => unnamed s = s) ss).
Notation lhs_rel := (lhs_rel items i).
Notation la_rel := (la_rel items).
Variable tbl : first_table.
Variables (gf : list symbol -> option nat -> option nat -> Prop) (uf : list ast_symbol -> option string -> option string -> Prop).
Hypothesis Hlu : lookahead_up items g tbl gf uf.
Hypothesis Hld : lookahead_down items g tbl gf uf.
Variable states : list lr1_state.
Variable entries : list (nat * nat).
Variable act : nat -> option nat -> option aact.
Variable gp : generated (lexpr A).
Hypothesis Hgen : generated_ok g cs tbl states entries act gp.
Variable pr : parser_struct.
Variable e : nat.
Hypothesis Hpf : parser_for g (gp_sem_actions gp) entries pr S0 e.
Variable no : nat -> nat -> nat.
Hypothesis Hno : forall s la n p k idx, s < List.length states -> la_in_range (n_terminals g) la -> act s la = Some (AReduce n p) ->
  index2 (gp_action gp) s (la_col (n_terminals g) la) = Some (Some (RReduce n k idx)) -> idx = no n p.
Notation anum := (fun n p => no (number items n) p).

Context {E V W I : Type}.
Variable inj : rval -> V.
Variable usem : A -> list (string * bval V) -> W -> option (V * W).
Variable next : I -> option (rval + E) * I.
Notation env := (user_env gp inj usem next).
Notation class := (token_class cs).
Notation fields := (fun tok => map inj (token_fields cs tok)).
Notation names := (map cv_from cs).
Notation pst := (pstate rval E V W I).
Notation kc := (kconf rval E V W I).
Notation Haut := (gn_aut _ _ _ _ _ _ _ Hgen).
Notation Hact := (gn_act _ _ _ _ _ _ _ Hgen).
Notation Htok := (env_tokens_ok items Hpatterns gp ti g tbl states entries act Hlow Hgen inj usem next).
Notation Hentry := (Hentry g entries gp pr S0 e Hpf).
Notation evalf := (eval_forest g (tok_fields env) (lsem usem)).
Notation kmove := (kmove nts uf names class fields usem next start).
Variable it0 : I.
Variable w0 : W.

Record kinv (st : pst) (c : kc) : Prop := {
  ki_inv : exists pi ts cons, inv g states env e it0 w0 st pi ts cons /\
    Forall2 sym_rel (symbols c) (rev pi) /\ evalf (rev ts) w0 = Some (rev (map snd (kc_stack c)), ps_world st);
  ki_plain : plain (symbols c);
  ki_token : kc_token c = ps_token st;
  ki_iter : kc_iter c = ps_iter st;
  ki_world : kc_world c = ps_world st
}.

Lemma kinv_init : kinv (init_pstate env pr it0 w0) (kinit next it0 w0).
Proof.
  constructor.
  - exists [], [], []. split; [apply (inv_init g states entries gp env pr S0 e Hpf it0 w0)|]. split; [constructor|].
    cbn. unfold init_pstate. destruct (e_next env it0). reflexivity.
  - constructor.
  - unfold init_pstate, kinit. cbn. destruct (next it0); reflexivity.
  - unfold init_pstate, kinit. cbn. destruct (next it0); reflexivity.
  - unfold init_pstate, kinit. cbn. destruct (next it0); reflexivity.
Qed.

Lemma look_klook tk la : look env tk la -> exists lan, klook class tk lan /\ la_rel lan la.
Proof.
  intros [|tok t Hc].
  - exists None. split; [constructor|exact Logic.I].
  - pose proof (env_class items gp g tbl states entries act Hgen inj usem next tok) as Hcl. rewrite Hc in Hcl.
    pose proof (env_range items gp g tbl states entries act Hgen inj usem next tok t Hc) as Hr.
    destruct (nth_error names t) as [x|] eqn:Ex; [|apply nth_error_None in Ex; rewrite map_length in Ex; lia].
    exists (Some x). split; [constructor; exact Hcl|exact Ex].
Qed.

Lemma kinv_unique st c : kinv st c -> kunique nts uf start (symbols c).
Proof.
  intros [(pi & ts & cons & Hi & Hg & He) Hp _ _ _] la n p n' p' Hr Hr'.
  destruct (inv_top g cs tbl states entries act gp Hgen env pr S0 e Hpf it0 w0 _ _ _ _ Hi) as (s & ss & Hs & Hlt).
  pose proof (in_path _ _ _ _ _ _ _ _ _ _ Hi) as Hpath. rewrite Hs in Hpath.
  assert (Hla : exists x, la_rel la x).
  { destruct Hr as (Hr & _). destruct (b_reduces_down items Hnames ti g Hlow tbl gf uf Hld N i HN Hpub _ _ _ _ Hr) as (_ & _ & x & _ & _ & Hx & _). eauto. }
  destruct Hla as (x & Hx).
  destruct (d_reduce_fun items Hnames ti g Hlow Hwf N i HN Hpub tbl gf uf Hlu Hld states entries Haut act Hact e Hentry _ _ _ _ Hpath Hg Hp _ _ _ _ Hx Hr) as (m & Hm & Ha).
  destruct (d_reduce_fun items Hnames ti g Hlow Hwf N i HN Hpub tbl gf uf Hlu Hld states entries Haut act Hact e Hentry _ _ _ _ Hpath Hg Hp _ _ _ _ Hx Hr') as (m' & Hm' & Ha').
  rewrite Ha in Ha'. injection Ha' as <- <-. split; auto.
  pose proof (lhs_rel_fun items ti g Hlow N i HN Hpub _ _ _ Hm Hm') as Heq. congruence.
Qed.

Lemma bval_of_nt (bs : list (bval V)) m vs : vals_for (variant_names g) [NT m] bs vs -> exists v, bs = [BVal v].
Proof. intro H. inversion H as [|? ? ? ? ? ? H1 H2]; subst. inversion H2; subst. inversion H1; subst. eauto. Qed.

Lemma lockstep st c : kinv st c -> exists kevs r, kmove c kevs r /\
  step_events gp env pr st = map (rendered anum pr) kevs /\
  match step gp env pr st, r with
  | inl st', inl c' => kinv st' c'
  | inr o, inr o' => o = o'
  | _, _ => False
  end.
Proof.
  intros HK. pose proof HK as [(pi & ts & cons & Hi & Hg & He) Hp Hkt Hki Hkw].
  destruct c as [stk tk it w]. cbn in Hkt, Hki, Hkw, He. unfold symbols in Hg, Hp. cbn [kc_stack] in Hg, Hp. subst tk it w.
  destruct (inv_top g cs tbl states entries act gp Hgen env pr S0 e Hpf it0 w0 _ _ _ _ Hi) as (s & ss & Hs & Hlt).
  pose proof (in_path _ _ _ _ _ _ _ _ _ _ Hi) as Hpath. rewrite Hs in Hpath.
  destruct (step_cases g Hwf cs tbl states entries act gp Hgen env Htok pr S0 e Hpf it0 w0 _ _ _ _ Hi)
    as [(er & Htk & Hst)|[(tok & Htk & Hc & Hst)|(la & s' & ss' & Hla & Hs' & Hsp)]].
  - exists [], (inr {| oc_result := PLexerError er; oc_iter := ps_iter st; oc_world := ps_world st |}).
    split; [apply km_stop; rewrite Htk; constructor|]. split.
    + unfold step_events. rewrite Hs, Htk. reflexivity.
    + rewrite Hst. reflexivity.
  - exists [], (inr {| oc_result := PPanic NoTokenMatch; oc_iter := ps_iter st; oc_world := ps_world st |}).
    split; [apply km_stop; rewrite Htk; constructor|].
    + rewrite (env_class items gp g tbl states entries act Hgen inj usem next tok), Hc. reflexivity.
    + split.
      * unfold step_events. rewrite Hs, Htk, Hc. reflexivity.
      * rewrite Hst. reflexivity.
  - rewrite Hs in Hs'. injection Hs' as <- <-.
    destruct (look_klook _ _ Hla) as (lan & Hkl & Hrel).
    pose proof (look_range g env Htok _ _ Hla) as Hrange.
    destruct (gn_action _ _ _ _ _ _ _ Hgen s la Hlt Hrange) as (r & Hr & Hent).
    assert (Hev : step_events gp env pr st = dispatch_events gp env pr st s (la_col (n_terminals g) la)).
    { unfold step_events. rewrite Hs. destruct Hla as [|tok t Hc]; cbn.
      - rewrite (gn_nterm _ _ _ _ _ _ _ Hgen). reflexivity.
      - cbn in Hc. rewrite Hc. reflexivity. }
    unfold dispatch_events in Hev. rewrite Hr in Hev. unfold step_spec in Hsp.
    destruct (act s la) as [[n|n p|]|] eqn:Ea.
    + (* shift *)
      destruct r as [[n'|? ? ?|]|]; cbn in Hent; try contradiction.
      destruct Hsp as (tok & t & fs & st' & Htk & -> & Hc & Hfs & Hst & Hss & Hvs & Hw & Hn & Hi').
      destruct lan as [t'|]; [|contradiction].
      assert (Hcl : class tok = Some t') by (rewrite Htk in Hkl; inversion Hkl; auto).
      assert (Hf : fields tok = fs).
      { rewrite <- (env_fields items Hpatterns gp g tbl states entries act Hgen inj usem next tok). unfold tok_fields. rewrite Hfs. reflexivity. }
      exists [KNext (ps_token st')], (inl (KConf ((ASTerminal t', BTok (fields tok)) :: stk) (ps_token st') (ps_iter st') (ps_world st))).
      split; [|split].
      * apply km_step. rewrite Htk. constructor; [exact Hcl| |exact Hn].
        apply (d_shift items Hnames ti g Hlow N i HN Hpub tbl gf uf Hlu Hld states entries Haut act Hact e Hentry _ _ _ _ Hpath Hg Hp _ _ Hrel). eauto.
      * rewrite Hev. cbn [map rendered]. rewrite Hn. reflexivity.
      * rewrite Hst. constructor; cbn; auto.
        -- exists (T t :: pi), (Leaf tok :: ts), (cons ++ [tok]). split; [exact Hi'|]. cbn. split.
           ++ apply Forall2_app; [exact Hg|]. constructor; [|constructor]. exists t. split; [exact Hrel|reflexivity].
           ++ cbn in He. rewrite eval_forest_app, He. cbn. rewrite (env_fields items Hpatterns gp g tbl states entries act Hgen inj usem next tok), Hw. reflexivity.
        -- cbn. apply Forall_app. split; [exact Hp|]. repeat constructor.
    + (* reduce *)
      destruct r as [[?|n' k idx|]|]; cbn in Hent; try contradiction.
      destruct Hent as (<- & q' & f' & Hq' & Hk & _).
      destruct Hsp as (q & s0 & ss0 & s1 & kids & rest & bs & f & pi0 & Hq & Hsk & Htr & Hpi & Hts & Lk & Hwk & (w1 & vs1 & Er & Ek) & Hm).
      pose proof (Hno s la n p k idx Hlt Hrange Ea Hr) as Hidx.
      destruct (d_reduce items Hnames ti g Hlow Hwf N i HN Hpub tbl gf uf Hlu Hld states entries Haut act Hact e Hentry _ _ _ _ Hpath Hg Hp _ _ _ _ Hrel Ea) as (nm & Hnm & Hred).
      destruct (production_up nts cs ti g Hlow Hnames _ _ _ _ Hnm Hq) as (up & Hup & Hlp).
      destruct (lprod_rhs nts cs ti g Hlow _ _ Hlp) as (_ & Hpact & Hsyms).
      assert (Hlen : List.length (rhs q) = List.length (ap_symbols up)).
      { unfold rhs. rewrite map_length. symmetry. eapply Forall2_length_; eauto. }
      (* split the stack of the machine *)
      rewrite Hts, rev_app_distr, rev_involutive, eval_forest_app in He. cbn in Er, Ek. rewrite Er, Ek in He.
      injection He as He.
      assert (Hsplit : exists args srest, stk = rev args ++ srest /\ map snd args = bs /\ map snd srest = rev vs1).
      { assert (Hm2 : map snd stk = rev bs ++ rev vs1) by (rewrite <- (rev_involutive (map snd stk)), <- He, rev_app_distr; reflexivity).
        apply map_eq_app in Hm2. destruct Hm2 as (a & b & -> & Ha & Hb). exists (rev a), b. rewrite rev_involutive.
        split; auto. split; auto. rewrite map_rev, Ha, rev_involutive. reflexivity. }
      destruct Hsplit as (args & srest & -> & Hargs & Hsrest).
      assert (Hla' : List.length args = List.length (ap_symbols up)).
      { rewrite <- Hlen, <- Lk. rewrite <- (map_length snd args), Hargs. eapply eval_forest_length; eauto. }
      assert (Hnum : number items nm = n) by (unfold number; cbn in Hnm; rewrite Hnm; reflexivity).
      assert (Hsem : lsem usem (p_action q) (bindings (p_symbols q) bs) (ps_world st) =
                     usem (action_expr (ap_action up)) (ubindings (ap_symbols up) (map snd args)) (ps_world st)).
      { rewrite Hpact, (bindings_ub nts cs _ _ Hsyms), Hargs. reflexivity. }
      cbn [e_sem user_env] in Hm. rewrite Hsem in Hm.
      destruct (usem (action_expr (ap_action up)) (ubindings (ap_symbols up) (map snd args)) (ps_world st)) as [[v w']|] eqn:Eu.
      * destruct Hm as (st' & Hst & Hst' & Hfn & Hi').
        exists [KAction nm p], (inl (KConf ((ASNonTerminal nm, BVal v) :: srest) (ps_token st) (ps_iter st) w')).
        split; [|split].
        -- apply km_step. eapply k_reduce; eauto.
        -- rewrite Hev. cbn [map rendered]. rewrite Hnum, Hidx. reflexivity.
        -- rewrite Hst.
           assert (Hgs : Forall2 sym_rel (rev (map fst srest)) (rev pi0)).
           { rewrite map_app, rev_app_distr, Hpi, rev_app_distr in Hg. apply Forall2_app_inv_l in Hg.
             destruct Hg as (x & y & F1 & F2 & Hxy).
             assert (Hx : rev pi0 = x /\ rev (rev (rhs q)) = y); [|destruct Hx as (-> & _); exact F1].
             apply (app_inj_length (rev pi0)); [exact Hxy|].
             pose proof (Forall2_length_ _ _ _ F2) as L2. pose proof (f_equal (@List.length _) Hxy) as L3.
             rewrite !app_length, !rev_length in L3. rewrite rev_length, map_length, rev_length in L2.
             rewrite rev_length. lia. }
           constructor; cbn [kc_stack kc_token kc_iter kc_world]; try (rewrite Hst'; reflexivity).
           ++ exists (NT n :: pi0), (Node n p kids :: rest), cons. split; [exact Hi'|]. unfold symbols. cbn [kc_stack map rev fst snd]. split.
              ** apply Forall2_app; [exact Hgs|]. constructor; [|constructor]. exists n. split; [exact Hnm|reflexivity].
              ** rewrite eval_forest_app. cbn in Er. rewrite Er. rewrite Hsrest, rev_involutive.
                 unfold eval_forest, eval_list at 1. cbn [eval_tree]. rewrite Hq. unfold eval_forest in Ek. rewrite Ek, Hsem, Hst'. reflexivity.
           ++ unfold symbols. cbn [kc_stack map rev fst]. apply Forall_app. split; [|repeat constructor].
              rewrite map_app, rev_app_distr in Hp. apply Forall_app in Hp. tauto.
      * exists [KAction nm p], (inr {| oc_result := PPanic UserPanic; oc_iter := ps_iter st; oc_world := ps_world st |}).
        split; [|split].
        -- apply km_stop. eapply k_action_panics; eauto.
        -- rewrite Hev. cbn [map rendered]. rewrite Hnum, Hidx. reflexivity.
        -- rewrite Hm. reflexivity.
    + (* accept *)
      destruct r as [[?|? ? ?|]|]; cbn in Hent; try contradiction.
      destruct Hsp as (q & m & tr & bs & -> & Htk & Hq & Hrq & Hpi & Hts & Hwt & Hev' & Hm).
      destruct lan as [?|]; [contradiction|].
      assert (Hacc : kaccepts_by nts uf start (rev (map fst stk)) None).
      { apply (d_accept items Hnames ti g Hlow Hwf N i HN Hpub tbl gf uf Hlu Hld states entries Haut act Hact e Hentry _ _ _ _ Hpath Hg Hp None None Logic.I). exact Ea. }
      unfold get_production in Hq. rewrite (entry_nt nts cs ti g Hlow N i HN Hpub) in Hq. cbn in Hq. injection Hq as <-. cbn in Hrq. injection Hrq as <-.
      (* the stack holds the entry point and its value *)
      rewrite Hts in He. cbn [e_sem user_env] in Hev'. cbn [rev app] in He. rewrite Hev' in He. injection He as He.
      destruct (in_eval _ _ _ _ _ _ _ _ _ _ Hi) as (bs' & Hb1 & Hb2). rewrite Hts in Hb1. cbn [rev app] in Hb1. cbn [e_sem user_env] in Hb1.
      rewrite Hev' in Hb1. injection Hb1 as <-. rewrite Hpi in Hb2. destruct (bval_of_nt _ _ _ Hb2) as (v & Hv).
      assert (Hbs : bs = [BVal v]) by (rewrite <- (rev_involutive bs), Hv; reflexivity).
      assert (Hms : map snd stk = [BVal v]) by (rewrite <- (rev_involutive (map snd stk)), <- He, Hbs; reflexivity).
      destruct stk as [|[sy bv] [|? ?]]; cbn in Hms; try discriminate. injection Hms as ->.
      rewrite Hpi in Hg. cbn in Hg. inversion Hg as [|x1 x2 x3 x4 Hx Hx']; subst x1 x2 x3 x4.
      cbn in Hp. inversion Hp as [|x1 x2 Hun _]; subst x1 x2.
      destruct (plain_eq items _ _ Hun Hx) as (nm & -> & Hnm).
      assert (Hst' : nm = start).
      { assert (Hsr : lhs_rel (Some nm) i) by exact Hnm.
        assert (Hsr' : lhs_rel (Some start) i) by (apply (slot_index nts Hnames); auto).
        pose proof (lhs_rel_fun items ti g Hlow N i HN Hpub _ _ _ Hsr Hsr'). congruence. }
      subst nm. subst bs. cbn in Hm.
      exists [KAccept], (inr {| oc_result := POk v; oc_iter := ps_iter st; oc_world := ps_world st |}).
      split; [|split].
      * apply km_stop. rewrite Htk. apply k_accept. exact Hacc.
      * rewrite Hev. reflexivity.
      * rewrite Hm. reflexivity.
    + (* error *)
      destruct r as [r|]; cbn in Hent; [destruct r; contradiction|].
      destruct Hsp as (found & Hfd & Hst).
      set (listed := by_name items (shiftable act s)).
      assert (Hnd : NoDup names) by (apply (ti_dup _ _ _ (lo_ti _ _ _ _ Hlow))).
      assert (Hterm : g_terminals g = names) by (apply (lo_terms _ _ _ _ Hlow)).
      assert (Hby : forall i0 s0, nth_error names i0 = Some s0 -> shiftable act s i0 = listed s0).
      { intros i0 x Hi0. unfold listed, by_name. rewrite (index_of_nth items _ _ Hnd Hi0). reflexivity. }
      exists [], (inr {| oc_result := PParserError (match lan with Some t => t | None => "end-of-input"%string end)
                                   (String.concat ", " (filter listed names));
         oc_iter := ps_iter st; oc_world := ps_world st |}).
      split; [|split].
      * apply km_stop. eapply k_error; [exact Hkl| |].
        -- apply (d_blocked items Hnames ti g Hlow Hwf N i HN Hpub tbl gf uf Hlu Hld states entries Haut act Hact e Hentry _ _ _ _ Hpath Hg Hp _ _ Hrel). exact Ea.
        -- intro t. split.
           ++ intros Hl Hb. unfold listed, by_name in Hl. destruct (index_of items t) as [j|] eqn:Ej; [|discriminate].
              assert (Hj : nth_error names j = Some t).
              { unfold index_of in Ej. destruct (find _ (enumerate names)) as [[j' t']|] eqn:Ef; [|discriminate]. cbn in Ej. injection Ej as ->.
                apply find_some in Ef. destruct Ef as (Ef & Et). cbn in Et. apply String.eqb_eq in Et. subst t'.
                apply In_nth_error in Ef. destruct Ef as (k & Hk). rewrite nth_error_enumerate in Hk.
                destruct (nth_error names k) eqn:Enk; [|discriminate]. cbn in Hk. injection Hk as <- <-. exact Enk. }
              assert (Hrj : la_rel (Some t) (Some j)) by exact Hj.
              apply (d_blocked items Hnames ti g Hlow Hwf N i HN Hpub tbl gf uf Hlu Hld states entries Haut act Hact e Hentry _ _ _ _ Hpath Hg Hp _ _ Hrj) in Hb.
              unfold shiftable in Hl. rewrite Hb in Hl. discriminate.
           ++ intro Hnb. destruct (listed t) eqn:El; auto. exfalso. apply Hnb.
              destruct (in_dec string_dec t names) as [Hin|Hnin].
              ** apply In_nth_error in Hin. destruct Hin as (j & Hj). rewrite <- (Hby _ _ Hj) in El.
                 assert (Hrj : la_rel (Some t) (Some j)) by exact Hj.
                 apply (d_blocked items Hnames ti g Hlow Hwf N i HN Hpub tbl gf uf Hlu Hld states entries Haut act Hact e Hentry _ _ _ _ Hpath Hg Hp _ _ Hrj).
                 unfold shiftable in El. destruct (act s (Some j)); [discriminate|reflexivity].
              ** split; [|split].
                 --- intros (t' & Heq & lhs & p & k & la' & l & Hv & Hl & Hk). injection Heq as <-.
                     destruct (b_valid_down items Hnames ti g Hlow tbl gf uf Hld N i HN Hpub _ _ _ _ _ Hv) as (_ & n & _ & _ & G2 & _).
                     destruct (urhs_down items Hnames ti g Hlow N i HN Hpub _ _ _ _ G2 Hl) as (q & _ & Q2).
                     destruct (Forall2_nth_l _ _ _ _ _ Q2 Hk) as (Y & _ & (j & Hj & _)). apply Hnin. eapply nth_error_In; exact Hj.
                 --- intro Hx. destruct (b_reduces_down items Hnames ti g Hlow tbl gf uf Hld N i HN Hpub _ _ _ _ Hx) as (_ & _ & x & _ & _ & Hx' & _).
                     destruct x as [x|]; [|contradiction]. apply Hnin. eapply nth_error_In; exact Hx'.
                 --- intros n p Hx. destruct (b_reduces_down items Hnames ti g Hlow tbl gf uf Hld N i HN Hpub _ _ _ _ Hx) as (_ & _ & x & _ & _ & Hx' & _).
                     destruct x as [x|]; [|contradiction]. apply Hnin. eapply nth_error_In; exact Hx'.
      * rewrite Hev. reflexivity.
      * rewrite Hst. unfold finish. f_equal. f_equal.
        -- destruct la as [t|], lan as [t'|]; cbn in Hfd, Hrel; try contradiction; auto. rewrite Hterm in Hfd. congruence.
        -- rewrite err_expected_filter, Hterm. unfold join. f_equal. apply filter_enumerate. exact Hby.
Qed.

(** ** Runs *)
Notation ksteps := (ksteps_by nts uf class fields usem next start).
Notation rend := (map (rendered anum pr)).

Lemma k_forward n : forall st st' c, kinv st c -> iterations gp env pr n st = Some st' ->
  exists kevs c', ksteps n c kevs c' /\ kinv st' c' /\ run_events gp env n pr st = rend kevs.
Proof.
  induction n as [|n IH]; intros st st' c HK H; cbn [iterations run_events] in *.
  - injection H as <-. exists [], c. split; [constructor|]. split; auto.
  - destruct (step gp env pr st) as [st1|o] eqn:Es; [|discriminate].
    destruct (lockstep _ _ HK) as (kevs & r & Hm & Hev & Hr). rewrite Es in Hr.
    destruct r as [c1|o1]; [|contradiction]. inversion Hm as [c0 evs0 c1' Hk E1 E2 E3|]; subst.
    destruct (IH _ _ _ Hr H) as (kevs' & c2 & Hks & HK' & Hre).
    exists (kevs ++ kevs'), c2. split; [econstructor; eauto|]. split; auto. rewrite map_app, Hev, Hre. reflexivity.
Qed.

Lemma k_backward n : forall c kevs c' st, ksteps n c kevs c' -> kinv st c ->
  exists st', iterations gp env pr n st = Some st' /\ kinv st' c' /\ run_events gp env n pr st = rend kevs.
Proof.
  induction n as [|n IH]; intros c kevs c' st H HK; inversion H as [|n' c0 evs c1 evs' c2 Hs Hks]; subst.
  - exists st. cbn. auto.
  - destruct (lockstep _ _ HK) as (kevs & r & Hm & Hev & Hr).
    destruct (kmove_fun nts uf names class fields usem next start _ _ _ _ _ (kinv_unique _ _ HK) Hm (km_step _ _ _ _ _ _ _ _ _ _ _ Hs)) as (-> & ->).
    cbn [iterations run_events]. destruct (step gp env pr st) as [st1|o]; [|contradiction].
    destruct (IH _ _ _ _ Hks Hr) as (st' & Hit & HK' & Hre). exists st'. split; auto. split; auto.
    rewrite map_app, Hev, Hre. reflexivity.
Qed.

Lemma run_iterations fuel : forall st o, run gp env fuel pr st = Some o ->
  exists n st', iterations gp env pr n st = Some st' /\ step gp env pr st' = inr o /\
    run_events gp env fuel pr st = run_events gp env n pr st ++ step_events gp env pr st'.
Proof.
  induction fuel as [|fuel IH]; intros st o H; cbn [run] in H; [discriminate|].
  destruct (step gp env pr st) as [st1|o'] eqn:Es.
  - destruct (IH _ _ H) as (n & st' & H1 & H2 & H3). exists (S n), st'. cbn [iterations run_events]. rewrite Es.
    split; auto. split; auto. rewrite H3, app_assoc. reflexivity.
  - injection H as <-. exists 0, st. cbn. rewrite Es. rewrite app_nil_r. auto.
Qed.

Lemma iterations_run n : forall st st' o, iterations gp env pr n st = Some st' -> step gp env pr st' = inr o ->
  run gp env (S n) pr st = Some o /\ run_events gp env (S n) pr st = run_events gp env n pr st ++ step_events gp env pr st'.
Proof.
  induction n as [|n IH]; intros st st' o H Ho; cbn [iterations] in H.
  - injection H as <-. cbn. rewrite Ho, app_nil_r. auto.
  - destruct (step gp env pr st) as [st1|o'] eqn:Es; [|discriminate].
    destruct (IH _ _ _ H Ho) as (H1 & H2). split.
    + cbn [run] in *. rewrite Es. exact H1.
    + change (run_events gp env (S (S n)) pr st) with
        (step_events gp env pr st ++ match step gp env pr st with inl st' => run_events gp env (S n) pr st' | inr _ => [] end).
      cbn [run_events]. rewrite Es. cbn [run_events] in H2. rewrite H2, app_assoc. reflexivity.
Qed.

Lemma k_running n it' w' evs : running gp inj usem next pr it0 w0 n it' w' evs <->
  exists c kevs, kruns_by nts uf class fields usem next start it0 w0 n c kevs /\ kc_iter c = it' /\ kc_world c = w' /\ evs = rend kevs.
Proof.
  split.
  - intros (st & Hit & <- & <- & <-). destruct (k_forward _ _ _ _ kinv_init Hit) as (kevs & c & Hks & HK & Hev).
    exists c, (KNext (fst (next it0)) :: kevs). split; [exists kevs; auto|]. split; [apply (ki_iter _ _ HK)|].
    split; [apply (ki_world _ _ HK)|]. unfold parse_events. rewrite Hev. reflexivity.
  - intros (c & kevs & (kevs' & Hks & ->) & <- & <- & ->). destruct (k_backward _ _ _ _ _ Hks kinv_init) as (st & Hit & HK & Hev).
    exists st. split; auto. split; [symmetry; apply (ki_iter _ _ HK)|]. split; [symmetry; apply (ki_world _ _ HK)|].
    unfold parse_events. rewrite Hev. reflexivity.
Qed.

Lemma k_returns o evs : returns_with gp inj usem next pr it0 w0 o evs <->
  exists kevs, kreturns_by nts uf names class fields usem next start it0 w0 o kevs /\ evs = rend kevs.
Proof.
  split.
  - intros (fuel & Hr & <-). destruct (run_iterations _ _ _ Hr) as (n & st & Hit & Hst & Hre).
    destruct (k_forward _ _ _ _ kinv_init Hit) as (kevs & c & Hks & HK & Hev).
    destruct (lockstep _ _ HK) as (kevs2 & r & Hm & Hev2 & Hr2). rewrite Hst in Hr2. destruct r as [c1|o1]; [contradiction|]. subst o1.
    inversion Hm as [|c0 evs0 o0 Hk E1 E2 E3]; subst.
    exists ((KNext (fst (next it0)) :: kevs) ++ kevs2). split.
    + exists n, c, (KNext (fst (next it0)) :: kevs), kevs2. split; [exists kevs; auto|]. split; auto.
    + unfold parse_events. rewrite Hre, Hev, Hev2. cbn [app map rendered]. rewrite map_app. reflexivity.
  - intros (kevs & (n & c & e1 & e2 & (kevs' & Hks & ->) & Hk & ->) & ->).
    destruct (k_backward _ _ _ _ _ Hks kinv_init) as (st & Hit & HK & Hev).
    destruct (lockstep _ _ HK) as (kevs2 & r & Hm & Hev2 & Hr).
    destruct (kmove_fun nts uf names class fields usem next start _ _ _ _ _ (kinv_unique _ _ HK) Hm (km_stop _ _ _ _ _ _ _ _ _ _ _ Hk)) as (-> & ->).
    destruct (step gp env pr st) as [st1|o'] eqn:Es; [contradiction|]. subst o'.
    destruct (iterations_run _ _ _ _ Hit Es) as (H1 & H2). exists (S n). split; [exact H1|].
    unfold parse_events. rewrite H2, Hev, Hev2. cbn [app map rendered]. rewrite map_app. reflexivity.
Qed.
End Lockstep.

(** ** The action index of a reduction *)
Lemma reduce_number {A} (ho : hash_order) (Hho : hash_order_ok ho) fuel (g : grammar (lexpr A)) te cs tbl states entries act gp no :
  generated_ok g cs tbl states entries act gp -> no_detected_conflict g states ->
  generate_first_table ho fuel g = Ok tbl -> generate_lr1_automaton ho fuel g tbl = Ok (states, entries) ->
  generate_lr1_parser ho fuel g te = Ok gp ->
  (forall tbl states entries, generate_first_table ho fuel g = Ok tbl -> generate_lr1_automaton ho fuel g tbl = Ok (states, entries) ->
       forall s la st nt k idx, nth_error states s = Some st -> la_in_range (n_terminals g) la ->
       index2 (gp_action gp) s (la_col (n_terminals g) la) = Some (Some (RReduce nt k idx)) ->
       exists it, In it (st_items st) /\ red_item g it /\ it_nt it = nt /\ it_la it = la /\ idx = no nt (it_prod it)) ->
  forall s la n p k idx, s < List.length states -> la_in_range (n_terminals g) la -> act s la = Some (AReduce n p) ->
  index2 (gp_action gp) s (la_col (n_terminals g) la) = Some (Some (RReduce n k idx)) -> idx = no n p.
Proof.
  intros Hgen Hnd Ht Ha _ H s la n p k idx Hs Hla Hact Hi.
  destruct (ac_inv _ _ _ (gn_act _ _ _ _ _ _ _ Hgen) _ _ _ Hact) as (st & Hst & it & Hit & Hred & Hn & Hp & Hil).
  destruct (H _ _ _ Ht Ha _ _ _ _ _ _ Hst Hla Hi) as (it2 & Hit2 & Hred2 & Hn2 & Hil2 & ->).
  assert (it = it2) by (eapply reduce_unique; eauto; congruence). subst. reflexivity.
Qed.

(** With the lookahead relation [uf] that corresponds to the computed table. *)
Theorem knuth_by {A} (items : list (grammar_item A)) gp ho fl ti g tbl states entries act
  (Hho : hash_order_ok ho) (H1 : lowered (declared_nts items) (token_entries items) ti g) (H2 : wf_grammar g)
  (H3 : generated_ok g (token_entries items) tbl states entries act gp) (H4 : generate_first_table ho fl g = Ok tbl)
  (H5 : no_detected_conflict g states) (H6 : generate_lr1_automaton ho fl g tbl = Ok (states, entries))
  (H7 : generate_lr1_parser ho fl g (the_tokens items) = Ok gp) gf uf
  (Hlu : lookahead_up items g tbl gf uf) (Hld : lookahead_down items g tbl gf uf) :
  distinct_names items -> plain_patterns items -> expands items gp ->
  exists nt_no no variant, numbering items gp nt_no no variant /\
  forall pr, In pr (gp_parsers gp) ->
  forall (E V W I : Type) (inj : rval -> V) (usem : A -> list (string * bval V) -> W -> option (V * W)) (next : I -> option (rval + E) * I) it w,
  let cs := token_entries items in
  let fields := fun tok => map inj (token_fields cs tok) in
  (forall o evs, returns_with gp inj usem next pr it w o evs <->
     exists kevs, kreturns_by (declared_nts items) uf (map cv_from cs) (token_class cs) fields usem next (pr_name pr) it w o kevs /\
       evs = map (rendered no pr) kevs) /\
  (forall n it' w' evs, running gp inj usem next pr it w n it' w' evs <->
     exists c kevs, kruns_by (declared_nts items) uf (token_class cs) fields usem next (pr_name pr) it w n c kevs /\
       kc_iter c = it' /\ kc_world c = w' /\ evs = map (rendered no pr) kevs).
Proof.
  intros Hnames Hpat Hexp.
  destruct (action_numbers ho Hho fl g (the_tokens items) gp H2 H7) as (no & N1 & N2 & N3 & _ & N5).
  do 3 eexists. split; [eapply numbering_intro; eauto|]. intros pr Hpr.
  destruct (parser_entry items gp ti g tbl states entries act H1 H3 pr Hpr) as (N & i & e & HN & Hpub & Hnm & _ & Hpf).
  pose proof (reduce_number ho Hho fl g (the_tokens items) _ _ _ _ _ _ no H3 H5 H4 H6 H7 N5) as Hno.
  intros E V W I inj usem next it w. cbv zeta. rewrite Hnm. split.
  - intros o evs. eapply k_returns; eauto.
  - intros n it' w' evs. eapply k_running; eauto.
Qed.

Theorem knuth {A} (items : list (grammar_item A)) gp pr : parser_of items gp pr -> tails_plain (declared_nts items) ->
  exists nt_no no variant, numbering items gp nt_no no variant /\
  forall (E V W I : Type) (inj : rval -> V) (usem : A -> list (string * bval V) -> W -> option (V * W)) (next : I -> option (rval + E) * I) it w,
  let cs := token_entries items in
  let fields := fun tok => map inj (token_fields cs tok) in
  (forall o evs, returns_with gp inj usem next pr it w o evs <->
     exists kevs, kreturns (declared_nts items) (map cv_from cs) (token_class cs) fields usem next (pr_name pr) it w o kevs /\
       evs = map (rendered no pr) kevs) /\
  (forall n it' w' evs, running gp inj usem next pr it w n it' w' evs <->
     exists c kevs, kruns (declared_nts items) (token_class cs) fields usem next (pr_name pr) it w n c kevs /\
       kc_iter c = it' /\ kc_world c = w' /\ evs = map (rendered no pr) kevs).
Proof.
  intros (Hnames & Hpat & Hexp & Hpr) Htp.
  destruct (expands_data items gp Hexp) as (ho & fl & Hho & ti & g & tbl & states & entries & act & H1 & H2 & H3 & H4 & H5 & H6 & H7).
  pose proof (tails_plain_complete items Hnames ti g H1 ho Hho fl tbl H4 Htp) as Hcomp.
  pose proof (first_table_sound g ho (hok_terms ho Hho) fl tbl H4) as Hsound.
  destruct (knuth_by items gp ho fl ti g tbl states entries act Hho H1 H2 H3 H4 H5 H6 H7 _ _
    (true_up items Hnames ti g H1 tbl Hsound) (true_down items Hnames ti g H1 tbl Hcomp) Hnames Hpat Hexp)
    as (nt_no & no & variant & Hn & H). exists nt_no, no, variant. split; [exact Hn|]. exact (H pr Hpr).
Qed.
