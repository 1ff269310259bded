(** * ComputedProofs: the FIRST sets the macro computes, and the machine they define *)
From Verif Require Export ComputedSpec EffectsProofs StageProofs Termination GenPanics.

(** ** Approximate FIRST sets and true ones *)
Section Approx.
Context {A : Type}.
Variable nts : list (ast_non_terminal A).
Variable F : fsets.
Hypothesis HF : first_sets nts F.
Notation ud := (uderives nts).

Lemma ffirst_sound l la x : ffirst F l la x -> uin_first nts l la x.
Proof.
  induction 1 as [la|t r la|n r la t H|n r la x H _ IH].
  - right. split; [constructor|reflexivity].
  - left. exists t, r. split; [reflexivity|constructor].
  - left. destruct (fst_terms _ _ HF _ _ H) as (r' & Hr). exists t, (r' ++ r). split; auto.
    exact (uderives_app nts [ASNonTerminal n] (ASTerminal t :: r') r r Hr (ud_refl _ _)).
  - pose proof (uderives_app nts [ASNonTerminal n] [] r r (fst_empty _ _ HF _ H) (ud_refl _ _)) as Hd. cbn [app] in Hd.
    destruct IH as [(t & r' & -> & Hr)|(Hr & ->)]; [left; exists t, r'; split; auto|right; split; auto]; eapply uderives_trans; eauto.
Qed.

(** Derivations with their length *)
Inductive der : nat -> list ast_symbol -> list ast_symbol -> Prop :=
| der_0 : forall l, der 0 l l
| der_S : forall k l m r, udstep nts l m -> der k m r -> der (S k) l r.
Lemma ud_der l r : ud l r -> exists k, der k l r.
Proof. induction 1 as [l|l m r H _ (k & IH)]; [exists 0; constructor|exists (S k); econstructor; eauto]. Qed.
Lemma der_ud k l r : der k l r -> ud l r.
Proof. induction 1; [constructor|econstructor; eauto]. Qed.

Lemma der_split k : forall a b c, der k (a ++ b) c -> exists c1 c2 k1 k2, c = c1 ++ c2 /\ k1 <= k /\ k2 <= k /\ der k1 a c1 /\ der k2 b c2.
Proof.
  induction k as [|k IH]; intros a b c H; inversion H as [|k' l m r Hs Hd]; subst.
  - exists a, b, 0, 0. repeat split; auto using der_0.
  - inversion Hs as [l' n p pr r' Hp E1 E2]. subst m. apply app_eq_app in E1. destruct E1 as (w & [(-> & ->)|(-> & Hw)]).
    + rewrite <- app_assoc in Hd. destruct (IH _ _ _ Hd) as (c1 & c2 & k1 & k2 & -> & L1 & L2 & D1 & D2).
      exists c1, c2, k1, (S k2). repeat split; auto; [lia|]. econstructor; [|exact D2]. econstructor; eauto.
    + destruct w as [|y w]; cbn in Hw.
      * subst b. rewrite app_nil_r in *. destruct (IH _ _ _ Hd) as (c1 & c2 & k1 & k2 & -> & L1 & L2 & D1 & D2).
        exists c1, c2, k1, (S k2). repeat split; auto; [lia|]. econstructor; [exact (uds nts [] n p pr r' Hp)|exact D2].
      * injection Hw as <- ->. rewrite (app_assoc l'), (app_assoc (l' ++ _)) in Hd. rewrite <- (app_assoc l') in Hd.
        destruct (IH _ _ _ Hd) as (c1 & c2 & k1 & k2 & -> & L1 & L2 & D1 & D2).
        exists c1, c2, (S k1), k2. repeat split; auto; [lia|]. econstructor; [|exact D1]. econstructor; eauto.
Qed.
Lemma der_nil k r : der k [] r -> r = [].
Proof. intro H. inversion H as [|k' l m r' Hs]; subst; auto. inversion Hs as [l' ? ? ? ? ? E]. destruct l'; discriminate. Qed.
Lemma der_one k s r : der k [s] r -> r = [s] \/ exists n p pr k', s = ASNonTerminal n /\ uproduction nts n p = Some pr /\ k = S k' /\ der k' (body pr) r.
Proof.
  intro H. inversion H as [|k' l m r' Hs Hd]; subst; auto. right. inversion Hs as [l' n p pr r' Hp E E2]. subst m.
  destruct l' as [|? [|? ?]]; cbn in E; try discriminate. injection E as <- ->. exists n, p, pr, k'. rewrite app_nil_r in Hd. cbn in Hd. auto.
Qed.

Variable R : string -> Prop.
Hypothesis HR : forall n p pr m l, R n -> uproduction nts n p = Some pr -> body pr = ASNonTerminal m :: l -> ~ unullable nts m /\ R m.

Lemma plain_empty k m : R m -> der k [ASNonTerminal m] [] -> f_empty F m.
Proof.
  intros Hm H. destruct (der_one _ _ _ H) as [E|(n & p & pr & k' & E & Hp & -> & Hd)]; [discriminate|]. injection E as <-.
  pose proof (fst_accounted _ _ HF _ _ _ Hp) as Ha. destruct (body pr) as [|X l] eqn:Eb; [inversion Ha; auto|]. exfalso.
  change (X :: l) with ([X] ++ l) in Hd. destruct (der_split _ _ _ _ Hd) as (c1 & c2 & k1 & k2 & E & _ & _ & D1 & D2).
  symmetry in E. apply app_eq_nil in E. destruct E as (-> & ->).
  destruct (der_one _ _ _ D1) as [E|(n' & p' & pr' & k'' & -> & Hp' & -> & Hd')]; [discriminate|].
  destruct (HR _ _ _ _ _ Hm Hp Eb) as (Hn & _). apply Hn. eapply der_ud; eauto.
Qed.
Lemma plain_terms k : forall m t r, R m -> der k [ASNonTerminal m] (ASTerminal t :: r) -> f_terms F m t.
Proof.
  induction k as [k IH] using (well_founded_induction Wf_nat.lt_wf). intros m t r Hm H.
  destruct (der_one _ _ _ H) as [E|(n & p & pr & k' & E & Hp & -> & Hd)]; [discriminate|]. injection E as <-.
  pose proof (fst_accounted _ _ HF _ _ _ Hp) as Ha. destruct (body pr) as [|X l] eqn:Eb; [apply der_nil in Hd; discriminate|].
  change (X :: l) with ([X] ++ l) in Hd. destruct (der_split _ _ _ _ Hd) as (c1 & c2 & k1 & k2 & E & L1 & _ & D1 & D2).
  destruct X as [t'|m'| |].
  - destruct (der_one _ _ _ D1) as [->|(? & ? & ? & ? & E' & _)]; [|discriminate]. cbn in E. injection E as -> _. inversion Ha; auto.
  - destruct (HR _ _ _ _ _ Hm Hp Eb) as (Hn & Hm'). destruct c1 as [|y c1]; [exfalso; apply Hn; eapply der_ud; eauto|].
    cbn in E. injection E as <- _. assert (Ht : f_terms F m' t) by (eapply (IH k1); eauto; lia).
    inversion Ha as [| |? ? Hi|? ? He]; subst; auto. exfalso. apply Hn. apply (fst_empty _ _ HF); auto.
  - inversion Ha.
  - inversion Ha.
Qed.
Lemma ffirst_complete l la x : (forall m, In (ASNonTerminal m) l -> R m) -> uin_first nts l la x -> ffirst F l la x.
Proof.
  intros Hl H. assert (Hk : (exists t r k, x = Some t /\ der k l (ASTerminal t :: r)) \/ (exists k, der k l []) /\ x = la).
  { destruct H as [(t & r & -> & H)|(H & ->)]; apply ud_der in H; destruct H as (k & H); [left; exists t, r, k; auto|right; split; eauto]. }
  clear H. induction l as [|X l IH].
  - destruct Hk as [(t & r & k & _ & H)|(_ & ->)]; [apply der_nil in H; discriminate|constructor].
  - change (X :: l) with ([X] ++ l) in Hk.
    assert (Hx : (exists k, der k [X] []) -> ffirst F l la x -> ffirst F (X :: l) la x).
    { intros (k & Hd) Hf. destruct (der_one _ _ _ Hd) as [E|(n & p & pr & k' & -> & _)]; [discriminate|].
      apply ff_skip; auto. eapply plain_empty; [|exact Hd]. apply Hl. left; auto. }
    assert (Hl' : forall m, In (ASNonTerminal m) l -> R m) by (intros; apply Hl; right; auto).
    destruct Hk as [(t & r & k & -> & H)|((k & H) & ->)]; destruct (der_split _ _ _ _ H) as (c1 & c2 & k1 & k2 & E & _ & _ & D1 & D2).
    + destruct c1 as [|y c1]; cbn in E.
      * subst c2. apply Hx; eauto. apply IH; auto. left. eauto.
      * injection E as <- _. destruct (der_one _ _ _ D1) as [E|(n & p & pr & k' & -> & _)].
        -- injection E as <- ->. constructor.
        -- apply ff_nt. eapply plain_terms; [|exact D1]. apply Hl. left; auto.
    + symmetry in E. apply app_eq_nil in E. destruct E as (-> & ->). apply Hx; eauto.
Qed.
End Approx.

Theorem ffirst_exact {A} (nts : list (ast_non_terminal A)) F : first_sets nts F -> tails_plain nts ->
  forall n p pr k la x, uproduction nts n p = Some pr ->
    (ffirst F (skipn (S k) (body pr)) la x <-> uin_first nts (skipn (S k) (body pr)) la x).
Proof.
  intros HF (R & H1 & H2) n p pr k la x Hp. split; [apply ffirst_sound; auto|]. apply (ffirst_complete nts F HF R H2).
  intros m Hm. apply H1. destruct (body pr) as [|X l] eqn:E; [destruct Hm|]. exists n, p, pr, X, l. split; auto. split; auto.
  cbn in Hm. clear - Hm. revert k Hm. induction l as [|y l IH]; intros [|k]; cbn; auto; try tauto. intro H; right; apply (IH k); auto.
Qed.

(** ** The computed table *)
Section Account.
Context {A : Type}.
Variable g : grammar A.
Variable ho : hash_order.
Hypothesis Hho : forall l, Permutation (ho_terms ho l) l.

Inductive acc (tbl : first_table) (n : nat) : list symbol -> Prop :=
| ac_end : flag tbl n = true -> acc tbl n []
| ac_T : forall t r, In t (terms tbl n) -> acc tbl n (T t :: r)
| ac_NT : forall m r, (forall t, In t (terms tbl m) -> In t (terms tbl n)) -> acc tbl n (NT m :: r)
| ac_skip : forall m r, flag tbl m = true -> acc tbl n r -> acc tbl n (NT m :: r).

Lemma acc_mono st st' n syms : trans_ok g st st' -> snd st' = false -> acc (fst st) n syms -> acc (fst st') n syms.
Proof.
  intros [_ [Hf Ht] _ _ Hs] Hu. induction 1 as [H|t r H|m r H|m r H _ IH].
  - apply ac_end; auto.
  - apply ac_T; auto.
  - apply ac_NT. intros t Hm. apply Hs in Hm; auto.
  - apply ac_skip; auto.
Qed.

Lemma first_symbols_acc n p pr (Hp : get_production g n p = Some pr) syms :
  forall l st, rhs pr = l ++ syms -> justified g (fst st) -> jnull_seq g (fst st) l ->
  snd (first_symbols ho n syms st) = false -> acc (fst (first_symbols ho n syms st)) n syms.
Proof.
  induction syms as [|X syms IH]; intros l [tbl upd] Hr HJ Hl Hu; cbn [fst] in HJ, Hl.
  - destruct (first_symbols_ok g ho Hho n p pr Hp [] l (tbl, upd) Hr HJ Hl) as (_ & H). apply ac_end. exact (H Hu).
  - destruct (first_symbols_ok g ho Hho n p pr Hp (X :: syms) l (tbl, upd) Hr HJ Hl) as (Ht & Hd). specialize (Hd Hu).
    destruct X as [m|t]; [|apply ac_T; exact Hd].
    rewrite first_symbols_NT in *. destruct (fs_empty (get_first tbl m)) eqn:Ef.
    + apply ac_skip; [apply (to_le _ _ _ Ht); exact Ef|]. apply (IH (l ++ [NT m])); auto.
      * rewrite <- app_assoc. exact Hr.
      * apply jnull_seq_app; auto. constructor; [auto|apply (j_null _ _ HJ); auto|constructor].
    + apply ac_NT. intros t Hm. apply (to_same _ _ _ Ht Hu) in Hm. cbn [fst] in Hm.
      destruct (add_all_spec n (ho_terms ho (fs_terminals (get_first tbl m))) (tbl, upd)) as (_ & _ & H3 & _). apply H3. cbn [fst].
      assert (Hn : n < List.length tbl).
      { rewrite (j_len _ _ HJ). apply get_production_nt in Hp. destruct Hp as (N & HN & _). eapply nt_in_range; eauto. }
      right. split; auto. split; auto. eapply Permutation_in; [apply Permutation_sym, Hho|exact Hm].
Qed.
Lemma first_production_acc n p pr (Hp : get_production g n p = Some pr) st : justified g (fst st) ->
  snd (first_production ho n st pr) = false -> acc (fst (first_production ho n st pr)) n (rhs pr).
Proof.
  intros HJ Hu. destruct (first_production_ok g ho Hho n p pr Hp st HJ) as (_ & Hd). specialize (Hd Hu).
  unfold first_production in *. destruct (rhs pr) as [|X r] eqn:Er; [apply ac_end; exact Hd|].
  apply (first_symbols_acc n p pr Hp (X :: r) []); auto. constructor.
Qed.
Lemma first_table_acc fuel tbl : generate_first_table ho fuel g = Ok tbl ->
  forall n p pr, get_production g n p = Some pr -> acc tbl n (rhs pr).
Proof.
  unfold generate_first_table. pose proof (justified_new g) as HJ. revert HJ. generalize (first_table_new (n_non_terminals g)).
  induction fuel as [|fuel IH]; intros t0 HJ H; cbn [first_loop] in H; [discriminate|].
  pose proof (first_pass_ok g ho Hho t0 HJ) as (Ht & _).
  pose proof (pass_inv g ho Hho (fun _ => True) (fun n pr st => snd st = false -> acc (fst st) n (rhs pr))) as Hi.
  specialize (Hi (fun n p pr st Hp HJ' _ => conj Logic.I (first_production_acc n p pr Hp st HJ'))).
  destruct (Hi) with (tbl := t0) as (_ & Ha); auto.
  { intros st st' n pr HT HD Hs. eapply acc_mono; eauto. apply HD. destruct (snd st) eqn:E; auto.
    rewrite (to_upd _ _ _ HT) in Hs by auto. discriminate. }
  destruct (first_pass ho g t0) as [t1 upd] eqn:E. destruct upd.
  - apply (IH t1); auto. apply (to_just _ _ _ Ht); auto.
  - injection H as <-. intros n p pr Hp. exact (Ha n p pr Hp eq_refl).
Qed.
End Account.

(** ** In the user's terms *)
Section Named.
Context {A : Type}.
Variable items : list (grammar_item A).
Notation nts := (declared_nts items).
Notation cs := (token_entries items).
Notation ni := (nt_indices_of nts).
Notation names := (map cv_from cs).
Notation sym_rel := (sym_rel nts cs).
Notation plain ss := (Forall (fun s => unnamed s = s) ss).
Notation la_rel := (la_rel items).

Notation computed := (computed items).

Hypothesis Hnames : distinct_names items.
Lemma slots_split (l : list (ast_non_terminal A)) : forall k N i, In (N, i) (slots k l) <->
  exists before after, l = before ++ N :: after /\ i = k + List.length before + List.length (filter an_pub before).
Proof.
  induction l as [|M l IH]; intros k N i; cbn.
  - split; [tauto|]. intros (b & a & H & _). destruct b; discriminate.
  - rewrite IH. split.
    + intros [E|(b & a & -> & ->)].
      * injection E as -> ->. exists [], l. cbn. split; [reflexivity|lia].
      * exists (M :: b), a. split; [reflexivity|]. cbn. unfold width. destruct (an_pub M); cbn; lia.
    + intros ([|M' b] & a & E & ->); cbn in E; injection E as -> ->.
      * left. cbn. f_equal. lia.
      * right. exists b, a. split; [reflexivity|]. cbn. unfold width. destruct (an_pub M'); cbn; lia.
Qed.
Lemma lowered_index_iff nm n : lowered_index items nm n <-> map_get String.eqb nm ni = Some n.
Proof.
  split.
  - intros (b & N & a & E & <- & ->). apply (slot_index nts Hnames). apply slots_split. exists b, a. auto.
  - intro H. destruct (nt_indices_inv _ _ _ H) as (N & HN & <-). apply slots_split in HN. destruct HN as (b & a & E & ->).
    exists b, N, a. auto.
Qed.

Variables (g : grammar (lexpr A)) (tbl : first_table) (states : list lr1_state) (entries : list (nat * nat)).
Hypothesis Hst : stages items g tbl states entries.
Lemma computed_empty nm : f_empty computed nm <-> exists n, map_get String.eqb nm ni = Some n /\ flag tbl n = true.
Proof.
  split.
  - intros (g' & tbl' & s' & e' & n & H & Hn & Hf). apply lowered_index_iff in Hn.
    destruct (stages_same items _ _ _ _ _ _ _ _ Hst H) as (_ & (_ & Ht) & _). exists n. split; auto. rewrite (proj1 (Ht n)). exact Hf.
  - intros (n & Hn & Hf). exists g, tbl, states, entries, n. rewrite lowered_index_iff. auto.
Qed.
Lemma computed_terms nm t : f_terms computed nm t <->
  exists n j, map_get String.eqb nm ni = Some n /\ In j (terms tbl n) /\ nth_error names j = Some t.
Proof.
  split.
  - intros (g' & tbl' & s' & e' & n & j & H & Hn & Hj & Ht'). apply lowered_index_iff in Hn.
    destruct (stages_same items _ _ _ _ _ _ _ _ Hst H) as (_ & (_ & Ht) & _). exists n, j. split; auto. split; auto. apply (proj2 (Ht n)). exact Hj.
  - intros (n & j & Hn & Hj & Ht). exists g, tbl, states, entries, n, j. rewrite lowered_index_iff. auto.
Qed.

Variable ti : list (string * nat).
Hypothesis Hlow : lowered nts cs ti g.
Hypothesis Hso : (forall n, flag tbl n = true -> nullable g n) /\ (forall n t, In t (terms tbl n) -> first_of g n t).

Lemma nt_plain nm n : map_get String.eqb nm ni = Some n -> Forall2 sym_rel [ASNonTerminal nm] [NT n] /\ plain [ASNonTerminal nm].
Proof. intro H. split; [constructor; [exists n; auto|constructor]|repeat constructor]. Qed.
Lemma terms_named nm n j : map_get String.eqb nm ni = Some n -> In j (terms tbl n) ->
  exists t r, nth_error names j = Some t /\ uderives nts [ASNonTerminal nm] (ASTerminal t :: r).
Proof.
  intros Hn Hj. destruct (nt_plain _ _ Hn) as (H1 & H2). destruct (first_of_derives g _ _ (proj2 Hso _ _ Hj)) as (r & Hr).
  destruct (derives_up nts cs ti g Hlow Hnames _ _ Hr _ H1 H2) as (ss & D & F1 & U). inversion F1 as [|s Y ss2 Ys F2 F3]; subst.
  inversion U as [|? ? U1 U2]; subst. destruct (plain_eq items _ _ U1 F2) as (t & -> & Ht). exists t, ss2. auto.
Qed.

Lemma computed_sets : (forall n p pr, get_production g n p = Some pr -> acc tbl n (rhs pr)) -> first_sets nts computed.
Proof.
  intro Hac. constructor.
  - intros nm H. apply computed_empty in H. destruct H as (n & Hn & Hf). destruct (nt_plain _ _ Hn) as (H1 & H2).
    destruct (derives_up nts cs ti g Hlow Hnames _ _ (proj1 (nullable_iff g n) (proj1 Hso _ Hf)) _ H1 H2) as (ss & D & F1 & _). inversion F1; subst. exact D.
  - intros nm t H. apply computed_terms in H. destruct H as (n & j & Hn & Hj & Ht). destruct (terms_named _ _ _ Hn Hj) as (t' & r & Ht' & Hd).
    assert (t' = t) by congruence. subst. eauto.
  - intros nm p pr Hp.
    assert (Hi : exists i, map_get String.eqb nm ni = Some i).
    { unfold uproduction in Hp. destruct (find (fun N => String.eqb (an_name N) nm) nts) as [N|] eqn:Ef; [|discriminate].
      apply find_some in Ef. destruct Ef as (HN & Hnm). apply String.eqb_eq in Hnm. subst nm.
      destruct (slot_exists nts N HN) as (i & Hi). exists i. apply (slot_index nts Hnames); auto. }
    destruct Hi as (i & Hi). destruct (production_down nts cs ti g Hlow Hnames _ _ _ _ Hi Hp) as (q & Hq & Hl).
    pose proof (body_rel_rhs items ti g Hlow _ _ Hl) as Hs. pose proof (body_plain pr) as Hb. apply Hac in Hq.
    revert Hs Hb. generalize (body pr). induction Hq as [H|t r H|m r H|m r H _ IH]; intros l Hs Hb; inversion Hs as [|s Y l' Ys F1 F2]; subst;
      try (inversion Hb as [|? ? B1 B2]; subst; destruct (plain_eq items _ _ B1 F1) as (nm' & -> & Hn')).
    + apply acc_end. apply computed_empty. eauto.
    + apply acc_term. apply computed_terms. eauto.
    + apply acc_nt. intros t Ht. apply computed_terms in Ht. destruct Ht as (m' & j & Hm & Hj & Hjt).
      assert (m' = m) by congruence. subst m'. apply computed_terms. exists i, j. auto.
    + apply acc_skip; auto. apply computed_empty. eauto.
Qed.

Lemma computed_up : lookahead_up items g tbl (first_la tbl) (ffirst computed).
Proof.
  constructor; [|auto]. intros ss Xs la la' x Hs Hp Hla H. revert ss Hs Hp. induction H as [la|t r la|n r la t H|n r la x H _ IH]; intros ss Hs Hp;
    inversion Hs as [|s Y l' Ys F1 F2]; subst; try (inversion Hp as [|? ? B1 B2]; subst; destruct (plain_eq items _ _ B1 F1) as (nm & -> & Hn)).
  - exists la'. split; auto. constructor.
  - exists (Some nm). split; [exact Hn|constructor].
  - destruct (terms_named _ _ _ Hn H) as (t' & r' & Ht & _). exists (Some t'). split; [exact Ht|]. apply ff_nt. apply computed_terms. eauto.
  - destruct (IH Hla _ F2 B2) as (x' & Hx & Hf). exists x'. split; auto. apply ff_skip; auto. apply computed_empty. eauto.
Qed.
Lemma computed_down : lookahead_down items g tbl (first_la tbl) (ffirst computed).
Proof.
  constructor; [|auto]. intros ss Xs la la' x Hs Hla H. revert Xs Hs. induction H as [la|t r la|n r la t H|n r la x H _ IH]; intros Xs Hs;
    inversion Hs as [|s Y l' Ys F1 F2]; subst; try (destruct F1 as (i & Hi & ->)).
  - exists la'. split; auto. constructor.
  - exists (Some i). split; [exact Hi|constructor].
  - apply computed_terms in H. destruct H as (n' & j & Hn & Hj & Ht). assert (n' = i) by congruence. subst n'.
    exists (Some j). split; [exact Ht|constructor; auto].
  - destruct (IH Hla _ F2) as (x' & Hx & Hf). exists x'. split; auto. apply computed_empty in H. destruct H as (n' & Hn & Hfl).
    assert (n' = i) by congruence. subst n'. apply fl_skip; auto.
Qed.
End Named.

Lemma stages_exist {A} (items : list (grammar_item A)) : supported (declared_nts items) (token_entries items) ->
  exists g tbl states entries, stages items g tbl states entries.
Proof.
  intro H. apply lower_ok_iff in H. destruct H as (g & Hl). pose proof (lower_spec (declared_nts items) (token_entries items)) as Hs.
  rewrite Hl in Hs. destruct Hs as (ti & Hlow). pose proof (lowered_wf _ _ _ _ Hlow) as Hwf.
  pose (fuel := enough_fuel g).
  assert (Hf1 : List.length (facts g) < fuel) by (unfold fuel, enough_fuel; lia).
  pose proof (first_table_terminates g ho_id (hok_terms _ ho_id_ok) Hwf fuel Hf1) as Ht.
  pose proof (first_never ho_id fuel g) as Hn.
  destruct (generate_first_table ho_id fuel g) as [tbl|p|] eqn:Et; [|destruct (Hn p eq_refl)|congruence].
  pose proof (generate_first_table_ok g ho_id (hok_terms _ ho_id_ok) _ _ Et) as [HJ _].
  assert (Ha : generate_lr1_automaton ho_id fuel g tbl <> OutOfFuel).
  { apply automaton_terminates; [apply hok_terms, ho_id_ok|auto|apply justified_range; auto|exact ho_id_ok|unfold fuel, enough_fuel; lia|unfold fuel, enough_fuel; lia]. }
  pose proof (automaton_never ho_id fuel g tbl Hwf) as Hna.
  destruct (generate_lr1_automaton ho_id fuel g tbl) as [(states & entries)|p|] eqn:Ea; [|destruct (Hna p eq_refl)|congruence].
  exists g, tbl, states, entries, ho_id, fuel. auto using ho_id_ok.
Qed.

Lemma stages_sets {A} (items : list (grammar_item A)) g tbl states entries : distinct_names items -> stages items g tbl states entries ->
  first_sets (declared_nts items) (computed items).
Proof.
  intros Hn Hst. destruct (stages_data items _ _ _ _ Hst) as (ti & Hlow & _ & _ & Hso & _).
  apply (computed_sets items Hn g tbl states entries Hst ti Hlow Hso).
  destruct Hst as (ho & fuel & Hho & _ & Hf & _). eapply first_table_acc; [exact (hok_terms ho Hho)|exact Hf].
Qed.
