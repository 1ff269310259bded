(** * LowerTrees: lowered grammars are well formed and have the user's parse trees (C31) *)
From Verif Require Export LowerProofs Macro.

Section LowerTrees.
Context {A : Type}.
Notation nonterm := (ast_non_terminal A).
Notation lg := (grammar (lexpr A)).
Variable nts : list nonterm.
Variable cs : list conversion.
Variable ti : list (string * nat).
Variable g : lg.
Hypothesis Hlow : lowered nts cs ti g.
Notation ni := (nt_indices_of nts).

Lemma slot_skeleton N i : In (N, i) (slots 0 nts) ->
  nth_error (skeleton 0 nts) i = Some (nt_of (if an_pub N then an_name N ++ "1" else an_name N)%string [] (an_type N) false) /\
  (an_pub N = true -> nth_error (skeleton 0 nts) (S i) = Some (nt_of (an_name N) [entry_production i] (an_type N) true)).
Proof.
  intro H. destruct (blocks_nth (fun _ => []) nts 0 N i H) as [_ Hb]. unfold block in Hb.
  rewrite Nat.sub_0_r in Hb. destruct (an_pub N).
  - split; [specialize (Hb 0)|intros _; specialize (Hb 1)]; simpl in Hb; specialize (Hb _ eq_refl).
    + rewrite Nat.add_0_r in Hb. exact Hb.
    + rewrite Nat.add_1_r in Hb. exact Hb.
  - split; [|discriminate]. specialize (Hb 0 _ eq_refl). rewrite Nat.add_0_r in Hb. exact Hb.
Qed.

Lemma skeleton_inv n x : nth_error (skeleton 0 nts) n = Some x ->
  exists N i, In (N, i) (slots 0 nts) /\
   ((n = i /\ x = nt_of (if an_pub N then an_name N ++ "1" else an_name N)%string [] (an_type N) false) \/
    (n = S i /\ an_pub N = true /\ x = nt_of (an_name N) [entry_production i] (an_type N) true)).
Proof.
  intro H. destruct (blocks_nth_inv (fun _ => []) nts 0 n x H) as (N & i & j & H1 & H2 & H3).
  exists N, i. split; auto. unfold block in H2. rewrite Nat.sub_0_r in H3. destruct (an_pub N).
  - destruct j as [|[|j]]; simpl in H2.
    + inversion H2. left; split; auto. lia.
    + inversion H2. right. split; auto. lia.
    + destruct j; discriminate.
  - destruct j as [|j]; simpl in H2.
    + inversion H2. left; split; auto. lia.
    + destruct j; discriminate.
Qed.

Lemma slot_private N i : In (N, i) (slots 0 nts) -> is_private g i.
Proof.
  intro H. destruct (slot_skeleton _ _ H) as [H1 _]. unfold is_private, get_non_terminal.
  rewrite (lo_nts _ _ _ _ Hlow), H1. simpl. eexists; split; [reflexivity|]. reflexivity.
Qed.

Lemma added_entry N i : In (N, i) (slots 0 nts) -> an_pub N = true -> added ni ti nts (S i) = [].
Proof.
  intros H Hp. unfold added. destruct (slot_skeleton _ _ H) as [_ H2]. specialize (H2 Hp).
  assert (Hno : forall M : nonterm, opt_nat_eqb (map_get String.eqb (an_name M) ni) (Some (S i)) = false).
  { intro M. destruct (opt_nat_eqb _ _) eqn:E; auto. apply opt_nat_eqb_spec in E.
    apply nt_indices_inv in E. destruct E as (N' & HN' & _). destruct (slot_skeleton _ _ HN') as [H3 _].
    rewrite H2 in H3. discriminate. }
  assert (Hl : forall l, flat_map (fun N0 : nonterm => if opt_nat_eqb (map_get String.eqb (an_name N0) ni) (Some (S i)) then lprods ni ti N0 else []) l = []).
  { induction l as [|M l IH]; simpl; auto. rewrite Hno. auto. }
  apply Hl.
Qed.

Lemma added_In n q : In q (added ni ti nts n) ->
  exists N p, In N nts /\ In p (an_productions N) /\ map_get String.eqb (an_name N) ni = Some n /\ lprod ni ti p = Ok q.
Proof.
  unfold added. rewrite in_flat_map. intros (N & HN & Hq).
  destruct (opt_nat_eqb (map_get String.eqb (an_name N) ni) (Some n)) eqn:E; [|contradiction].
  apply opt_nat_eqb_spec in E. unfold lprods in Hq. destruct (mapM (lprod ni ti) (an_productions N)) as [ps|e|] eqn:Em; try contradiction.
  apply mapM_Forall2 in Em. apply In_nth_error in Hq. destruct Hq as (j & Hj).
  destruct (Forall2_nth_error_r _ _ _ Em _ _ Hj) as (p & Hp & Hl). exists N, p. split; auto. split; [eapply nth_error_In; eauto|auto].
Qed.

(** Lowered production of a lowered grammar. *)
Lemma get_production_inv n p q : get_production g n p = Some q ->
  (exists N i, In (N, i) (slots 0 nts) /\ an_pub N = true /\ n = S i /\ p = 0 /\ q = entry_production i) \/
  (exists N i, In (N, i) (slots 0 nts) /\ n = i /\ nth_error (added ni ti nts n) p = Some q).
Proof.
  unfold get_production, get_non_terminal. rewrite (lo_nts _ _ _ _ Hlow).
  destruct (nth_error (skeleton 0 nts) n) as [x|] eqn:Ex; simpl; [|discriminate].
  destruct (skeleton_inv _ _ Ex) as (N & i & H1 & [[-> ->]|(-> & Hp & ->)]); simpl.
  - intro H. right. exists N, i. auto.
  - rewrite (added_entry _ _ H1 Hp). intro H. left. exists N, i. destruct p as [|p]; simpl in H; [inversion H; auto|].
    destruct p; discriminate.
Qed.

Definition sym_rel (s : ast_symbol) (X : symbol) : Prop :=
  match unnamed s with
  | ASTerminal t => exists i, nth_error (map cv_from cs) i = Some t /\ X = T i
  | ASNonTerminal n => exists i, map_get String.eqb n ni = Some i /\ X = NT i
  | _ => False
  end.

Lemma lprod_rhs p q : lprod ni ti p = Ok q ->
  production_ok nts cs p /\ p_action q = EUser (action_expr (ap_action p)) /\
  Forall2 (fun s x => sym_rel s (bs_symbol x) /\ bs_binder x = binder_of s) (ap_symbols p) (p_symbols q).
Proof.
  intro H. pose proof (lprod_spec nts cs ti _ p (lo_ti _ _ _ _ Hlow)) as Hs. rewrite H in Hs.
  destruct Hs as (H1 & H2 & H3). split; auto. split; auto. apply mapM_Forall2 in H2.
  induction H2 as [|s x l l' Hx Hl IH]; constructor; auto.
  - pose proof (lower_symbol_spec nts cs ti _ s (lo_ti _ _ _ _ Hlow) None) as Q. rewrite Hx in Q.
    destruct Q as (_ & Q2 & Q3). split; auto. rewrite Q2. destruct (binder_of s); auto.
Qed.

Lemma Forall2_rhs l l' : Forall2 (fun s x => sym_rel s (bs_symbol x) /\ bs_binder x = binder_of s) l l' ->
  Forall2 sym_rel l (map bs_symbol l').
Proof. induction 1; simpl; constructor; auto. tauto. Qed.

Theorem lowered_wf : wf_grammar g.
Proof.
  constructor.
  - intros n p q m Hq Hin. destruct (get_production_inv _ _ _ Hq) as [(N & i & H1 & _ & _ & _ & ->)|(N & i & H1 & _ & Hj)].
    + simpl in Hin. destruct Hin as [Hin|[]]. inversion Hin; subst. eapply slot_private; eauto.
    + apply nth_error_In in Hj. destruct (added_In _ _ Hj) as (M & p' & _ & _ & _ & Hl).
      destruct (lprod_rhs _ _ Hl) as (_ & _ & Hf). apply Forall2_rhs in Hf.
      apply In_nth_error in Hin. destruct Hin as (j & Hin). destruct (Forall2_nth_error_r _ _ _ Hf _ _ Hin) as (s & _ & Hr).
      unfold sym_rel in Hr. destruct (unnamed s); try contradiction; destruct Hr as (k & Hk & Heq); [discriminate|].
      inversion Heq; subst. destruct (nt_indices_inv _ _ _ Hk) as (N' & HN' & _). eapply slot_private; eauto.
  - intros n p q m Hq Hin. destruct (get_production_inv _ _ _ Hq) as [(N & i & H1 & _ & _ & _ & ->)|(N & i & H1 & _ & Hj)].
    + simpl in Hin. destruct Hin as [Hin|[]]. discriminate.
    + apply nth_error_In in Hj. destruct (added_In _ _ Hj) as (M & p' & _ & _ & _ & Hl).
      destruct (lprod_rhs _ _ Hl) as (_ & _ & Hf). apply Forall2_rhs in Hf.
      apply In_nth_error in Hin. destruct Hin as (j & Hin). destruct (Forall2_nth_error_r _ _ _ Hf _ _ Hin) as (s & _ & Hr).
      unfold sym_rel in Hr. destruct (unnamed s); try contradiction; destruct Hr as (k & Hk & Heq); [|discriminate].
      inversion Heq; subst. unfold n_terminals. rewrite (lo_terms _ _ _ _ Hlow). apply nth_error_Some. congruence.
  - intros n N HN Hp. unfold get_non_terminal in HN. rewrite (lo_nts _ _ _ _ Hlow) in HN.
    destruct (nth_error (skeleton 0 nts) n) as [x|] eqn:Ex; simpl in HN; [|discriminate]. inversion HN; subst N; clear HN.
    destruct (skeleton_inv _ _ Ex) as (N & i & H1 & [[-> ->]|(-> & Hpub & ->)]); simpl in *; [discriminate|].
    rewrite (added_entry _ _ H1 Hpub). simpl. exists (entry_production i), i. auto.
Qed.

(** Lowered grammars always have at least the declared productions: entry points. *)
Lemma entry_nt N i : In (N, i) (slots 0 nts) -> an_pub N = true ->
  get_non_terminal g (S i) = Some (nt_of (an_name N) [entry_production i] (an_type N) true).
Proof.
  intros H Hp. unfold get_non_terminal. rewrite (lo_nts _ _ _ _ Hlow). destruct (slot_skeleton _ _ H) as [_ H2].
  rewrite (H2 Hp). simpl. rewrite (added_entry _ _ H Hp). reflexivity.
Qed.

Lemma public_inv n M : get_non_terminal g n = Some M -> nt_public M = true ->
  exists N i, In (N, i) (slots 0 nts) /\ an_pub N = true /\ n = S i /\ nt_name M = an_name N /\ nt_return_ty M = an_type N.
Proof.
  intros HN Hp. unfold get_non_terminal in HN. rewrite (lo_nts _ _ _ _ Hlow) in HN.
  destruct (nth_error (skeleton 0 nts) n) as [x|] eqn:Ex; simpl in HN; [|discriminate]. inversion HN; subst M; clear HN.
  destruct (skeleton_inv _ _ Ex) as (N & i & H1 & [[-> ->]|(-> & Hpub & ->)]); simpl in *; [discriminate|].
  exists N, i. auto.
Qed.

(** ** Distinct names *)
Hypothesis Hnames : NoDup (map an_name nts).

Lemma slot_index N i : In (N, i) (slots 0 nts) -> map_get String.eqb (an_name N) ni = Some i.
Proof. intro H. apply insert_slots_unique; auto. rewrite slots_names; auto. Qed.

Lemma name_unique M N : In M nts -> In N nts -> an_name M = an_name N -> M = N.
Proof.
  clear Hlow. intros H1 H2 He. induction nts as [|K l IH]; [contradiction|]. simpl in *. inversion Hnames; subst.
  destruct H1 as [->|H1], H2 as [->|H2]; auto.
  - exfalso. apply H3. rewrite He. apply in_map; auto.
  - exfalso. apply H3. rewrite <- He. apply in_map; auto.
Qed.

Lemma flat_map_single {X Y} (c : X -> bool) (f : X -> list Y) l x : NoDup l -> In x l ->
  (forall y, In y l -> c y = true <-> y = x) -> flat_map (fun y => if c y then f y else []) l = f x.
Proof.
  induction l as [|y l IH]; simpl; intros Hn Hin Hc; [contradiction|]. inversion Hn; subst.
  assert (Hnil : ~ In x l -> flat_map (fun y => if c y then f y else []) l = []).
  { intro Hni. clear - Hc Hni. induction l as [|z l IH]; simpl; auto.
    destruct (c z) eqn:E.
    - exfalso. apply Hni. left. apply Hc; simpl; auto.
    - simpl. apply IH; [intros w Hw; apply Hc; simpl in *; tauto|]. intro; apply Hni; right; auto. }
  destruct Hin as [->|Hin].
  - assert (E : c x = true) by (apply Hc; auto). rewrite E, Hnil by auto. apply app_nil_r.
  - destruct (c y) eqn:E.
    + apply Hc in E; auto. subst. contradiction.
    + simpl. apply IH; auto.
Qed.

Lemma added_body N i : In (N, i) (slots 0 nts) -> added ni ti nts i = lprods ni ti N.
Proof.
  intro H. pose proof (slots_In _ _ _ _ H) as HN. unfold added.
  apply (flat_map_single (fun M => opt_nat_eqb (map_get String.eqb (an_name M) ni) (Some i)) (lprods ni ti)); auto.
  - eapply NoDup_map_inv; eauto.
  - intros M HM. rewrite opt_nat_eqb_spec. split.
    + intro Q. destruct (nt_indices_inv _ _ _ Q) as (M' & HM' & Heq).
      assert (M' = M) by (eapply name_unique; eauto; eapply slots_In; eauto). subst M'.
      destruct (slot_skeleton _ _ H) as [S1 _].
      (* same slot index, same declaration *)
      clear - H HM' Hnames. revert H HM'. generalize 0. induction nts as [|K l IH]; intros k H HM'; [contradiction|].
      assert (Hle : forall k (l : list nonterm) M, In (M, i) (slots k l) -> k <= i).
      { intros k' l' M0 H0. destruct (blocks_nth (fun _ => []) l' k' M0 i H0); auto. }
      inversion Hnames; subst.
      assert (Hw : 0 < width K) by (unfold width; destruct (an_pub K); lia).
      cbn [slots] in H, HM'. destruct H as [H|H], HM' as [HM'|HM'].
      * inversion H; inversion HM'; subst; auto.
      * inversion H; subst. apply Hle in HM'. lia.
      * inversion HM'; subst. apply Hle in H. lia.
      * eapply IH; eauto.
    + intros ->. apply slot_index; auto.
Qed.

Lemma find_unique N : In N nts -> find (fun M => String.eqb (an_name M) (an_name N)) nts = Some N.
Proof.
  intro HN. destruct (find (fun M => String.eqb (an_name M) (an_name N)) nts) as [M|] eqn:E.
  - apply find_some in E. destruct E as [E1 E2]. apply String.eqb_eq in E2. f_equal. apply name_unique; auto.
  - exfalso. eapply find_none in E; eauto. rewrite String.eqb_refl in E. discriminate.
Qed.

Lemma slot_exists N : In N nts -> exists i, In (N, i) (slots 0 nts).
Proof.
  intro H. rewrite <- (slots_fst nts 0) in H. apply in_map_iff in H. destruct H as ([M i] & H1 & H2). simpl in H1; subst. eauto.
Qed.

(** User productions and lowered productions. *)
Lemma production_down nm i p pr : map_get String.eqb nm ni = Some i -> uproduction nts nm p = Some pr ->
  exists q, get_production g i p = Some q /\ lprod ni ti pr = Ok q.
Proof.
  intros Hi Hp. destruct (nt_indices_inv _ _ _ Hi) as (N & HN & <-). pose proof (slots_In _ _ _ _ HN) as HN'.
  unfold uproduction in Hp. rewrite (find_unique N HN') in Hp.
  unfold get_production, get_non_terminal. rewrite (lo_nts _ _ _ _ Hlow). destruct (slot_skeleton _ _ HN) as [-> _].
  simpl. rewrite (added_body _ _ HN). unfold lprods. destruct (lo_prods _ _ _ _ Hlow N HN') as (ps & Hps). rewrite Hps.
  apply mapM_Forall2 in Hps. destruct (Forall2_nth_error _ _ _ Hps _ _ Hp) as (q & Hq & Hl). eauto.
Qed.

Lemma production_up nm i p q : map_get String.eqb nm ni = Some i -> get_production g i p = Some q ->
  exists pr, uproduction nts nm p = Some pr /\ lprod ni ti pr = Ok q.
Proof.
  intros Hi Hp. destruct (nt_indices_inv _ _ _ Hi) as (N & HN & <-). pose proof (slots_In _ _ _ _ HN) as HN'.
  unfold uproduction. rewrite (find_unique N HN').
  unfold get_production, get_non_terminal in Hp. rewrite (lo_nts _ _ _ _ Hlow) in Hp.
  destruct (slot_skeleton _ _ HN) as [E _]. rewrite E in Hp.
  simpl in Hp. rewrite (added_body _ _ HN) in Hp. unfold lprods in Hp.
  destruct (lo_prods _ _ _ _ Hlow N HN') as (ps & Hps). rewrite Hps in Hp.
  apply mapM_Forall2 in Hps. destruct (Forall2_nth_error_r _ _ _ Hps _ _ Hp) as (pr & Hq & Hl). eauto.
Qed.

Lemma sym_rel_inj s nm i : sym_rel s (NT i) -> unnamed s = ASNonTerminal nm -> map_get String.eqb nm ni = Some i.
Proof. unfold sym_rel. intros H E. rewrite E in H. destruct H as (j & H1 & H2). inversion H2; subst; auto. Qed.

(** ** Trees *)
Context {Tok V W : Type}.
Variable cidx : Tok -> option nat.
Variable class : Tok -> option string.
Hypothesis Hclass : forall tok, class tok = match cidx tok with Some i => nth_error (map cv_from cs) i | None => None end.
Hypothesis Hrange : forall tok i, cidx tok = Some i -> i < List.length cs.

Fixpoint ltree (t : utree Tok) : tree Tok :=
  match t with
  | ULeaf tok => Leaf tok
  | UNode nm p kids => Node (match map_get String.eqb nm ni with Some i => i | None => 0 end) p (map ltree kids)
  end.

Lemma terminal_unique i j s : nth_error (map cv_from cs) i = Some s -> nth_error (map cv_from cs) j = Some s -> i = j.
Proof.
  intros H1 H2. pose proof (ti_dup _ _ _ (lo_ti _ _ _ _ Hlow)) as Hd.
  eapply (proj1 (NoDup_nth_error _) Hd); [apply nth_error_Some; congruence|congruence].
Qed.

Lemma tree_down :
  (forall t s, utree_of nts class t s -> forall X, sym_rel s X -> wf_tree g cidx (ltree t) X) /\
  (forall ts ss, uforest_of nts class ts ss -> forall Xs, Forall2 sym_rel ss Xs -> wf_forest g cidx (map ltree ts) Xs).
Proof.
  apply utree_uforest_ind.
  - intros t b s _ IH X HX. apply IH. exact HX.
  - intros tok s Hc X (i & Hi & ->). simpl. constructor. rewrite Hclass in Hc.
    destruct (cidx tok) as [j|]; [|discriminate]. f_equal. eapply terminal_unique; eauto.
  - intros nm p kids pr Hp _ IH X (i & Hi & ->). simpl. rewrite Hi.
    destruct (production_down _ _ _ _ Hi Hp) as (q & Hq & Hl). econstructor; eauto.
    apply IH. apply Forall2_rhs. apply lprod_rhs; auto.
  - intros Xs H; inversion H; subst. constructor.
  - intros t ts s ss _ IHt _ IHs Xs H; inversion H; subst. simpl. constructor; auto.
Qed.

Lemma tree_up :
  (forall tr X, wf_tree g cidx tr X -> forall s, sym_rel s X -> exists t, utree_of nts class t s /\ ltree t = tr) /\
  (forall trs Xs, wf_forest g cidx trs Xs -> forall ss, Forall2 sym_rel ss Xs ->
     exists ts, uforest_of nts class ts ss /\ map ltree ts = trs).
Proof.
  assert (Hnm : forall t s, utree_of nts class t (unnamed s) -> utree_of nts class t s).
  { intros t s. induction s; simpl; auto. intro H. constructor; auto. }
  apply wf_tree_forest_ind.
  - intros tok i Hc s Hs. exists (ULeaf tok). split; auto. apply Hnm. unfold sym_rel in Hs.
    destruct (unnamed s); try contradiction; destruct Hs as (j & Hj & Heq); [|discriminate].
    inversion Heq; subst. constructor. rewrite Hclass, Hc. auto.
  - intros n p kids q Hq _ IH s Hs. unfold sym_rel in Hs.
    destruct (unnamed s) as [|nm| |] eqn:Eu; try contradiction; destruct Hs as (j & Hj & Heq); [discriminate|].
    inversion Heq; subst j. destruct (production_up _ _ _ _ Hj Hq) as (pr & Hp & Hl).
    destruct (IH (ap_symbols pr)) as (ts & Ht & Hm).
    { apply Forall2_rhs. apply lprod_rhs; auto. }
    exists (UNode nm p ts). split; [|simpl; rewrite Hj, Hm; auto]. apply Hnm. rewrite Eu. econstructor; eauto.
  - intros ss H; inversion H; subst. exists []. split; [constructor|auto].
  - intros t ts X Xs _ IHt _ IHs ss H; inversion H; subst.
    destruct (IHt _ H3) as (u & U1 & U2). destruct (IHs _ H4) as (us & V1 & V2). exists (u :: us). split; [constructor; auto|].
    simpl. congruence.
Qed.

Lemma yield_ltree t : yield (ltree t) = uyield t.
Proof.
  revert t. fix IH 1. intros [tok|nm p kids]; simpl; auto.
  induction kids as [|k kids IHk]; simpl; auto. rewrite IH, IHk. auto.
Qed.

(** ** Values *)
Variable fields : Tok -> list V.
Variable usem : A -> list (string * bval V) -> W -> option (V * W).

Notation lsem := (lsem usem).

Lemma bindings_ub l l' : Forall2 (fun s x => sym_rel s (bs_symbol x) /\ bs_binder x = binder_of s) l l' ->
  forall vs : list (bval V), bindings l' vs = ubindings l vs.
Proof.
  induction 1 as [|s x l l' [_ Hx] Hl IH]; intros [|v vs]; simpl; auto. rewrite Hx. destruct (binder_of s); rewrite IH; auto.
Qed.

Lemma eval_down :
  (forall t s, utree_of nts class t s -> forall X, sym_rel s X -> forall w,
     eval_tree g fields lsem (ltree t) w = ueval nts fields usem t w) /\
  (forall ts ss, uforest_of nts class ts ss -> forall Xs, Forall2 sym_rel ss Xs -> forall w,
     eval_forest g fields lsem (map ltree ts) w = uevals nts fields usem ts w).
Proof.
  apply utree_uforest_ind.
  - intros t b s _ IH X HX w. eapply IH. exact HX.
  - intros; reflexivity.
  - intros nm p kids pr Hp _ IH X (i & Hi & ->) w. simpl. rewrite Hi.
    destruct (production_down _ _ _ _ Hi Hp) as (q & Hq & Hl). rewrite Hq, Hp.
    destruct (lprod_rhs _ _ Hl) as (_ & Ha & Hf).
    specialize (IH _ (Forall2_rhs _ _ Hf) w). unfold eval_forest, uevals in IH. rewrite IH.
    destruct (ueval_list (ueval nts fields usem) kids w) as [[vs w1]|]; auto.
    rewrite Ha. simpl. rewrite (bindings_ub _ _ Hf). auto.
  - intros; reflexivity.
  - intros t ts s ss _ IHt _ IHs Xs H w; inversion H; subst. unfold eval_forest, uevals in *. simpl.
    rewrite (IHt _ H2). destruct (ueval nts fields usem t w) as [[v w1]|]; auto. rewrite (IHs _ H4). auto.
Qed.

(** ** Entry points *)
Lemma nt_value nm t w v w' : ueval nts fields usem t w = Some (v, w') -> utree_of nts class t (ASNonTerminal nm) ->
  exists x, v = BVal x.
Proof.
  intros H Ht. inversion Ht; subst. simpl in H. destruct (uproduction nts nm p); [|discriminate].
  destruct (ueval_list (ueval nts fields usem) kids w) as [[vs w1]|]; [|discriminate].
  destruct (usem _ _ w1) as [[x w2]|]; [|discriminate]. inversion H; eauto.
Qed.

Lemma entry_down N i t : In (N, i) (slots 0 nts) -> an_pub N = true ->
  utree_of nts class t (ASNonTerminal (an_name N)) ->
  wf_tree g cidx (Node (S i) 0 [ltree t]) (NT (S i)) /\ yield (Node (S i) 0 [ltree t]) = uyield t /\
  forall w, eval_tree g fields lsem (Node (S i) 0 [ltree t]) w = ueval nts fields usem t w.
Proof.
  intros HN Hp Ht. pose proof (entry_nt _ _ HN Hp) as He.
  assert (Hq : get_production g (S i) 0 = Some (entry_production i)) by (unfold get_production; rewrite He; auto).
  assert (Hr : sym_rel (ASNonTerminal (an_name N)) (NT i)) by (exists i; split; auto; apply slot_index; auto).
  split; [|split].
  - econstructor; eauto. simpl. constructor; [|constructor]. eapply (proj1 tree_down); eauto.
  - simpl. rewrite app_nil_r. apply yield_ltree.
  - intro w. cbn [eval_tree]. rewrite Hq. cbn [eval_list]. rewrite (proj1 eval_down _ _ Ht _ Hr).
    destruct (ueval nts fields usem t w) as [[v w']|] eqn:E; auto.
    destruct (nt_value _ _ _ _ _ E Ht) as (x & ->). simpl. auto.
Qed.

Lemma entry_up N i tr : In (N, i) (slots 0 nts) -> an_pub N = true -> wf_tree g cidx tr (NT (S i)) ->
  exists t, utree_of nts class t (ASNonTerminal (an_name N)) /\ tr = Node (S i) 0 [ltree t].
Proof.
  intros HN Hp Ht. inversion Ht as [|n p kids q Hq Hk]; subst.
  pose proof (entry_nt _ _ HN Hp) as He. unfold get_production in Hq. rewrite He in Hq. simpl in Hq.
  destruct p as [|p]; simpl in Hq; [|destruct p; discriminate]. inversion Hq; subst q.
  simpl in Hk. inversion Hk as [|t0 l X Xs H1 H2]; subst. inversion H2; subst.
  destruct (proj1 tree_up _ _ H1 (ASNonTerminal (an_name N))) as (t & T1 & T2).
  { exists i; split; auto. apply slot_index; auto. }
  exists t. split; auto. congruence.
Qed.

(** ** Derivations *)
Lemma dstep_up ss Xs Ys : Forall2 sym_rel ss Xs -> Forall (fun s => unnamed s = s) ss -> dstep g Xs Ys ->
  exists ss', udstep nts ss ss' /\ Forall2 sym_rel ss' Ys /\ Forall (fun s => unnamed s = s) ss'.
Proof.
  intros Hf Hu Hd. inversion Hd as [l n p q r Hq]; subst.
  apply Forall2_app_inv_r in Hf. destruct Hf as (l1 & l2 & F1 & F2 & ->). inversion F2 as [|s X r1 r' Hs Hr]; subst.
  apply Forall_app in Hu. destruct Hu as [U1 U2]. inversion U2; subst.
  unfold sym_rel in Hs. destruct (unnamed s) as [|nm| |] eqn:Eu; try contradiction; destruct Hs as (j & Hj & Heq); [discriminate|].
  inversion Heq; subst j. match goal with H : _ = s |- _ => subst s end.
  destruct (production_up _ _ _ _ Hj Hq) as (pr & Hp & Hl). destruct (lprod_rhs _ _ Hl) as (_ & _ & Hrhs).
  exists (l1 ++ map unnamed (ap_symbols pr) ++ r1). split; [econstructor; eauto|].
  assert (Huu : forall s, unnamed (unnamed s) = unnamed s) by (induction s; simpl; auto).
  split.
  - apply Forall2_app; auto. apply Forall2_app; auto. apply Forall2_rhs in Hrhs. unfold rhs.
    clear - Hrhs Huu. induction Hrhs; simpl; constructor; auto. unfold sym_rel in *. rewrite Huu. auto.
  - apply Forall_app; split; auto. apply Forall_app; split; auto. apply Forall_forall. intros x Hx.
    apply in_map_iff in Hx. destruct Hx as (y & <- & _). auto.
Qed.

Lemma derives_up Xs Ys : derives g Xs Ys -> forall ss, Forall2 sym_rel ss Xs -> Forall (fun s => unnamed s = s) ss ->
  exists ss', uderives nts ss ss' /\ Forall2 sym_rel ss' Ys /\ Forall (fun s => unnamed s = s) ss'.
Proof.
  induction 1 as [l|l m r Hs Hd IH]; intros ss Hf Hu.
  - exists ss. split; [constructor|auto].
  - destruct (dstep_up _ _ _ Hf Hu Hs) as (s1 & D1 & F1 & U1). destruct (IH _ F1 U1) as (s2 & D2 & F2 & U2).
    exists s2. split; auto. econstructor; eauto.
Qed.

End LowerTrees.
