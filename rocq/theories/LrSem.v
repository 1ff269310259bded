(** * LrSem: viable prefixes, valid items and the abstract LR machine *)
From Verif Require Export TableProofs.

(** Table entries without their payload. *)
Inductive aact : Type := AShift (n : nat) | AReduce (nt p : nat) | AAccept.
Definition act_of {A} (tb : lr_table A) (s : nat) (la : option nat) : option aact :=
  match get_action tb s la with
  | Some (Shift n) => Some (AShift n)
  | Some (Reduce nt p _) => Some (AReduce nt p)
  | Some Accept => Some AAccept
  | None => None
  end.

Section LrSem.
Context {A : Type}.
Variable g : grammar A.
Hypothesis Hwf : wf_grammar g.
Variable tbl : first_table.
Variable states : list lr1_state.
Variable entries : list (nat * nat).
Hypothesis Haut : automaton_ok g tbl states entries.

Definition acc_item (it : item) : Prop :=
  is_public g (it_nt it) /\ it_cursor it = 1 /\ it_la it = None.
Definition red_item (it : item) : Prop :=
  is_complete g it = true /\ is_private g (it_nt it).

(** How the action function relates to the item sets. *)
Record act_ok (act : nat -> option nat -> option aact) : Prop := {
  ac_shift : forall s st it t, nth_error states s = Some st -> In it (st_items st) ->
    next_symbol g it = Some (T t) ->
    exists n, trans states s (T t) = Some n /\ act s (Some t) = Some (AShift n);
  ac_accept : forall s st it, nth_error states s = Some st -> In it (st_items st) -> acc_item it ->
    act s None = Some AAccept;
  ac_reduce : forall s st it, nth_error states s = Some st -> In it (st_items st) -> red_item it ->
    act s (it_la it) = Some (AReduce (it_nt it) (it_prod it)) \/
    (exists n, act s (it_la it) = Some (AShift n)) \/ act s (it_la it) = Some AAccept;
  ac_inv : forall s la a, act s la = Some a -> exists st, nth_error states s = Some st /\
    match a with
    | AShift n => exists it t, la = Some t /\ In it (st_items st) /\ next_symbol g it = Some (T t) /\
                               trans states s (T t) = Some n
    | AReduce nt p => exists it, In it (st_items st) /\ red_item it /\ it_nt it = nt /\ it_prod it = p /\
                                 it_la it = la
    | AAccept => la = None /\ exists it, In it (st_items st) /\ acc_item it
    end
}.

(** ** Valid items *)
Variable nt0 e : nat.
Hypothesis Hentry : In (nt0, e) entries.

(** [valid d pi it]: [it] is LR(1)-valid (w.r.t. [tbl]) for the symbols [rev pi]; [d] counts closure
    steps. *)
Inductive valid : nat -> list symbol -> item -> Prop :=
| v_start : valid 0 [] (start_item nt0 0 None)
| v_step : forall d pi it x, valid d pi it -> succ_item g tbl it x -> valid (S d) pi x
| v_adv : forall d pi it X, valid d pi it -> next_symbol g it = Some X -> valid d (X :: pi) (advance it).

Lemma entry_public : is_public g nt0.
Proof. apply (ao_entry _ _ _ _ Haut _ _ Hentry). Qed.

Lemma stack_path_nonempty pi ss : stack_path states e pi ss -> exists s ss', ss = s :: ss'.
Proof. intro H; destruct H; eauto. Qed.

Lemma stack_path_length pi ss : stack_path states e pi ss -> List.length ss = S (List.length pi).
Proof. induction 1; simpl in *; auto. Qed.

Lemma valid_items pi ss : stack_path states e pi ss ->
  exists s ss' st, ss = s :: ss' /\ nth_error states s = Some st /\ st_items st <> [] /\
    forall it, In it (st_items st) <-> exists d, valid d pi it.
Proof.
  induction 1 as [|X pi s s' ss Hp IH Ht].
  - destruct (ao_entry _ _ _ _ Haut _ _ Hentry) as (_ & st & Hst & Hs & Hi).
    exists e, [], st. split; auto. split; auto. split.
    + intro E. apply (in_nil (a := start_item nt0 0 None)). rewrite <- E. apply Hi. apply ic_kernel; auto.
    + intro it. rewrite Hi. split.
      * intro H; induction H as [it ->|it x H (d & IH) Hsu]; [exists 0; constructor|].
        exists (S d). econstructor; eauto.
      * intros (d & H). remember [] as pi. induction H; subst; [apply ic_kernel; auto| |discriminate].
        eapply ic_step; eauto.
  - destruct IH as (s0 & ss0 & st & Heq & Hst & Hne & Hi). inversion Heq; subst s0 ss0; clear Heq.
    unfold trans in Ht. rewrite Hst in Ht.
    destruct (ao_goto _ _ _ _ Haut _ _ _ _ Hst Ht) as (st' & Hst' & (Hso & Hg) & Hne').
    exists s', (s :: ss), st'. split; auto. split; auto. split; auto.
    intro it. rewrite Hg. split.
    + intro H; induction H as [it (it0 & H1 & H2 & ->)|it x H (d & IH) Hsu].
      * apply Hi in H1. destruct H1 as (d & H1). exists d. constructor; auto.
      * exists (S d). econstructor; eauto.
    + intros (d & H). remember (X :: pi) as pi'. induction H; subst; [discriminate| |].
      * eapply ic_step; eauto.
      * inversion Heqpi'; subst. apply ic_kernel. exists it. split; auto. apply Hi; eauto.
Qed.

Lemma valid_prod d pi it : valid d pi it ->
  exists pr, get_production g (it_nt it) (it_prod it) = Some pr /\ it_cursor it <= List.length (rhs pr).
Proof.
  induction 1 as [|d pi it x H IH Hs|d pi it X H IH Hn].
  - simpl. destruct entry_public as (N & HN & Hp).
    destruct (wfg_pub g Hwf _ _ HN Hp) as (pr & m & H1 & H2). exists pr.
    unfold get_production. rewrite HN, H1. simpl. split; auto. lia.
  - destruct Hs as (n & p & pr & la & _ & Hp & _ & ->). simpl. exists pr; split; auto. lia.
  - destruct (next_symbol_production g _ _ Hn) as (pr & Hp & Hc). exists pr; split; auto.
    simpl. assert (it_cursor it < List.length (rhs pr)) by (apply nth_error_Some; congruence). lia.
Qed.

Lemma item_rhs_prod it pr : get_production g (it_nt it) (it_prod it) = Some pr -> item_rhs g it = rhs pr.
Proof. unfold item_rhs. intros ->; auto. Qed.

Lemma next_symbol_skipn it X : next_symbol g it = Some X ->
  skipn (it_cursor it) (item_rhs g it) = X :: skipn (S (it_cursor it)) (item_rhs g it).
Proof.
  unfold next_symbol. generalize (item_rhs g it) (it_cursor it). intros l c; revert l.
  induction c as [|c IH]; intros [|Y l] H; simpl in *; try discriminate; [congruence | apply IH; auto].
Qed.

Lemma skipn_next_symbol it X r : skipn (it_cursor it) (item_rhs g it) = X :: r ->
  next_symbol g it = Some X /\ r = skipn (S (it_cursor it)) (item_rhs g it).
Proof.
  unfold next_symbol. generalize (item_rhs g it) (it_cursor it). intros l c; revert l.
  induction c as [|c IH]; intros [|Y l] H; simpl in *; try discriminate.
  - inversion H; auto.
  - apply IH; auto.
Qed.

Lemma advance_rhs it : item_rhs g (advance it) = item_rhs g it.
Proof. reflexivity. Qed.

(** Suffix lemma: the symbols before the dot are on top of the stack; below them the item starts. *)
Lemma valid_suffix d pi it : valid d pi it ->
  exists pi0, pi = rev (firstn (it_cursor it) (item_rhs g it)) ++ pi0 /\
    valid d pi0 (start_item (it_nt it) (it_prod it) (it_la it)).
Proof.
  induction 1 as [|d pi it x H IH Hs|d pi it X H IH Hn].
  - exists []. split; auto. constructor.
  - destruct Hs as (n & p & pr & la & Hn & Hp & Hf & ->). exists pi. simpl. split; auto.
    eapply v_step; eauto. exists n, p, pr, la; auto.
  - destruct IH as (pi0 & -> & Hv). exists pi0. split; auto.
    rewrite advance_rhs. simpl it_cursor.
    assert (Hf : firstn (S (it_cursor it)) (item_rhs g it) = firstn (it_cursor it) (item_rhs g it) ++ [X]).
    { unfold next_symbol in Hn. revert Hn. generalize (item_rhs g it) (it_cursor it). intros l c; revert l.
      induction c as [|c IHc]; intros [|Y l] Hn; simpl in *; try discriminate; [congruence|].
      f_equal. apply IHc; auto. }
    rewrite Hf, rev_app_distr. reflexivity.
Qed.

Lemma path_split al pi0 : forall ss, stack_path states e (al ++ pi0) ss ->
  stack_path states e pi0 (skipn (List.length al) ss).
Proof.
  induction al as [|X al IH]; simpl; intros ss H; auto.
  inversion H; subst. apply IH; auto.
Qed.

Lemma valid_start_origin d pi n p la : valid d pi (start_item n p la) -> is_private g n ->
  exists d' it, d = S d' /\ valid d' pi it /\ next_symbol g it = Some (NT n) /\
    first_la tbl (skipn (S (it_cursor it)) (item_rhs g it)) (it_la it) la.
Proof.
  intros H Hp. inversion H; subst.
  - exfalso. eapply public_private_excl; eauto. apply entry_public.
  - destruct H1 as (n' & p' & pr & la' & Hn & Hpr & Hf & Heq). inversion Heq; subst. eauto 8.
Qed.

(** Items of entry points only occur at the bottom. *)
Lemma valid_public d pi it : valid d pi it -> is_public g (it_nt it) ->
  it_nt it = nt0 /\ it_prod it = 0 /\ it_la it = None /\
  (it_cursor it = 0 /\ pi = [] \/
   it_cursor it = 1 /\ exists pr m, get_production g nt0 0 = Some pr /\ rhs pr = [NT m] /\ pi = [NT m]).
Proof.
  induction 1 as [|d pi it x H IH Hs|d pi it X H IH Hn]; intro Hp.
  - repeat split; auto.
  - exfalso. destruct Hs as (n & p & pr & la & Hn & Hpr & Hf & ->). simpl in Hp.
    destruct (next_symbol_production g _ _ Hn) as (pr' & Hpr' & Hc). apply nth_error_In in Hc.
    eapply public_private_excl; eauto. eapply wfg_nt; eauto.
  - simpl in Hp. destruct (IH Hp) as (H1 & H2 & H3 & H4).
    destruct (next_symbol_production g _ _ Hn) as (pr & Hpr & Hc).
    destruct (wf_public_prod g Hwf _ _ _ Hpr Hp) as (_ & m & Hr & _).
    rewrite Hr in Hc. destruct H4 as [(H4 & ->)|(H4 & _)].
    + rewrite H4 in Hc. simpl in Hc. inversion Hc; subst X. simpl.
      repeat split; auto. right. split; [lia|]. exists pr, m. rewrite <- H1, <- H2. auto.
    + rewrite H4 in Hc. discriminate.
Qed.

(** Viable prefixes *)
Lemma valid_derives d pi it : valid d pi it ->
  exists r, derives g [NT nt0] (rev pi ++ skipn (it_cursor it) (item_rhs g it) ++ r).
Proof.
  induction 1 as [|d pi it x H (r & IH) Hs|d pi it X H (r & IH) Hn].
  - exists []. simpl. rewrite app_nil_r. pose proof (valid_prod _ _ _ v_start) as (pr & Hp & _).
    rewrite (item_rhs_prod _ _ Hp). eapply derives_prod; eauto.
  - destruct Hs as (n & p & pr & la & Hn & Hpr & Hf & ->).
    rewrite (next_symbol_skipn _ _ Hn) in IH. simpl it_cursor.
    exists (skipn (S (it_cursor it)) (item_rhs g it) ++ r). eapply derives_trans; [exact IH|].
    rewrite (item_rhs_prod (start_item n p la) pr Hpr). simpl skipn at 2.
    change ((NT n :: skipn (S (it_cursor it)) (item_rhs g it)) ++ r) with
      ([NT n] ++ skipn (S (it_cursor it)) (item_rhs g it) ++ r).
    apply derives_ctx. eapply derives_prod; eauto.
  - exists r. rewrite (next_symbol_skipn _ _ Hn) in IH. simpl rev. simpl it_cursor.
    rewrite advance_rhs, <- app_assoc. exact IH.
Qed.

Theorem viable_prefix pi ss : stack_path states e pi ss -> exists r, derives g [NT nt0] (rev pi ++ r).
Proof.
  intro H. destruct (valid_items _ _ H) as (s & ss' & st & _ & _ & Hne & Hi).
  destruct (st_items st) as [|it l]; [congruence|].
  destruct (proj1 (Hi it) (or_introl eq_refl)) as (d & Hv).
  apply valid_derives in Hv. destruct Hv as (r & Hr). eauto.
Qed.

(** ** The machine *)
Variable act : nat -> option nat -> option aact.
Hypothesis Hact : act_ok act.

Lemma reduce_possible pi s ss la n p :
  stack_path states e pi (s :: ss) -> act s la = Some (AReduce n p) ->
  exists pr pi0 s0 ss0 s1 d,
    get_production g n p = Some pr /\ is_private g n /\ pi = rev (rhs pr) ++ pi0 /\
    skipn (List.length (rhs pr)) (s :: ss) = s0 :: ss0 /\
    stack_path states e pi0 (s0 :: ss0) /\ trans states s0 (NT n) = Some s1 /\
    valid d pi0 (start_item n p la).
Proof.
  intros Hp Ha. destruct (ac_inv _ Hact _ _ _ Ha) as (st & Hst & it & Hit & (Hc & Hpriv) & <- & <- & <-).
  destruct (valid_items _ _ Hp) as (s' & ss' & st' & Heq & Hst' & _ & Hi). inversion Heq; subst s' ss'.
  rewrite Hst in Hst'; inversion Hst'; subst st'.
  apply Hi in Hit. destruct Hit as (d & Hv).
  destruct (valid_prod _ _ _ Hv) as (pr & Hpr & _).
  destruct (valid_suffix _ _ _ Hv) as (pi0 & Hpi & Hv0).
  unfold is_complete in Hc. apply Nat.eqb_eq in Hc. rewrite Hc, firstn_all, (item_rhs_prod _ _ Hpr) in Hpi.
  rewrite Hpi in Hp. apply path_split in Hp. rewrite rev_length in Hp.
  destruct (valid_items _ _ Hp) as (s0 & ss0 & st0 & Heq0 & Hst0 & _ & Hi0).
  rewrite Heq0 in Hp.
  destruct (valid_start_origin _ _ _ _ _ Hv0 Hpriv) as (d' & it' & -> & Hv' & Hn' & _).
  assert (Hin' : In it' (st_items st0)) by (apply Hi0; eauto).
  destruct (ao_total _ _ _ _ Haut _ _ _ _ Hst0 Hin' Hn') as (s1 & Hs1).
  exists pr, pi0, s0, ss0, s1, (S d'). repeat split; auto.
  unfold trans. rewrite Hst0. auto.
Qed.

Lemma accept_bottom pi s ss la :
  stack_path states e pi (s :: ss) -> act s la = Some AAccept ->
  la = None /\ exists pr m, get_production g nt0 0 = Some pr /\ rhs pr = [NT m] /\ pi = [NT m].
Proof.
  intros Hp Ha. destruct (ac_inv _ Hact _ _ _ Ha) as (st & Hst & -> & it & Hit & (Hpub & Hcur & _)).
  split; auto.
  destruct (valid_items _ _ Hp) as (s' & ss' & st' & Heq & Hst' & _ & Hi). inversion Heq; subst s' ss'.
  rewrite Hst in Hst'; inversion Hst'; subst st'. apply Hi in Hit. destruct Hit as (d & Hv).
  destruct (valid_public _ _ _ Hv Hpub) as (_ & _ & _ & [(H & _)|(_ & H)]); [lia|auto].
Qed.

Lemma shift_trans s la n : act s la = Some (AShift n) ->
  exists t, la = Some t /\ trans states s (T t) = Some n.
Proof.
  intros Ha. destruct (ac_inv _ Hact _ _ _ Ha) as (st & Hst & it & t & -> & _ & _ & Ht). eauto.
Qed.

(** ** Progress: a non-error entry leads to a shift or to acceptance *)
Inductive good (x : option nat) : list nat -> Prop :=
| good_shift : forall s ss n, act s x = Some (AShift n) -> good x (s :: ss)
| good_accept : forall s ss, act s x = Some AAccept -> good x (s :: ss)
| good_reduce : forall s ss n p pr s0 ss0 s1,
    act s x = Some (AReduce n p) -> get_production g n p = Some pr ->
    skipn (List.length (rhs pr)) (s :: ss) = s0 :: ss0 -> trans states s0 (NT n) = Some s1 ->
    good x (s1 :: s0 :: ss0) -> good x (s :: ss).

(** Every non-terminal used after the first symbol of a right-hand side has a non-empty FIRST entry. *)
Definition inhabited_first : Prop :=
  forall n p pr X l m, get_production g n p = Some pr -> rhs pr = X :: l -> In (NT m) l ->
    flag tbl m = true \/ exists t, In t (terms tbl m).

Hypothesis Hinh : inhabited_first.
Hypothesis Hjust : justified g tbl.

Lemma first_la_inhabited l : (forall m, In (NT m) l -> flag tbl m = true \/ exists t, In t (terms tbl m)) ->
  forall la, exists x, first_la tbl l la x.
Proof.
  induction l as [|[m|t] l IH]; intros H la.
  - exists la; constructor.
  - destruct (H m (or_introl eq_refl)) as [Hf|(t & Ht)].
    + destruct (IH (fun m Hm => H m (or_intror Hm)) la) as (x & Hx). exists x. apply fl_skip; auto.
    + exists (Some t). constructor; auto.
  - exists (Some t). constructor.
Qed.

Lemma skipn_In {X} (x : X) n l : In x (skipn n l) -> In x l.
Proof. intro H. rewrite <- (firstn_skipn n l). apply in_app_iff; auto. Qed.

Lemma item_la_inhabited d pi it : valid d pi it ->
  exists x, first_la tbl (skipn (S (it_cursor it)) (item_rhs g it)) (it_la it) x.
Proof.
  intro Hv. apply first_la_inhabited. intros m Hm.
  destruct (valid_prod _ _ _ Hv) as (pr & Hpr & _). rewrite (item_rhs_prod _ _ Hpr) in Hm.
  destruct (rhs pr) as [|X l] eqn:El; [rewrite skipn_nil in Hm; contradiction|]. simpl in Hm.
  apply skipn_In in Hm. eapply Hinh; eauto.
Qed.

Lemma in_top d pi s ss it : stack_path states e pi (s :: ss) -> valid d pi it ->
  exists st, nth_error states s = Some st /\ In it (st_items st).
Proof.
  intros Hp Hv. destruct (valid_items _ _ Hp) as (s' & ss' & st & Heq & Hst & _ & Hi).
  inversion Heq; subst. exists st; split; auto. apply Hi; eauto.
Qed.

Lemma goto_exists d pi s ss it X : stack_path states e pi (s :: ss) -> valid d pi it ->
  next_symbol g it = Some X ->
  exists s1, trans states s X = Some s1 /\ stack_path states e (X :: pi) (s1 :: s :: ss).
Proof.
  intros Hp Hv Hn. destruct (in_top _ _ _ _ _ Hp Hv) as (st & Hst & Hin).
  destruct (ao_total _ _ _ _ Haut _ _ _ _ Hst Hin Hn) as (s1 & Hs1).
  exists s1. assert (trans states s X = Some s1) by (unfold trans; rewrite Hst; auto).
  split; auto. constructor; auto.
Qed.

Lemma first_la_jnull l r la x : jnull_seq g tbl l -> first_la tbl r la x -> first_la tbl (l ++ r) la x.
Proof. intros H Hr; induction H; simpl; auto. apply fl_skip; auto. Qed.

(** Reducing nullable non-terminals to the empty string under lookahead [x] *)
Lemma eps_lemma x :
  (forall m, jnull g tbl m -> forall d pi s ss it,
     stack_path states e pi (s :: ss) -> valid d pi it -> next_symbol g it = Some (NT m) ->
     first_la tbl (skipn (S (it_cursor it)) (item_rhs g it)) (it_la it) x ->
     (forall s1, trans states s (NT m) = Some s1 -> good x (s1 :: s :: ss)) -> good x (s :: ss)) /\
  (forall l, jnull_seq g tbl l -> forall d pi s ss it s0 ss0,
     stack_path states e pi (s :: ss) -> valid d pi it -> it_la it = x -> is_private g (it_nt it) ->
     skipn (it_cursor it) (item_rhs g it) = l ->
     skipn (it_cursor it) (s :: ss) = s0 :: ss0 ->
     (forall s1, trans states s0 (NT (it_nt it)) = Some s1 -> good x (s1 :: s0 :: ss0)) ->
     good x (s :: ss)).
Proof.
  apply jnull_both.
  - (* a nullable non-terminal *)
    intros m p pr Hp Hj IH d pi s ss it Hpath Hv Hn Hla K.
    assert (Hpriv : is_private g m).
    { destruct (next_symbol_production g _ _ Hn) as (pr' & Hpr' & Hc). apply nth_error_In in Hc.
      eapply wfg_nt; eauto. }
    apply (IH (S d) pi s ss (start_item m p x) s ss); auto.
    + eapply v_step; eauto. exists m, p, pr, x. auto.
    + simpl. apply item_rhs_prod; auto.
  - (* complete *)
    intros d pi s ss it s0 ss0 Hpath Hv Hla Hpriv Hsk Hbase K.
    destruct (valid_prod _ _ _ Hv) as (pr & Hpr & Hcur).
    assert (Hlen : it_cursor it = List.length (rhs pr)).
    { rewrite (item_rhs_prod _ _ Hpr) in Hsk. pose proof (skipn_length (it_cursor it) (rhs pr)) as H.
      rewrite Hsk in H. simpl in H. lia. }
    destruct (in_top _ _ _ _ _ Hpath Hv) as (st & Hst & Hin).
    assert (Hred : red_item it).
    { split; auto. unfold is_complete. rewrite (item_rhs_prod _ _ Hpr). apply Nat.eqb_eq; auto. }
    destruct (ac_reduce _ Hact _ _ _ Hst Hin Hred) as [Ha|[(n & Ha)|Ha]]; rewrite Hla in Ha.
    + destruct (reduce_possible _ _ _ _ _ _ Hpath Ha) as (pr' & pi0 & s0' & ss0' & s1 & d' & Hpr' & _ & _ & Hsk' & _ & Ht & _).
      rewrite Hpr in Hpr'; inversion Hpr'; subst pr'. rewrite <- Hlen, Hbase in Hsk'. inversion Hsk'; subst s0' ss0'.
      eapply good_reduce; eauto. rewrite <- Hlen; auto.
    + eapply good_shift; eauto.
    + eapply good_accept; eauto.
  - (* one more nullable symbol *)
    intros m r Hf Hj IH1 Hjs IH2 d pi s ss it s0 ss0 Hpath Hv Hla Hpriv Hsk Hbase K.
    apply skipn_next_symbol in Hsk. destruct Hsk as (Hn & Hr).
    apply (IH1 d pi s ss it); auto.
    + rewrite Hla, <- Hr. rewrite <- (app_nil_r r). apply first_la_jnull; auto. constructor.
    + intros s1 Hs1. apply (IH2 d (NT m :: pi) s1 (s :: ss) (advance it) s0 ss0); auto.
      * constructor; auto.
      * constructor; auto.
Qed.

(** Walking over nullable symbols *)
Lemma walk x Z l : jnull_seq g tbl l -> forall d pi s ss it,
  stack_path states e pi (s :: ss) -> valid d pi it ->
  skipn (it_cursor it) (item_rhs g it) = l ++ Z -> first_la tbl Z (it_la it) x ->
  (forall pi' s' ss' it', stack_path states e pi' (s' :: ss') -> valid d pi' it' ->
     skipn (it_cursor it') (item_rhs g it') = Z -> it_nt it' = it_nt it -> it_prod it' = it_prod it ->
     it_la it' = it_la it -> good x (s' :: ss')) ->
  good x (s :: ss).
Proof.
  induction 1 as [|m r Hf Hj Hjs IH]; intros d pi s ss it Hpath Hv Hsk Hfl K.
  - eapply K; eauto.
  - simpl in Hsk. apply skipn_next_symbol in Hsk. destruct Hsk as (Hn & Hr).
    apply (proj1 (eps_lemma x) m Hj d pi s ss it); auto.
    + rewrite <- Hr. apply first_la_jnull; auto.
    + intros s1 Hs1. apply (IH d (NT m :: pi) s1 (s :: ss) (advance it)).
      * constructor; auto.
      * constructor; auto.
      * simpl it_cursor. rewrite advance_rhs. auto.
      * exact Hfl.
      * intros pi' s' ss' it' H1 H2 H3 H4 H5 H6. eapply K; eauto.
Qed.

(** A terminal of FIRST(m) will be shifted when the dot is before [m]. *)
Lemma first_lemma m t : jfirst g tbl m t -> forall d pi s ss it,
  stack_path states e pi (s :: ss) -> valid d pi it -> next_symbol g it = Some (NT m) ->
  good (Some t) (s :: ss).
Proof.
  induction 1 as [m p pr l t r Hp Hr Hl | m p pr l m' t r Hp Hr Hl Hin Hj IH];
    intros d pi s ss it Hpath Hv Hn.
  - destruct (item_la_inhabited _ _ _ Hv) as (la & Hla).
    assert (Hv' : valid (S d) pi (start_item m p la)).
    { eapply v_step; eauto. exists m, p, pr, la; auto. }
    apply (walk (Some t) (T t :: r) l Hl (S d) pi s ss (start_item m p la)); auto.
    + simpl. rewrite (item_rhs_prod (start_item m p la) pr Hp). auto.
    + constructor.
    + intros pi' s' ss' it' H1 H2 H3 _ _ _. apply skipn_next_symbol in H3. destruct H3 as (H3 & _).
      destruct (in_top _ _ _ _ _ H1 H2) as (st & Hst & Hi).
      destruct (ac_shift _ Hact _ _ _ _ Hst Hi H3) as (n & _ & Ha). eapply good_shift; eauto.
  - destruct (item_la_inhabited _ _ _ Hv) as (la & Hla).
    assert (Hv' : valid (S d) pi (start_item m p la)).
    { eapply v_step; eauto. exists m, p, pr, la; auto. }
    apply (walk (Some t) (NT m' :: r) l Hl (S d) pi s ss (start_item m p la)); auto.
    + simpl. rewrite (item_rhs_prod (start_item m p la) pr Hp). auto.
    + constructor; auto.
    + intros pi' s' ss' it' H1 H2 H3 _ _ _. apply skipn_next_symbol in H3. destruct H3 as (H3 & _).
      eapply IH; eauto.
Qed.

Lemma first_la_split l la x : first_la tbl l la x ->
  exists l1 Z, l = l1 ++ Z /\ jnull_seq g tbl l1 /\ first_la tbl Z la x /\
    (Z = [] /\ x = la \/ (exists t r, Z = T t :: r /\ x = Some t) \/
     (exists m t r, Z = NT m :: r /\ x = Some t /\ In t (terms tbl m))).
Proof.
  induction 1 as [la|t r la|n r la t Ht|n r la x Hf Hx (l1 & Z & -> & Hl & HZ & Hc)].
  - exists [], []. split; [reflexivity|]. split; [constructor|]. split; [constructor|]. left; auto.
  - exists [], (T t :: r). split; [reflexivity|]. split; [constructor|]. split; [constructor|].
    right; left; eauto.
  - exists [], (NT n :: r). split; [reflexivity|]. split; [constructor|].
    split; [constructor; auto|]. right; right; eauto 8.
  - exists (NT n :: l1), Z. split; [reflexivity|].
    split; [constructor; auto; apply (j_null _ _ Hjust); auto|]. auto.
Qed.

Lemma progress_item d : forall pi s ss it x,
  stack_path states e pi (s :: ss) -> valid d pi it ->
  first_la tbl (skipn (it_cursor it) (item_rhs g it)) (it_la it) x -> good x (s :: ss).
Proof.
  induction d as [d IH] using lt_wf_ind. intros pi s ss it x Hpath Hv Hla.
  destruct (first_la_split _ _ _ Hla) as (l1 & Z & Heq & Hl1 & HZ & Hc).
  apply (walk x Z l1 Hl1 d pi s ss it); auto.
  intros pi' s' ss' it' H1 H2 H3 E1 E2 E3. destruct (in_top _ _ _ _ _ H1 H2) as (st & Hst & Hi).
  destruct Hc as [(-> & ->)|[(t & r & -> & ->)|(m & t & r & -> & -> & Hin)]].
  - (* complete item *)
    destruct (valid_prod _ _ _ H2) as (pr & Hpr & Hcur).
    assert (Hlen : it_cursor it' = List.length (rhs pr)).
    { rewrite (item_rhs_prod _ _ Hpr) in H3. pose proof (skipn_length (it_cursor it') (rhs pr)) as H.
      rewrite H3 in H. simpl in H. lia. }
    rewrite <- E3.
    destruct (public_or_private g _ _ _ Hpr) as [Hpub|Hpriv].
    + destruct (valid_public _ _ _ H2 Hpub) as (_ & _ & Hl & [(Hc & _)|(Hc & _)]).
      * exfalso. destruct (wf_public_prod g Hwf _ _ _ Hpr Hpub) as (_ & m & Hr & _).
        rewrite Hr in Hlen. simpl in Hlen. lia.
      * rewrite Hl. eapply good_accept. eapply (ac_accept _ Hact); eauto. repeat split; auto.
    + assert (Hred : red_item it').
      { split; auto. unfold is_complete. rewrite (item_rhs_prod _ _ Hpr). apply Nat.eqb_eq; auto. }
      destruct (ac_reduce _ Hact _ _ _ Hst Hi Hred) as [Ha|[(n & Ha)|Ha]].
      * destruct (valid_suffix _ _ _ H2) as (pi0 & Hpi & Hv0).
        rewrite (item_rhs_prod _ _ Hpr), Hlen, firstn_all in Hpi.
        rewrite Hpi in H1. pose proof (path_split _ _ _ H1) as Hp0. rewrite rev_length in Hp0.
        destruct (stack_path_nonempty _ _ Hp0) as (s0 & ss0 & Hsk). rewrite Hsk in Hp0.
        destruct (valid_start_origin _ _ _ _ _ Hv0 Hpriv) as (d' & it2 & -> & Hv2 & Hn2 & Hf2).
        destruct (goto_exists _ _ _ _ _ _ Hp0 Hv2 Hn2) as (s1 & Hs1 & Hp1).
        eapply good_reduce; eauto.
        apply (IH d' ltac:(lia) (NT (it_nt it') :: pi0) s1 (s0 :: ss0) (advance it2)); auto.
        constructor; auto.
      * eapply good_shift; eauto.
      * eapply good_accept; eauto.
  - apply skipn_next_symbol in H3. destruct H3 as (H3 & _).
    destruct (ac_shift _ Hact _ _ _ _ Hst Hi H3) as (n & _ & Ha). eapply good_shift; eauto.
  - apply skipn_next_symbol in H3. destruct H3 as (H3 & _).
    eapply first_lemma; eauto. apply (j_first _ _ Hjust); auto.
Qed.

Theorem progress pi s ss x : stack_path states e pi (s :: ss) -> act s x <> None -> good x (s :: ss).
Proof.
  intros Hp Ha. destruct (act s x) as [[n|n p|]|] eqn:E; [| | |congruence].
  - eapply good_shift; eauto.
  - destruct (ac_inv _ Hact _ _ _ E) as (st & Hst & it & Hit & (Hc & Hpriv) & <- & <- & <-).
    destruct (valid_items _ _ Hp) as (s' & ss' & st' & Heq & Hst' & _ & Hi). inversion Heq; subst s' ss'.
    rewrite Hst in Hst'; inversion Hst'; subst st'. apply Hi in Hit. destruct Hit as (d & Hv).
    eapply progress_item; eauto.
    unfold is_complete in Hc. apply Nat.eqb_eq in Hc. rewrite Hc, skipn_all. constructor.
  - eapply good_accept; eauto.
Qed.
End LrSem.
