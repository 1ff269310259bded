(** * FirstClosed: when every non-terminal that derives the empty string has an empty production, the
    last pass of src/first.rs:67-100 sees all empty markers, and every productive non-terminal has a
    non-empty FIRST entry. *)
From Verif Require Export LrSem.

Section FirstClosed.
Context {A : Type}.
Variable g : grammar A.
Hypothesis Hwf : wf_grammar g.
Variable ho : hash_order.
Hypothesis Hho : forall l, Permutation (ho_terms ho l) l.

Definition direct_empty : Prop := forall n, is_private g n -> nullable g n ->
  exists p pr, get_production g n p = Some pr /\ rhs pr = [].

Definition full (tbl : first_table) : Prop := forall n, is_private g n -> nullable g n -> flag tbl n = true.

Lemma full_mono tbl tbl' : tbl_le tbl tbl' -> full tbl -> full tbl'.
Proof. intros [H _] Hf n H1 H2. apply H, Hf; auto. Qed.

(** One production has been taken into account completely. *)
Definition done_all (tbl : first_table) (n : nat) (syms : list symbol) : Prop :=
  forall l X r, syms = l ++ X :: r -> nullable_seq g l ->
    match X with
    | T t => In t (terms tbl n)
    | NT m => nullable g m \/ forall t, In t (terms tbl m) -> In t (terms tbl n)
    end.

Lemma done_all_mono st st' n syms : trans_ok g st st' -> snd st' = false ->
  done_all (fst st) n syms -> done_all (fst st') n syms.
Proof.
  intros [_ [Hf Ht] _ _ Hs] Hu H l X r E Hl. specialize (H l X r E Hl). destruct X as [m|t]; auto.
  destruct H as [H|H]; auto. right. intros t Hm. apply Hs in Hm; auto.
Qed.

Lemma done_all_skip tbl n m r : done_all tbl n r -> nullable g m -> done_all tbl n (NT m :: r).
Proof.
  intros H Hm l X r' E Hl. destruct l as [|Y l]; cbn in E; inversion E; subst.
  - left; auto.
  - apply (H l X r'); auto. inversion Hl; auto.
Qed.

Lemma first_symbols_done n p pr (Hp : get_production g n p = Some pr) syms :
  forall l st, rhs pr = l ++ syms -> justified g (fst st) -> jnull_seq g (fst st) l -> full (fst st) ->
  snd (first_symbols ho n syms st) = false -> done_all (fst (first_symbols ho n syms st)) n syms.
Proof.
  induction syms as [|X syms IH]; intros l [tbl upd] Hr HJ Hl Hfull Hu.
  - intros l' X r E. destruct l'; discriminate.
  - pose proof (first_symbols_ok g ho Hho n p pr Hp (X :: syms) l (tbl, upd) Hr HJ Hl) as [Ht Hd].
    specialize (Hd Hu). cbn [fst snd] in *.
    destruct X as [m|t].
    + rewrite first_symbols_NT in *. destruct (fs_empty (get_first tbl m)) eqn:Ef.
      * assert (Hm : nullable g m) by (apply (proj1 (jnull_nullable g tbl)), (j_null _ _ HJ); auto).
        apply done_all_skip; auto. apply (IH (l ++ [NT m]) (tbl, upd)); auto.
        -- rewrite <- app_assoc; auto.
        -- apply jnull_seq_app; auto. constructor; [auto | apply (j_null _ _ HJ); auto | constructor].
      * assert (Hpm : is_private g m).
        { destruct (wfg_nt g Hwf n p pr m Hp) as (M & HM & HMp); [rewrite Hr; apply in_app_iff; right; left; auto|].
          exists M. auto. }
        assert (Hnm : ~ nullable g m).
        { intro Hn. specialize (Hfull m Hpm Hn). unfold flag in Hfull. congruence. }
        intros l' X r E Hl'. destruct l' as [|Y l']; cbn in E; inversion E; subst.
        -- exact Hd.
        -- exfalso. inversion Hl'; auto.
    + intros l' X r E Hl'. destruct l' as [|Y l']; cbn in E; inversion E; subst.
      * exact Hd.
      * inversion Hl'.
Qed.

Lemma first_production_done n p pr (Hp : get_production g n p = Some pr) st :
  justified g (fst st) -> full (fst st) ->
  snd (first_production ho n st pr) = false -> done_all (fst (first_production ho n st pr)) n (rhs pr).
Proof.
  intros HJ Hf Hu. unfold first_production in *. destruct (rhs pr) as [|X r] eqn:Er.
  - intros l X r E. destruct l; discriminate.
  - apply (first_symbols_done n p pr Hp (X :: r) []); auto. constructor.
Qed.

(** After a production with no symbols the marker is set, whatever [updated] says. *)
Lemma first_production_empty n p pr (Hp : get_production g n p = Some pr) st :
  justified g (fst st) -> rhs pr = [] -> flag (fst (first_production ho n st pr)) n = true.
Proof.
  intros HJ Er. assert (Hn : n < List.length (fst st)).
  { rewrite (j_len _ _ HJ). apply get_production_nt in Hp. destruct Hp as (N & HN & _). eapply nt_in_range; eauto. }
  unfold first_production. rewrite Er. destruct st as [tbl upd]. destruct (set_empty tbl n) as [tbl1 b] eqn:E. cbn [fst] in *.
  pose proof (set_empty_spec _ _ _ _ Hn E) as (Hlen & Hf & _ & _).
  rewrite first_symbols_nil. destruct (set_empty tbl1 n) as [tbl2 b2] eqn:E2. cbn [fst].
  assert (Hn1 : n < List.length tbl1) by lia. pose proof (set_empty_spec _ _ _ _ Hn1 E2) as (_ & Hf2 & _).
  rewrite Hf2, Nat.eqb_refl. auto.
Qed.

(** No production with no symbols: starting without markers and reporting nothing, none is set. *)
Definition unflagged (st : first_table * bool) : Prop := snd st = false -> forall n, flag (fst st) n = false.

Lemma add_all_flags n ts : forall st, n < List.length (fst st) -> forall m, flag (fst (add_all n ts st)) m = flag (fst st) m.
Proof.
  induction ts as [|t ts IH]; intros [tbl upd] Hn m; auto. rewrite add_all_cons.
  destruct (add_first tbl n t) as [tbl1 b] eqn:E. pose proof (add_first_spec _ _ _ _ _ Hn E) as (Hl & Hf & _ & _).
  rewrite IH; cbn [fst] in *; [apply Hf|lia].
Qed.
Lemma add_all_snd n ts : forall st, snd (add_all n ts st) = false -> snd st = false.
Proof.
  induction ts as [|t ts IH]; intros [tbl upd] H; auto. rewrite add_all_cons in H.
  destruct (add_first tbl n t) as [tbl1 b] eqn:E. apply IH in H. cbn in *. apply orb_false_iff in H. tauto.
Qed.

Lemma first_production_unflagged n p pr (Hp : get_production g n p = Some pr) st :
  justified g (fst st) -> unflagged st -> unflagged (first_production ho n st pr).
Proof.
  intros HJ Hu. assert (Hn : n < List.length (fst st)).
  { rewrite (j_len _ _ HJ). apply get_production_nt in Hp. destruct Hp as (N & HN & _). eapply nt_in_range; eauto. }
  intros Hs k. unfold first_production in *. destruct (rhs pr) as [|X r] eqn:Er; destruct st as [tbl upd]; cbn [fst snd] in *.
  - exfalso. destruct (set_empty tbl n) as [tbl1 b] eqn:E. pose proof (set_empty_spec _ _ _ _ Hn E) as (_ & _ & _ & Hb).
    rewrite first_symbols_nil in Hs. cbn in Hs. apply orb_false_iff in Hs. destruct Hs as [-> ->].
    specialize (Hu eq_refl n). cbn in Hu. rewrite Hu in Hb. discriminate.
  - destruct X as [m|t].
    + rewrite first_symbols_NT in *. destruct (fs_empty (get_first tbl m)) eqn:Ef.
      * destruct upd; [|specialize (Hu eq_refl m); unfold flag in Hu; cbn [fst] in Hu; congruence].
        exfalso. assert (Hx : trans_ok g (tbl, true) (first_symbols ho n r (tbl, true))).
        { apply (first_symbols_ok g ho Hho n p pr Hp r [NT m]); auto.
          constructor; [auto|apply (j_null _ _ HJ); auto|constructor]. }
        rewrite (to_upd _ _ _ Hx) in Hs by auto. discriminate.
      * rewrite add_all_flags by auto. apply add_all_snd in Hs. apply Hu. auto.
    + rewrite first_symbols_T in *. destruct (add_first tbl n t) as [tbl1 b] eqn:E.
      pose proof (add_first_spec _ _ _ _ _ Hn E) as (_ & Hf & _ & _). cbn in *. rewrite Hf.
      apply orb_false_iff in Hs. apply Hu. tauto.
Qed.

(** Folds with an invariant [P] preserved along the way. *)
Lemma fold_inv {X} (f : first_table * bool -> X -> first_table * bool) (P : first_table * bool -> Prop)
  (D : X -> first_table * bool -> Prop) l :
  (forall st x, In x l -> justified g (fst st) -> P st -> trans_ok g st (f st x) /\ P (f st x) /\ D x (f st x)) ->
  (forall st st' x, trans_ok g st st' -> D x st -> D x st') ->
  forall st, justified g (fst st) -> P st ->
  trans_ok g st (fold_left f l st) /\ P (fold_left f l st) /\ forall x, In x l -> D x (fold_left f l st).
Proof.
  intros Hf Hm. induction l as [|x l IH]; simpl; intros st HJ HP.
  - split; [apply trans_refl | tauto].
  - destruct (Hf st x (or_introl eq_refl) HJ HP) as (H1 & H2 & H3).
    destruct (IH (fun st x Hx => Hf st x (or_intror Hx)) (f st x) (to_just _ _ _ H1 HJ) H2) as (H4 & H5 & H6).
    split; [eapply trans_trans; eauto|]. split; auto. intros y [<-|Hy]; auto. eapply Hm; eauto.
Qed.

Lemma pass_inv (P : first_table * bool -> Prop) (D : nat -> production A -> first_table * bool -> Prop) :
  (forall n p pr st, get_production g n p = Some pr -> justified g (fst st) -> P st ->
     P (first_production ho n st pr) /\ D n pr (first_production ho n st pr)) ->
  (forall st st' n pr, trans_ok g st st' -> D n pr st -> D n pr st') ->
  forall tbl, justified g tbl -> P (tbl, false) ->
  P (first_pass ho g tbl) /\ forall n p pr, get_production g n p = Some pr -> D n pr (first_pass ho g tbl).
Proof.
  intros Hs Hm tbl HJ HP. unfold first_pass.
  destruct (fold_inv (fun st '(nt, n) => fold_left (first_production ho nt) (nt_productions n) st) P
     (fun x st => forall pr, In pr (nt_productions (snd x)) -> D (fst x) pr st) (non_terminal_indices g))
    with (st := (tbl, false)) as (H1 & H2 & H3); auto.
  - intros st [n N] Hin HJ' HP'. apply enumerate_nth_error in Hin.
    apply (fold_inv (first_production ho n) P (fun pr st => D n pr st) (nt_productions N)); auto.
    intros st' pr Hpr HJ'' HP''. apply In_nth_error in Hpr. destruct Hpr as (p & Hpr).
    assert (Hp : get_production g n p = Some pr) by (unfold get_production, get_non_terminal; rewrite Hin; auto).
    split; [eapply first_production_ok; eauto|eapply Hs; eauto].
    intros; eapply Hm; eauto.
  - intros st st' x HT HD pr Hpr. eapply Hm; eauto.
  - split; auto. intros n p pr Hp. apply get_production_nt in Hp. destruct Hp as (N & HN & Hpr).
    apply (H3 (n, N)); [apply enumerate_nth_error; auto | simpl; eapply nth_error_In; eauto].
Qed.

Definition marked (tbl : first_table) : Prop :=
  forall n p pr, get_production g n p = Some pr -> rhs pr = [] -> flag tbl n = true.

Lemma pass_marked tbl : justified g tbl -> marked (fst (first_pass ho g tbl)).
Proof.
  intros HJ. destruct (pass_inv (fun _ => True) (fun n pr st => rhs pr = [] -> flag (fst st) n = true)) with (tbl := tbl) as (_ & H); auto.
  - intros n p pr st Hp HJ' _. split; auto. intro Er. eapply first_production_empty; eauto.
  - intros st st' n pr HT HD Er. apply (to_le _ _ _ HT). auto.
Qed.

Hypothesis Hdir : direct_empty.

Lemma marked_full tbl : marked tbl -> full tbl.
Proof. intros H n Hp Hn. destruct (Hdir n Hp Hn) as (p & pr & H1 & H2). eapply H; eauto. Qed.

Lemma pass_done tbl : justified g tbl -> full tbl -> snd (first_pass ho g tbl) = false ->
  forall n p pr, get_production g n p = Some pr -> done_all (fst (first_pass ho g tbl)) n (rhs pr).
Proof.
  intros HJ Hf Hu.
  destruct (pass_inv (fun st => full (fst st)) (fun n pr st => snd st = false -> done_all (fst st) n (rhs pr))) with (tbl := tbl) as (_ & H); auto.
  - intros n p pr st Hp HJ' Hf'. split.
    + eapply full_mono; [|exact Hf']. eapply to_le. eapply first_production_ok; eauto.
    + intro Hs. eapply first_production_done; eauto.
  - intros st st' n pr HT HD Hs. eapply done_all_mono; eauto. apply HD. destruct (snd st) eqn:E; auto.
    rewrite (to_upd _ _ _ HT) in Hs by auto. discriminate.
  - intros n p pr Hp. eapply H; eauto.
Qed.

(** A first pass that reports nothing found no empty production. *)
Lemma pass_unflagged tbl : justified g tbl -> (forall n, flag tbl n = false) -> snd (first_pass ho g tbl) = false ->
  forall n p pr, get_production g n p = Some pr -> rhs pr <> [].
Proof.
  intros HJ Hf Hu n p pr Hp Er.
  destruct (pass_inv unflagged (fun _ _ _ => True)) with (tbl := tbl) as (H & _); auto.
  - intros n' p' pr' st Hp' HJ' HU. split; auto. eapply first_production_unflagged; eauto.
  - intros _ m. apply Hf.
  - pose proof (pass_marked tbl HJ n p pr Hp Er) as Hm. rewrite (H Hu n) in Hm. discriminate.
Qed.

Lemma new_unflagged n : flag (first_table_new (n_non_terminals g)) n = false.
Proof.
  assert (H : forall k n, nth n (repeat first_set_default k) first_set_default = first_set_default).
  { induction k; intros [|m]; simpl; auto. }
  unfold flag, get_first, first_table_new. rewrite H. auto.
Qed.

Lemma first_loop_closed fuel : forall tbl tbl', justified g tbl -> full tbl -> first_loop ho fuel g tbl = Ok tbl' ->
  full tbl' /\ forall n p pr, get_production g n p = Some pr -> done_all tbl' n (rhs pr).
Proof.
  induction fuel as [|fuel IH]; cbn [first_loop]; intros tbl tbl' HJ Hf H; [discriminate|].
  destruct (first_pass_ok g ho Hho tbl HJ) as [H1 _]. pose proof (pass_done tbl HJ Hf) as H2.
  destruct (first_pass ho g tbl) as [tbl1 upd] eqn:E. cbn [fst snd] in *. destruct upd.
  - apply (IH tbl1); auto. { apply (to_just _ _ _ H1); auto. } eapply full_mono; [apply (to_le _ _ _ H1)|auto].
  - injection H as <-. split; [|exact (H2 eq_refl)]. eapply full_mono; [apply (to_le _ _ _ H1)|auto].
Qed.

Theorem first_table_closed fuel tbl : generate_first_table ho fuel g = Ok tbl ->
  full tbl /\ forall n p pr, get_production g n p = Some pr -> done_all tbl n (rhs pr).
Proof.
  unfold generate_first_table. pose proof (justified_new g) as HJ.
  destruct fuel as [|fuel]; cbn [first_loop]; [discriminate|].
  destruct (first_pass_ok g ho Hho _ HJ) as [H1 _]. pose proof (pass_marked _ HJ) as H2.
  pose proof (pass_unflagged _ HJ new_unflagged) as H3. pose proof (pass_done _ HJ) as H4.
  destruct (first_pass ho g (first_table_new (n_non_terminals g))) as [tbl1 upd] eqn:E. cbn [fst snd] in *.
  intro H. destruct upd.
  - apply (first_loop_closed fuel tbl1 tbl); [apply (to_just _ _ _ H1 HJ)|apply marked_full; exact H2|exact H].
  - injection H as <-. split; [apply marked_full; auto|]. apply H4; auto. intros n Hp Hn. exfalso.
    destruct (Hdir n Hp Hn) as (p & pr & Hpr & Er). eapply H3; eauto.
Qed.

(** ** Productive non-terminals *)
Inductive generating : nat -> Prop :=
| gen_intro : forall n p pr, get_production g n p = Some pr ->
    (forall m, In (NT m) (rhs pr) -> generating m) -> generating n.

Lemma derives_generating a w : derives g a (map T w) -> forall n, In (NT n) a -> generating n.
Proof.
  intro H. remember (map T w) as b. induction H as [l|l m r Hs Hd IH]; subst.
  - intros n Hn. apply in_map_iff in Hn. destruct Hn as (x & Hx & _). discriminate.
  - specialize (IH eq_refl). intros n Hn. inversion Hs as [l1 k p pr r1 Hp]; subst.
    apply in_app_iff in Hn. destruct Hn as [Hn|[Hn|Hn]].
    + apply IH. apply in_app_iff; auto.
    + inversion Hn; subst. econstructor; eauto. intros m0 Hm. apply IH. apply in_app_iff; right. apply in_app_iff; auto.
    + apply IH. apply in_app_iff; right. apply in_app_iff; auto.
Qed.

Theorem generating_inhabited fuel tbl : generate_first_table ho fuel g = Ok tbl ->
  forall n, generating n -> is_private g n -> flag tbl n = true \/ exists t, In t (terms tbl n).
Proof.
  intro Htbl. destruct (first_table_closed _ _ Htbl) as [Hf Hd]. destruct (first_table_sound g ho Hho _ _ Htbl) as [Hs _].
  intros n Hg. induction Hg as [n p pr Hp Hm IH]. intro Hpriv.
  assert (Hx : forall s l, rhs pr = l ++ s -> nullable_seq g l -> flag tbl n = true \/ exists t, In t (terms tbl n)).
  { induction s as [|X s IHs]; intros l Hr Hl.
    - left. apply Hf; auto. econstructor; eauto. rewrite Hr, app_nil_r. auto.
    - pose proof (Hd n p pr Hp l X s Hr Hl) as HD. destruct X as [m|t]; [|right; eauto].
      assert (Hin : In (NT m) (rhs pr)) by (rewrite Hr; apply in_app_iff; right; left; auto).
      destruct (wfg_nt g Hwf n p pr m Hp Hin) as (M & HM & HMp).
      assert (Hpm : is_private g m) by (exists M; auto).
      destruct (flag tbl m) eqn:Efl.
      + apply (IHs (l ++ [NT m])); [rewrite <- app_assoc; auto|]. apply nullable_seq_app. split; auto.
        constructor; [auto|constructor].
      + destruct (IH m Hin Hpm) as [E|(t & Ht)]; [congruence|]. right. exists t.
        destruct HD as [HD|HD]; auto. exfalso. specialize (Hf m Hpm HD). congruence. }
  apply (Hx (rhs pr) []); auto. constructor.
Qed.
End FirstClosed.
