(** * TableProofs: the table builder (src/lr_common.rs:31-189, src/lr1.rs:346-394) *)
From Verif Require Export AutomatonProofs.

Lemma akey_eqb_spec a b : akey_eqb a b = true <-> a = b.
Proof.
  destruct a, b; unfold akey_eqb; simpl. rewrite andb_true_iff, Nat.eqb_eq, opt_nat_eqb_spec.
  split; [intros [-> ->]; auto | intro H; inversion H; auto].
Qed.
Lemma gkey_eqb_spec a b : gkey_eqb a b = true <-> a = b.
Proof.
  destruct a, b; unfold gkey_eqb; simpl. rewrite andb_true_iff, !Nat.eqb_eq.
  split; [intros [-> ->]; auto | intro H; inversion H; auto].
Qed.

Section Table.
Context {A : Type}.
Variable g : grammar A.
Variable ho : hash_order.
Hypothesis Hho : hash_order_ok ho.
Implicit Types tb : lr_table A.

(** What the items of a state ask for at lookahead [la]. *)
Definition wants_shift (st : lr1_state) (it : item) (la : option nat) (n : nat) : Prop :=
  exists t, la = Some t /\ next_symbol g it = Some (T t) /\ map_get symbol_eqb (T t) (st_goto st) = Some n.
Definition wants_reduce (it : item) (la : option nat) : Prop :=
  is_complete g it = true /\ is_private g (it_nt it) /\ it_la it = la.
Definition wants_accept (it : item) (la : option nat) : Prop :=
  is_public g (it_nt it) /\ it_cursor it = 1 /\ it_la it = None /\ la = None.

(** Items whose action clashes with a reduction on [la]. *)
Definition wants (st : lr1_state) (it : item) (la : option nat) : Prop :=
  (exists n, wants_shift st it la n) \/ wants_reduce it la \/ wants_accept it la.

(** The action map at state [s] after processing the items [l]. *)
Record act_inv (s : nat) (st : lr1_state) (l : list item) (tb : lr_table A) : Prop := {
  tv_shift : forall it la n, In it l -> wants_shift st it la n -> get_action tb s la = Some (Shift n);
  tv_accept : forall it la, In it l -> wants_accept it la -> get_action tb s la = Some Accept;
  tv_reduce : forall it la, In it l -> wants_reduce it la ->
     (exists pr, get_production g (it_nt it) (it_prod it) = Some pr /\
        get_action tb s la = Some (Reduce (it_nt it) (it_prod it) (p_action pr))) \/
     (exists b n, In b l /\ wants_shift st b la n) \/
     (exists b, In b l /\ wants_accept b la);
  tv_inv : forall la a, get_action tb s la = Some a ->
     match a with
     | Shift n => exists it, In it l /\ wants_shift st it la n
     | Accept => exists it, In it l /\ wants_accept it la
     | Reduce nt p act => exists it pr, In it l /\ wants_reduce it la /\ it_nt it = nt /\ it_prod it = p /\
         get_production g nt p = Some pr /\ act = p_action pr
     end
}.

(** State [s] untouched. *)
Definition fresh (s : nat) (tb : lr_table A) : Prop :=
  (forall la, get_action tb s la = None) /\ (forall nt, get_goto tb s nt = None).

Lemma get_action_insert tb s la a s' la' :
  get_action (insert_action tb s la a) s' la' =
  if akey_eqb (s', la') (s, la) then Some a else get_action tb s' la'.
Proof.
  unfold get_action, insert_action; simpl. destruct (akey_eqb (s', la') (s, la)) eqn:E.
  - apply akey_eqb_spec in E. rewrite E. apply map_get_insert_same. apply akey_eqb_spec.
  - apply map_get_insert_other; [apply akey_eqb_spec|]. intro Heq.
    apply akey_eqb_spec in Heq. congruence.
Qed.

Lemma akey_same s la la' : akey_eqb (s, la) (s, la') = opt_nat_eqb la la'.
Proof. unfold akey_eqb; simpl. rewrite Nat.eqb_refl; auto. Qed.
Lemma akey_other s s' la la' : s <> s' -> akey_eqb (s, la) (s', la') = false.
Proof. unfold akey_eqb; simpl. intro H. apply Nat.eqb_neq in H. rewrite H; auto. Qed.

Lemma add_gotos_action s l : forall tb, tb_action (add_gotos s l tb) = tb_action tb.
Proof.
  unfold add_gotos. induction l as [|[[n|t] j] l IH]; simpl; intro tb; auto. rewrite IH; auto.
Qed.

Lemma add_gotos_n s l : forall tb, tb_n_states (add_gotos s l tb) = tb_n_states tb.
Proof.
  unfold add_gotos. induction l as [|[[n|t] j] l IH]; simpl; intro tb; auto. rewrite IH; auto.
Qed.

Lemma get_action_add_gotos tb s l s' la : get_action (add_gotos s l tb) s' la = get_action tb s' la.
Proof. unfold get_action. rewrite add_gotos_action; auto. Qed.

Lemma get_goto_insert tb s n j s' n' :
  get_goto (add_goto tb s n j) s' n' = if gkey_eqb (s', n') (s, n) then Some j else get_goto tb s' n'.
Proof.
  unfold get_goto, add_goto; simpl. destruct (gkey_eqb (s', n') (s, n)) eqn:E.
  - apply gkey_eqb_spec in E. rewrite E. apply map_get_insert_same. apply gkey_eqb_spec.
  - apply map_get_insert_other; [apply gkey_eqb_spec|]. intro Heq.
    apply gkey_eqb_spec in Heq. congruence.
Qed.

Lemma get_goto_add_gotos s l : NoDup (map fst l) -> forall tb s' n,
  get_goto (add_gotos s l tb) s' n =
  if Nat.eqb s' s then
    match map_get symbol_eqb (NT n) l with Some j => Some j | None => get_goto tb s' n end
  else get_goto tb s' n.
Proof.
  unfold add_gotos. induction l as [|[X j] l IH]; simpl; intros Hnd tb s' n.
  - destruct (Nat.eqb s' s); auto.
  - inversion Hnd; subst. rewrite IH by auto. destruct X as [m|t]; simpl.
    + rewrite get_goto_insert. unfold gkey_eqb; simpl.
      destruct (Nat.eqb_spec s' s); simpl; auto. subst.
      destruct (Nat.eqb_spec n m); simpl; auto. subst.
      destruct (map_get symbol_eqb (NT m) l) eqn:E; auto.
      exfalso. apply H1. apply map_get_In in E; [|apply symbol_eqb_spec].
      change (NT m) with (fst (NT m, n)). apply in_map; auto.
    + auto.
Qed.

(** One item. *)
Lemma wants_shift_fun st it la n it' n' :
  wants_shift st it la n -> wants_shift st it' la n' -> n = n'.
Proof. intros (t & -> & _ & H) (t' & H1 & _ & H2). inversion H1; subst. congruence. Qed.

Section OneState.
Variables (s : nat) (st : lr1_state).

(** Rule 2.a *)
Lemma rule_a_spec l it tb (Hin : act_inv s st l tb) :
  exists tb1,
  match next_terminal g it with
  | Some t => match map_get symbol_eqb (T t) (st_goto st) with
              | Some next => add_shift tb s t next
              | None => Ok tb
              end
  | None => Ok tb
  end = Ok tb1 /\
  tb_goto tb1 = tb_goto tb /\ tb_n_states tb1 = tb_n_states tb /\
  (forall s' la, s' <> s -> get_action tb1 s' la = get_action tb s' la) /\
  (forall la n, wants_shift st it la n -> get_action tb1 s la = Some (Shift n)) /\
  (forall la, (forall n, ~ wants_shift st it la n) -> get_action tb1 s la = get_action tb s la).
Proof.
  destruct (next_terminal g it) as [t|] eqn:Et.
  - apply next_symbol_t in Et.
    destruct (map_get symbol_eqb (T t) (st_goto st)) as [nx|] eqn:En.
    + assert (Hadd : add_shift tb s t nx = Ok (insert_action tb s (Some t) (Shift nx))).
      { unfold add_shift. destruct (get_action tb s (Some t)) as [[n'|nt p act|]|] eqn:Ea; auto.
        - destruct (tv_inv _ _ _ _ Hin _ _ Ea) as (it' & _ & (t' & H1 & H2 & H3)).
          inversion H1; subst t'. rewrite En in H3; inversion H3; subst. rewrite Nat.eqb_refl; auto.
        - destruct (tv_inv _ _ _ _ Hin _ _ Ea) as (it' & _ & (_ & _ & _ & H)). discriminate. }
      exists (insert_action tb s (Some t) (Shift nx)). split; auto. split; auto. split; auto. split; [|split].
      * intros s' la Hs. rewrite get_action_insert, akey_other; auto.
      * intros la n (t' & -> & H1 & H2). rewrite Et in H1; inversion H1; subst t'.
        rewrite get_action_insert, akey_same. simpl. rewrite Nat.eqb_refl. congruence.
      * intros la Hno. rewrite get_action_insert, akey_same. destruct (opt_nat_eqb la (Some t)) eqn:E; auto.
        apply opt_nat_eqb_spec in E. subst. exfalso. apply (Hno nx). exists t; auto.
    + exists tb. repeat split; auto. intros la n (t' & -> & H1 & H2). congruence.
  - exists tb. repeat split; auto. intros la n (t' & -> & H1 & H2).
    apply next_symbol_t in H1. congruence.
Qed.

Lemma next_not_complete it X : next_symbol g it = Some X -> is_complete g it = false.
Proof.
  unfold next_symbol, is_complete. intro H. apply Nat.eqb_neq.
  assert (it_cursor it < List.length (item_rhs g it)) by (apply nth_error_Some; congruence). lia.
Qed.

(** The items we process are in range; entry points have one production. *)
Definition item_ok (it : item) : Prop :=
  exists N pr, get_non_terminal g (it_nt it) = Some N /\
    get_production g (it_nt it) (it_prod it) = Some pr /\
    (nt_public N = true -> List.length (nt_productions N) = 1).

Definition no_clash (l : list item) (it : item) : Prop :=
  forall la b, wants_reduce it la -> In b l -> ~ wants st b la.

Hypothesis Hgoto_nodup : NoDup (map fst (st_goto st)).

Record state_inv (l : list item) (tb : lr_table A) : Prop := {
  sv_act : act_inv s st l tb;
  sv_goto : forall n, get_goto tb s n = match l with
                                        | [] => None
                                        | _ => map_get symbol_eqb (NT n) (st_goto st)
                                        end
}.

Lemma act_inv_free l tb la : act_inv s st l tb ->
  get_action tb s la = None <-> (forall b, In b l -> ~ wants st b la).
Proof.
  intro Hin. split.
  - intros Hn b Hb [(n & H)|[H|H]].
    + rewrite (tv_shift _ _ _ _ Hin _ _ _ Hb H) in Hn. discriminate.
    + destruct (tv_reduce _ _ _ _ Hin _ _ Hb H) as [(pr & _ & H1)|[(c & n & Hc & H1)|(c & Hc & H1)]].
      * congruence.
      * rewrite (tv_shift _ _ _ _ Hin _ _ _ Hc H1) in Hn. discriminate.
      * rewrite (tv_accept _ _ _ _ Hin _ _ Hc H1) in Hn. discriminate.
    + rewrite (tv_accept _ _ _ _ Hin _ _ Hb H) in Hn. discriminate.
  - intro Hno. destruct (get_action tb s la) as [a|] eqn:Ea; auto. exfalso.
    pose proof (tv_inv _ _ _ _ Hin _ _ Ea) as H. destruct a as [n|nt p act|].
    + destruct H as (it & Hit & H). apply (Hno it Hit). left; eauto.
    + destruct H as (it & pr & Hit & H & _). apply (Hno it Hit). right; left; auto.
    + destruct H as (it & Hit & H). apply (Hno it Hit). right; right; auto.
Qed.

Lemma table_item_spec l it tb : item_ok it -> state_inv l tb ->
  (forall tb', table_item ho g s st tb it = Ok tb' ->
     no_clash l it /\ state_inv (l ++ [it]) tb' /\ tb_n_states tb' = tb_n_states tb /\
     (forall s', s' <> s -> (forall la, get_action tb' s' la = get_action tb s' la) /\
                            (forall n, get_goto tb' s' n = get_goto tb s' n))) /\
  (no_clash l it -> exists tb', table_item ho g s st tb it = Ok tb') /\
  table_item ho g s st tb it <> OutOfFuel.
Proof.
  intros (N & pr & HN & Hpr & Hone) [Hin Hgo].
  destruct (rule_a_spec l it tb Hin) as (tb1 & Ha & Hag & Han & Hao & Has & Hak).
  unfold table_item. rewrite Ha. simpl. rewrite HN, Hpr.
  assert (Hpriv : nt_public N = false <-> is_private g (it_nt it)).
  { split; [intro; exists N; auto | intros (N' & H1 & H2); congruence]. }
  assert (Hpubl : nt_public N = true <-> is_public g (it_nt it)).
  { split; [intro; exists N; auto | intros (N' & H1 & H2); congruence]. }
  (* final step common to all cases *)
  assert (Hfin : forall tb3, act_inv s st (l ++ [it]) tb3 -> tb_goto tb3 = tb_goto tb ->
            tb_n_states tb3 = tb_n_states tb ->
            (forall s' la, s' <> s -> get_action tb3 s' la = get_action tb s' la) ->
            forall tb', Ok (add_gotos s (ho_gotos ho (st_goto st)) tb3) = Ok tb' ->
            state_inv (l ++ [it]) tb' /\ tb_n_states tb' = tb_n_states tb /\
            (forall s', s' <> s -> (forall la, get_action tb' s' la = get_action tb s' la) /\
                                   (forall n, get_goto tb' s' n = get_goto tb s' n))).
  { intros tb3 HA HG HN3 HO tb' H. inversion H; subst; clear H.
    assert (Hnd : NoDup (map fst (ho_gotos ho (st_goto st)))).
    { eapply Permutation_NoDup; [apply Permutation_map, Permutation_sym, Hho|auto]. }
    assert (Hgg : forall s' n, get_goto tb3 s' n = get_goto tb s' n).
    { intros; unfold get_goto; rewrite HG; auto. }
    split; [constructor|split].
    - destruct HA as [V1 V2 V3 V4]. constructor.
      + intros. rewrite get_action_add_gotos. eauto.
      + intros. rewrite get_action_add_gotos. eauto.
      + intros i' la Hi' Hw'. rewrite get_action_add_gotos. eauto.
      + intros la a. rewrite get_action_add_gotos. apply V4.
    - intro n. rewrite get_goto_add_gotos, Nat.eqb_refl by auto. rewrite Hgg, Hgo.
      rewrite (map_get_perm symbol_eqb symbol_eqb_spec _ _ _ Hnd (hok_gotos ho Hho (st_goto st))).
      destruct (map_get symbol_eqb (NT n) (st_goto st)) eqn:E; destruct l; auto.
    - rewrite add_gotos_n. auto.
    - intros s' Hs'. split; [intro la; rewrite get_action_add_gotos; auto|].
      intro n. rewrite get_goto_add_gotos by auto. apply Nat.eqb_neq in Hs'. rewrite Hs'. auto. }
  destruct (is_complete g it && negb (nt_public N)) eqn:Ered.
  - (* reduction *)
    apply andb_true_iff in Ered. destruct Ered as [Hc Hp]. apply negb_true_iff in Hp.
    rewrite Hp. simpl.
    assert (Hnoshift : forall la n, ~ wants_shift st it la n).
    { intros la n (t & _ & H & _). apply next_not_complete in H. congruence. }
    assert (Hnoacc : forall la, ~ wants_accept it la).
    { intros la (H & _). apply Hpubl in H. congruence. }
    assert (Hred : wants_reduce it (it_la it)) by (repeat split; auto; apply Hpriv; auto).
    assert (H1act : forall la, get_action tb1 s la = get_action tb s la) by (intro; apply Hak; auto).
    unfold add_reduce. rewrite H1act.
    destruct (get_action tb s (it_la it)) as [a|] eqn:Ea.
    + (* occupied: panic *)
      assert (Hcl : ~ no_clash l it).
      { intro Hno. assert (get_action tb s (it_la it) = None); [|congruence].
        apply (proj2 (act_inv_free l tb (it_la it) Hin)). intros b Hb. exact (Hno _ b Hred Hb). }
      assert (Hpan : exists p, match a with
                | Shift s' => Panic (PShiftReduce s (it_la it) s' (it_nt it) (it_prod it))
                | Reduce nt' p' _ => Panic (PReduceReduce s (it_la it) nt' p' (it_nt it) (it_prod it))
                | Accept => Panic (PAcceptReduce s (it_la it) (it_nt it) (it_prod it))
                end = Panic (X := lr_table A) p) by (destruct a; eauto).
      destruct Hpan as (p & ->). simpl. split; [|split].
      * intros tb' H; discriminate.
      * intro Hno; contradiction.
      * discriminate.
    + assert (Hcl : no_clash l it).
      { intros la b (_ & _ & <-) Hb. apply (proj1 (act_inv_free l tb (it_la it) Hin) Ea); auto. }
      simpl. split; [|split; [intros _; eauto|discriminate]].
      intros tb' H. split; auto.
      eapply Hfin; [| | | |exact H]; auto.
      * constructor.
        -- intros i' la n Hi' Hw'. apply in_app_iff in Hi'. destruct Hi' as [Hi'|[<-|[]]].
           ++ rewrite get_action_insert, akey_same. destruct (opt_nat_eqb la (it_la it)) eqn:E.
              ** apply opt_nat_eqb_spec in E. subst la. exfalso. apply (Hcl _ _ Hred Hi'). left; eauto.
              ** rewrite H1act. eapply tv_shift; eauto.
           ++ exfalso; eapply Hnoshift; eauto.
        -- intros i' la Hi' Hw'. apply in_app_iff in Hi'. destruct Hi' as [Hi'|[<-|[]]].
           ++ rewrite get_action_insert, akey_same. destruct (opt_nat_eqb la (it_la it)) eqn:E.
              ** apply opt_nat_eqb_spec in E. subst la. exfalso. apply (Hcl _ _ Hred Hi'). right; right; auto.
              ** rewrite H1act. eapply tv_accept; eauto.
           ++ exfalso; eapply Hnoacc; eauto.
        -- intros i' la Hi' Hw'. apply in_app_iff in Hi'. destruct Hi' as [Hi'|[<-|[]]].
           ++ rewrite get_action_insert, akey_same. destruct (opt_nat_eqb la (it_la it)) eqn:E.
              ** apply opt_nat_eqb_spec in E. subst la. exfalso. apply (Hcl _ _ Hred Hi'). right; left; auto.
              ** rewrite H1act.
                 destruct (tv_reduce _ _ _ _ Hin _ _ Hi' Hw') as [H0|[(b & n & Hb & H0)|(b & Hb & H0)]]; auto.
                 --- right; left. exists b, n. split; auto. apply in_app_iff; auto.
                 --- right; right. exists b. split; auto. apply in_app_iff; auto.
           ++ left. destruct Hw' as (_ & _ & <-). exists pr. split; auto.
              rewrite get_action_insert, akey_same.
              destruct (opt_nat_eqb (it_la it) (it_la it)) eqn:E; auto.
              assert (opt_nat_eqb (it_la it) (it_la it) = true) by (apply opt_nat_eqb_spec; auto). congruence.
        -- intros la a. rewrite get_action_insert, akey_same. destruct (opt_nat_eqb la (it_la it)) eqn:E.
           ++ apply opt_nat_eqb_spec in E. subst la. intro H0; inversion H0; subst a.
              exists it, pr. repeat split; auto; [apply in_app_iff; right; left; auto | apply Hpriv; auto].
           ++ rewrite H1act. intro H0. pose proof (tv_inv _ _ _ _ Hin _ _ H0) as H1.
              destruct a as [n|nt p act|].
              ** destruct H1 as (i' & Hi' & H1). exists i'. split; auto. apply in_app_iff; auto.
              ** destruct H1 as (i' & pr' & Hi' & H1). exists i', pr'. split; auto. apply in_app_iff; auto.
              ** destruct H1 as (i' & Hi' & H1). exists i'. split; auto. apply in_app_iff; auto.
      * intros s' la Hs'. rewrite get_action_insert, akey_other by auto. auto.
  - (* no reduction *)
    assert (Hnored : forall la, ~ wants_reduce it la).
    { intros la (H1 & H2 & _). apply Hpriv in H2. rewrite H1, H2 in Ered. discriminate. }
    assert (Hcl : no_clash l it) by (intros la b H; exfalso; eapply Hnored; eauto).
    simpl.
    destruct (nt_public N && Nat.eqb (it_cursor it) 1 && match it_la it with None => true | Some _ => false end) eqn:Eacc.
    + (* accept *)
      apply andb_true_iff in Eacc. destruct Eacc as [Eacc Hla]. apply andb_true_iff in Eacc.
      destruct Eacc as [Hp Hcur]. apply Nat.eqb_eq in Hcur.
      assert (Hla' : it_la it = None) by (destruct (it_la it); [discriminate|auto]).
      rewrite (Hone Hp). simpl.
      split; [|split; [intros _; eauto|discriminate]].
      intros tb' H. split; auto.
      assert (Hacc : wants_accept it None) by (repeat split; auto; apply Hpubl; auto).
      eapply Hfin; [| | | |exact H]; auto.
      * constructor.
        -- intros i' la n Hi' Hw'. unfold add_accept. rewrite get_action_insert, akey_same.
           destruct (opt_nat_eqb la None) eqn:E.
           { apply opt_nat_eqb_spec in E. subst la. destruct Hw' as (t & H0 & _). discriminate. }
           apply in_app_iff in Hi'. destruct Hi' as [Hi'|[<-|[]]]; [|apply Has; auto].
           destruct (get_action tb1 s la) as [a|] eqn:Ea.
           ++ assert (Hd : (exists n, wants_shift st it la n) \/ forall n, ~ wants_shift st it la n).
              { destruct la as [t|]; [|right; intros m (t & H0 & _); discriminate].
                destruct (next_symbol g it) as [[m|t']|] eqn:En;
                  try (right; intros k (t2 & _ & H0 & _); congruence).
                destruct (map_get symbol_eqb (T t') (st_goto st)) as [k|] eqn:Ek.
                - destruct (Nat.eq_dec t t') as [->|Hne]; [left; exists k, t'; auto|].
                  right; intros k' (t2 & H0 & H2 & _). congruence.
                - right; intros k' (t2 & H0 & H2 & H3). congruence. }
              destruct Hd as [(n' & Hd)|Hd].
              ** rewrite (Has _ _ Hd) in Ea. inversion Ea; subst. f_equal. f_equal.
                 eapply wants_shift_fun; eauto.
              ** rewrite Hak in Ea by auto. rewrite (tv_shift _ _ _ _ Hin _ _ _ Hi' Hw') in Ea. auto.
           ++ assert (Hd : forall n, ~ wants_shift st it la n).
              { intros n' Hd. rewrite (Has _ _ Hd) in Ea. discriminate. }
              rewrite Hak in Ea by auto. rewrite (tv_shift _ _ _ _ Hin _ _ _ Hi' Hw') in Ea. auto.
        -- intros i' la Hi' (_ & _ & _ & ->). unfold add_accept. rewrite get_action_insert, akey_same. auto.
        -- intros i' la Hi' Hw'. apply in_app_iff in Hi'. destruct Hi' as [Hi'|[<-|[]]]; [|exfalso; eapply Hnored; eauto].
           destruct la as [t|].
           ++ unfold add_accept. rewrite get_action_insert, akey_same. simpl.
              destruct (tv_reduce _ _ _ _ Hin _ _ Hi' Hw') as [(pr' & H0 & H1)|[(b & n & Hb & H0)|(b & Hb & H0)]].
              ** assert (Hd : (exists n, wants_shift st it (Some t) n) \/ get_action tb1 s (Some t) = get_action tb s (Some t)).
                 { destruct (next_symbol g it) as [[m|t']|] eqn:En.
                   - right. apply Hak. intros k (t2 & _ & H2 & _). congruence.
                   - destruct (map_get symbol_eqb (T t') (st_goto st)) as [k|] eqn:Ek.
                     + destruct (Nat.eq_dec t t') as [->|Hne]; [left; exists k, t'; auto|].
                       right. apply Hak. intros k' (t2 & H2 & H3 & _). congruence.
                     + right. apply Hak. intros k' (t2 & H2 & H3 & H4). congruence.
                   - right. apply Hak. intros k (t2 & _ & H2 & _). congruence. }
                 destruct Hd as [(n & Hd)|Hd].
                 --- right; left. exists it, n. split; auto. apply in_app_iff; right; left; auto.
                 --- left. exists pr'. split; auto. congruence.
              ** right; left. exists b, n. split; auto. apply in_app_iff; auto.
              ** right; right. exists b. split; auto. apply in_app_iff; auto.
           ++ right; right. exists it. split; auto. apply in_app_iff; right; left; auto.
        -- intros la a. unfold add_accept. rewrite get_action_insert, akey_same.
           destruct (opt_nat_eqb la None) eqn:E.
           ++ apply opt_nat_eqb_spec in E; subst la. intro H0; inversion H0; subst a.
              exists it. split; auto. apply in_app_iff; right; left; auto.
           ++ intro H0.
              assert (Hd : (exists n, wants_shift st it la n) \/ get_action tb1 s la = get_action tb s la).
              { destruct la as [t|]; [|discriminate].
                destruct (next_symbol g it) as [[m|t']|] eqn:En.
                - right. apply Hak. intros k (t2 & _ & H2 & _). congruence.
                - destruct (map_get symbol_eqb (T t') (st_goto st)) as [k|] eqn:Ek.
                  + destruct (Nat.eq_dec t t') as [->|Hne]; [left; exists k, t'; auto|].
                    right. apply Hak. intros k' (t2 & H2 & H3 & _). congruence.
                  + right. apply Hak. intros k' (t2 & H2 & H3 & H4). congruence.
                - right. apply Hak. intros k (t2 & _ & H2 & _). congruence. }
              destruct Hd as [(n & Hd)|Hd].
              ** rewrite (Has _ _ Hd) in H0. inversion H0; subst a. exists it. split; auto.
                 apply in_app_iff; right; left; auto.
              ** rewrite Hd in H0. pose proof (tv_inv _ _ _ _ Hin _ _ H0) as H1.
                 destruct a as [n|nt p act|].
                 --- destruct H1 as (i' & Hi' & H1). exists i'. split; auto. apply in_app_iff; auto.
                 --- destruct H1 as (i' & pr' & Hi' & H1). exists i', pr'. split; auto. apply in_app_iff; auto.
                 --- destruct H1 as (i' & Hi' & H1). exists i'. split; auto. apply in_app_iff; auto.
      * intros s' la Hs'. unfold add_accept. rewrite get_action_insert, akey_other by auto. auto.
    + (* neither *)
      simpl. split; [|split; [intros _; eauto|discriminate]].
      intros tb' H. split; auto.
      assert (Hnoacc : forall la, ~ wants_accept it la).
      { intros la (H1 & H2 & H3 & _). apply Hpubl in H1. rewrite H1, H2, H3 in Eacc. discriminate. }
      assert (Hd : forall la, (exists n, wants_shift st it la n) \/ get_action tb1 s la = get_action tb s la).
      { intros [t|]; [|right; apply Hak; intros k (t2 & H2 & _); discriminate].
        destruct (next_symbol g it) as [[m|t']|] eqn:En.
        - right. apply Hak. intros k (t2 & _ & H2 & _). congruence.
        - destruct (map_get symbol_eqb (T t') (st_goto st)) as [k|] eqn:Ek.
          + destruct (Nat.eq_dec t t') as [->|Hne]; [left; exists k, t'; auto|].
            right. apply Hak. intros k' (t2 & H2 & H3 & _). congruence.
          + right. apply Hak. intros k' (t2 & H2 & H3 & H4). congruence.
        - right. apply Hak. intros k (t2 & _ & H2 & _). congruence. }
      eapply Hfin; [| | | |exact H]; auto.
      constructor.
      * intros i' la n Hi' Hw'. apply in_app_iff in Hi'. destruct Hi' as [Hi'|[<-|[]]]; [|auto].
        destruct (Hd la) as [(n' & H0)|H0].
        -- rewrite (Has _ _ H0). f_equal. f_equal. eapply wants_shift_fun; eauto.
        -- rewrite H0. eapply tv_shift; eauto.
      * intros i' la Hi' Hw'. apply in_app_iff in Hi'. destruct Hi' as [Hi'|[<-|[]]]; [|exfalso; eapply Hnoacc; eauto].
        destruct Hw' as (W1 & W2 & W3 & ->).
        rewrite Hak; [|intros n (t & H0 & _); discriminate]. eapply tv_accept; eauto. repeat split; auto.
      * intros i' la Hi' Hw'. apply in_app_iff in Hi'. destruct Hi' as [Hi'|[<-|[]]]; [|exfalso; eapply Hnored; eauto].
        destruct (Hd la) as [(n' & H0)|H0].
        -- right; left. exists it, n'. split; auto. apply in_app_iff; right; left; auto.
        -- rewrite H0. destruct (tv_reduce _ _ _ _ Hin _ _ Hi' Hw') as [H1|[(b & n & Hb & H1)|(b & Hb & H1)]]; auto.
           ++ right; left. exists b, n. split; auto. apply in_app_iff; auto.
           ++ right; right. exists b. split; auto. apply in_app_iff; auto.
      * intros la a Ha1. destruct (Hd la) as [(n' & H0)|H0].
        -- rewrite (Has _ _ H0) in Ha1. inversion Ha1; subst a. exists it. split; auto.
           apply in_app_iff; right; left; auto.
        -- rewrite H0 in Ha1. pose proof (tv_inv _ _ _ _ Hin _ _ Ha1) as H1.
           destruct a as [n|nt p act|].
           ++ destruct H1 as (i' & Hi' & H1). exists i'. split; auto. apply in_app_iff; auto.
           ++ destruct H1 as (i' & pr' & Hi' & H1). exists i', pr'. split; auto. apply in_app_iff; auto.
           ++ destruct H1 as (i' & Hi' & H1). exists i'. split; auto. apply in_app_iff; auto.
Qed.

(** All the items of a state *)
Lemma table_items_spec rest : forall l tb, Forall item_ok rest -> state_inv l tb ->
  (forall tb', foldM (table_item ho g s st) rest tb = Ok tb' ->
     (forall l1 it l2, rest = l1 ++ it :: l2 -> no_clash (l ++ l1) it) /\
     state_inv (l ++ rest) tb' /\ tb_n_states tb' = tb_n_states tb /\
     (forall s', s' <> s -> (forall la, get_action tb' s' la = get_action tb s' la) /\
                            (forall n, get_goto tb' s' n = get_goto tb s' n))) /\
  ((forall l1 it l2, rest = l1 ++ it :: l2 -> no_clash (l ++ l1) it) ->
     exists tb', foldM (table_item ho g s st) rest tb = Ok tb') /\
  foldM (table_item ho g s st) rest tb <> OutOfFuel.
Proof.
  induction rest as [|it rest IH]; simpl; intros l tb Hok Hinv.
  - split; [|split; [eauto|discriminate]]. intros tb' H. inversion H; subst. rewrite app_nil_r.
    split; [|auto]. intros [|x l1] it l2 Heq; discriminate.
  - inversion Hok as [|? ? Hit Hrest]; subst.
    destruct (table_item_spec l it tb Hit Hinv) as (H1 & H2 & H3).
    destruct (table_item ho g s st tb it) as [tb1|p|] eqn:E; simpl.
    + destruct (H1 tb1 eq_refl) as (K1 & K2 & K3 & K4).
      destruct (IH (l ++ [it]) tb1 Hrest K2) as (L1 & L2 & L3).
      rewrite <- app_assoc in L1. simpl in L1.
      split; [|split; auto].
      * intros tb' H. destruct (L1 tb' H) as (M1 & M2 & M3 & M4). split; [|split; [|split]]; auto.
        -- intros [|x l1] it' l2 Heq; simpl in Heq; inversion Heq; subst.
           ++ rewrite app_nil_r; auto.
           ++ pose proof (M1 l1 it' l2 eq_refl) as M. rewrite <- app_assoc in M. exact M.
        -- congruence.
        -- intros s' Hs'. destruct (K4 s' Hs') as [P1 P2]. destruct (M4 s' Hs') as [Q1 Q2].
           split; intros; [rewrite Q1, P1 | rewrite Q2, P2]; auto.
      * intro Hno. apply L2. intros l1 it' l2 Heq. rewrite <- app_assoc. simpl.
        apply (Hno (it :: l1) it' l2). rewrite Heq; auto.
    + split; [intros tb' H; discriminate|]. split; [|discriminate].
      intro Hno. exfalso. destruct H2 as (tb' & H2); [|discriminate].
      pose proof (Hno [] it rest eq_refl) as M. rewrite app_nil_r in M. auto.
    + congruence.
Qed.
End OneState.

(** ** The whole table *)
Definition states_ok (states : list lr1_state) : Prop :=
  forall s st, nth_error states s = Some st ->
    NoDup (map fst (st_goto st)) /\ (forall it, In it (st_items st) -> item_ok it) /\ st_items st <> [].

(** In no state does an item ask for a lookahead on which a *later* item (in BTreeSet order) wants to
    reduce. *)
Definition no_detected_conflict (states : list lr1_state) : Prop :=
  forall s st, nth_error states s = Some st ->
    forall l1 it l2, st_items st = l1 ++ it :: l2 -> no_clash st l1 it.

Record table_ok (states : list lr1_state) (tb : lr_table A) : Prop := {
  to_n : tb_n_states tb = List.length states;
  to_act : forall s st, nth_error states s = Some st -> act_inv s st (st_items st) tb;
  to_goto : forall s st n, nth_error states s = Some st ->
            get_goto tb s n = map_get symbol_eqb (NT n) (st_goto st)
}.

(** A prefix of the states has been processed. *)
Lemma build_prefix_spec states : states_ok states ->
  forall l, (exists r, states = l ++ r) ->
    (forall tb, foldM (table_state ho g) (enumerate l) (table_new (List.length states)) = Ok tb ->
       no_detected_conflict l /\ tb_n_states tb = List.length states /\
       (forall s st, nth_error l s = Some st -> state_inv s st (st_items st) tb) /\
       (forall s, List.length l <= s -> fresh s tb)) /\
    (no_detected_conflict l -> exists tb, foldM (table_state ho g) (enumerate l) (table_new (List.length states)) = Ok tb) /\
    foldM (table_state ho g) (enumerate l) (table_new (List.length states)) <> OutOfFuel.
Proof.
  intro Hok.
  induction l as [|st l IH] using rev_ind; intros (r & Hr).
  - simpl. split; [|split; [eauto|discriminate]]. intros tb H. inversion H; subst.
    split; [|split; [auto|split]].
    + intros [|s] st Hs; discriminate.
    + intros [|s] st Hs; discriminate.
    + intros s _. split; auto.
  - rewrite enumerate_app, foldM_app.
    assert (Hst : nth_error states (List.length l) = Some st).
    { rewrite Hr, <- app_assoc, nth_error_app2, Nat.sub_diag by lia. reflexivity. }
    destruct (Hok _ _ Hst) as (Hnd & Hits & Hne).
    destruct IH as (I1 & I2 & I3); [exists ([st] ++ r); rewrite Hr, <- app_assoc; auto|].
    destruct (foldM (table_state ho g) (enumerate l) (table_new (List.length states))) as [tb1|p|] eqn:E; simpl.
    + destruct (I1 tb1 eq_refl) as (J1 & J2 & J3 & J4).
      assert (Hinv0 : state_inv (List.length l) st [] tb1).
      { destruct (J4 (List.length l) (le_n _)) as [F1 F2]. constructor.
        - constructor; [intros ? ? ? [] | intros ? ? [] | intros ? ? [] |].
          intros la a Ha. rewrite F1 in Ha. discriminate.
        - auto. }
      destruct (table_items_spec (List.length l) st Hnd (st_items st) [] tb1) as (T1 & T2 & T3); auto.
      { apply Forall_forall; auto. }
      unfold table_state. simpl.
      destruct (foldM (table_item ho g (List.length l) st) (st_items st) tb1) as [tb2|p|] eqn:E2; simpl.
      * split; [|split; [eauto|discriminate]]. intros tb H. inversion H; subst; clear H.
        destruct (T1 tb eq_refl) as (U1 & U2 & U3 & U4). simpl in U1, U2.
        split; [|split; [congruence|split]].
        -- intros s st' Hs. destruct (Nat.lt_ge_cases s (List.length l)) as [Hlt|Hge].
           ++ rewrite nth_error_app1 in Hs by auto. eauto.
           ++ rewrite nth_error_app2 in Hs by auto.
              destruct (s - List.length l) as [|k]; simpl in Hs; [|destruct k; discriminate].
              inversion Hs; subst st'. auto.
        -- intros s st' Hs. destruct (Nat.lt_ge_cases s (List.length l)) as [Hlt|Hge].
           ++ rewrite nth_error_app1 in Hs by auto. destruct (J3 _ _ Hs) as [[V1 V2 V3 V4] V5].
              destruct (U4 s ltac:(lia)) as [W1 W2].
              constructor; [constructor|].
              ** intros; rewrite W1; eauto.
              ** intros; rewrite W1; eauto.
              ** intros it la Hit Hw. rewrite W1. eauto.
              ** intros la a. rewrite W1. apply V4.
              ** intro n. rewrite W2. auto.
           ++ rewrite nth_error_app2 in Hs by auto.
              destruct (s - List.length l) as [|k] eqn:Ek; simpl in Hs; [|destruct k; discriminate].
              inversion Hs; subst st'. replace s with (List.length l) by lia. auto.
        -- intros s Hs. rewrite app_length in Hs. simpl in Hs.
           destruct (U4 s ltac:(lia)) as [W1 W2]. destruct (J4 s ltac:(lia)) as [F1 F2].
           split; intros; [rewrite W1 | rewrite W2]; auto.
      * split; [intros tb H; discriminate|]. split; [|discriminate].
        intro Hno. exfalso. destruct T2 as (tb' & T2); [|discriminate]. simpl.
        apply (Hno (List.length l) st). rewrite nth_error_app2, Nat.sub_diag by lia. auto.
      * congruence.
    + split; [intros tb H; discriminate|]. split; [|discriminate].
      intro Hno. exfalso. destruct I2 as (tb' & I2); [|discriminate].
      intros s st' Hs. apply (Hno s st'). rewrite nth_error_app1; auto. apply nth_error_Some; congruence.
    + congruence.
Qed.

Theorem build_lr1_table_spec states : states_ok states ->
  (forall tb, build_lr1_table ho g states = Ok tb -> no_detected_conflict states /\ table_ok states tb) /\
  (no_detected_conflict states -> exists tb, build_lr1_table ho g states = Ok tb) /\
  build_lr1_table ho g states <> OutOfFuel.
Proof.
  intro Hok. unfold build_lr1_table.
  destruct (build_prefix_spec states Hok states) as (H1 & H2 & H3); [exists []; rewrite app_nil_r; auto|].
  split; [|split; auto]. intros tb H. destruct (H1 tb H) as (K1 & K2 & K3 & K4). split; auto.
  constructor; auto.
  - intros s st Hs. apply (K3 s st Hs).
  - intros s st n Hs. destruct (Hok _ _ Hs) as (_ & _ & Hne).
    rewrite (sv_goto _ _ _ _ (K3 s st Hs)). destruct (st_items st); [congruence|auto].
Qed.
End Table.
