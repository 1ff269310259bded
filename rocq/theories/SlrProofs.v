(** * SlrProofs: the SLR(1) table of src/lr0.rs *)
From Verif Require Export Lr0Proofs FollowProofs TableProofs.

(** ** FOLLOW sets are sets *)
Section NoDups.
Context {A : Type}.
Definition nd (tbl : follow_table) : Prop := forall n, NoDup (fo_terminals (get_follow tbl n)).
Lemma nd_update tbl n f : (forall fs, NoDup (fo_terminals fs) -> NoDup (fo_terminals (f fs))) -> nd tbl -> nd (update_nth n f tbl).
Proof.
  intros Hf H m. unfold get_follow. rewrite nth_update_nth. destruct (_ && _); [apply Hf|]; exact (H m).
Qed.
Lemma nd_add tbl n t : nd tbl -> nd (fst (add_follow tbl n t)).
Proof. apply nd_update. intros fs H. cbn. apply set_add_NoDup; auto. apply Nat.eqb_eq. Qed.
Lemma nd_end tbl n : nd tbl -> nd (fst (set_end tbl n)).
Proof. apply nd_update. intros fs H. exact H. Qed.
Lemma nd_add_all n ts : forall st, nd (fst st) -> nd (fst (follow_add_all n ts st)).
Proof.
  induction ts as [|t ts IH]; intros [tbl u] H; [exact H|]. cbn [follow_add_all]. pose proof (nd_add tbl n t H) as H1. destruct (add_follow tbl n t) as [tbl' b].
  apply IH. exact H1.
Qed.
Lemma nd_from ho m n st : nd (fst st) -> nd (fst (follow_from ho m n st)).
Proof.
  destruct st as [tbl u]. intro H. unfold follow_from. destruct (fo_end (get_follow tbl m)).
  - pose proof (nd_end tbl n H) as H1. destruct (set_end tbl n) as [tbl' b]. apply nd_add_all. exact H1.
  - apply nd_add_all. exact H.
Qed.
Lemma nd_symbols ho first m n syms : forall b st, nd (fst st) -> nd (fst (follow_symbols ho first m n b syms st)).
Proof.
  induction syms as [|X rest IH]; intros b st H; cbn [follow_symbols].
  - destruct b; [apply nd_from|]; exact H.
  - destruct b; [|apply IH; exact H]. destruct X as [y|t].
    + pose proof (nd_add_all n (ho_terms ho (fs_terminals (get_first first y))) st H) as H1. destruct (fs_empty _); apply IH; exact H1.
    + destruct st as [tbl u]. pose proof (nd_add tbl n t H) as H1. destruct (add_follow tbl n t) as [tbl' c]. apply IH. exact H1.
Qed.
Lemma nd_fold {X} (f : follow_table * bool -> X -> follow_table * bool) l : (forall st x, nd (fst st) -> nd (fst (f st x))) ->
  forall st, nd (fst st) -> nd (fst (fold_left f l st)).
Proof. intro Hf. induction l as [|x l IH]; cbn; auto. Qed.
Lemma nd_loop ho first (g : grammar A) fuel : forall tbl tbl', nd tbl -> follow_loop ho first fuel g tbl = Ok tbl' -> nd tbl'.
Proof.
  induction fuel as [|fuel IH]; intros tbl tbl' H E; cbn in E; [discriminate|].
  assert (H1 : nd (fst (follow_pass ho first g tbl))).
  { unfold follow_pass. apply nd_fold; [|exact H]. intros st [n N] Hst. apply nd_fold; [|exact Hst]. intros st' [m pr] Hst'. apply nd_symbols. exact Hst'. }
  destruct (follow_pass ho first g tbl) as [t u]. cbn [fst] in H1. destruct u; [eauto|]. injection E as <-. exact H1.
Qed.
Lemma follow_nodup ho first fuel (g : grammar A) tbl : generate_follow_table ho first fuel g = Ok tbl -> nd tbl.
Proof.
  assert (H0 : forall k, nd (follow_table_new k)).
  { intros k n. unfold get_follow, follow_table_new. rewrite nth_repeat. constructor. }
  unfold generate_follow_table. destruct (Nat.eqb _ 0); [intro E; injection E as <-; apply H0|]. apply nd_loop. apply nd_end, H0.
Qed.
End NoDups.

(** ** Requests *)
Section Requests.
Context {A : Type}.
Inductive request : Type := QShift (t n : nat) | QReduce (la : option nat) (nt p : nat) (a : A) | QAccept.
Definition r_at (r : request) : option nat := match r with QShift t _ => Some t | QReduce la _ _ _ => la | QAccept => None end.
Definition r_act (r : request) : lr_action A := match r with QShift _ n => Shift n | QReduce _ nt p a => Reduce nt p a | QAccept => Accept end.
Variable s : nat.
Definition r_apply (tb : lr_table A) (r : request) : res (lr_table A) :=
  match r with QShift t n => add_shift tb s t n | QReduce la nt p a => add_reduce tb s la nt p a | QAccept => Ok (add_accept tb s) end.
Definition latest (la : option nat) (l : list request) (acc : option (lr_action A)) : option (lr_action A) :=
  fold_left (fun acc r => if opt_nat_eqb la (r_at r) then Some (r_act r) else acc) l acc.

Lemma apply_insert tb r tb' : r_apply tb r = Ok tb' -> tb' = insert_action tb s (r_at r) (r_act r).
Proof.
  destruct r as [t n|la nt p a|]; cbn.
  - unfold add_shift. destruct (get_action tb s (Some t)) as [[n'|nt p act|]|]; try destruct (Nat.eqb _ _); intro E; try discriminate; injection E as <-; reflexivity.
  - unfold add_reduce. destruct (get_action tb s la) as [[n'|nt' p' act|]|]; intro E; try discriminate; injection E as <-; reflexivity.
  - intro E; injection E as <-; reflexivity.
Qed.
Lemma opt_refl la : opt_nat_eqb la la = true.
Proof. apply opt_nat_eqb_spec. reflexivity. Qed.
Lemma requests_value l : forall tb tb', foldM r_apply l tb = Ok tb' ->
  (forall la, get_action tb' s la = latest la l (get_action tb s la)) /\
  (forall s' la, s' <> s -> get_action tb' s' la = get_action tb s' la) /\ tb_goto tb' = tb_goto tb /\ tb_n_states tb' = tb_n_states tb.
Proof.
  induction l as [|r l IH]; intros tb tb' H; cbn [foldM] in H.
  - injection H as <-. split; [|split; [|split]]; reflexivity.
  - apply bind_Ok in H. destruct H as (tb1 & H1 & H2). apply apply_insert in H1. subst tb1. destruct (IH _ _ H2) as (I1 & I2 & I3 & I4).
    split; [|split; [|split; [rewrite I3|rewrite I4]; reflexivity]].
    + intro la. rewrite I1. cbn [latest fold_left]. rewrite get_action_insert, akey_same. reflexivity.
    + intros s' la Hs. rewrite I2 by auto. rewrite get_action_insert, akey_other by auto. reflexivity.
Qed.

(** No reduction comes after a request at the same place. *)
Definition free (l : list request) : Prop := forall pre la nt p a post, l = pre ++ QReduce la nt p a :: post -> forall r, In r pre -> r_at r <> la.
Definition agreeing (l : list request) : Prop := forall t n n', In (QShift t n) l -> In (QShift t n') l -> n = n'.

Lemma latest_app la l1 l2 acc : latest la (l1 ++ l2) acc = latest la l2 (latest la l1 acc).
Proof. apply fold_left_app. Qed.
Lemma latest_none la l acc : (forall r, In r l -> r_at r <> la) -> latest la l acc = acc.
Proof.
  revert acc. induction l as [|r l IH]; intros acc H; [reflexivity|]. cbn. destruct (opt_nat_eqb la (r_at r)) eqn:E.
  - apply opt_nat_eqb_spec in E. exfalso. apply (H r (or_introl eq_refl)). auto.
  - apply IH. intros r' Hr'. apply H. right. auto.
Qed.
Lemma latest_some la l acc r : In r l -> r_at r = la -> exists r', In r' l /\ r_at r' = la /\ latest la l acc = Some (r_act r').
Proof.
  revert acc r. induction l as [|r0 l IH]; intros acc r Hr Ha; [destruct Hr|]. cbn.
  destruct (set_mem opt_nat_eqb la (map r_at l)) eqn:E.
  - apply (set_mem_In opt_nat_eqb opt_nat_eqb_spec) in E. apply in_map_iff in E. destruct E as (r1 & E1 & E2).
    destruct (IH (if opt_nat_eqb la (r_at r0) then Some (r_act r0) else acc) r1 E2 E1) as (r' & H1 & H2 & H3). exists r'. auto.
  - apply (set_mem_not_In opt_nat_eqb opt_nat_eqb_spec) in E. destruct Hr as [->|Hr]; [|exfalso; apply E; rewrite <- Ha; apply in_map; auto].
    exists r. split; auto. split; auto. rewrite Ha, opt_refl. apply latest_none. intros r' Hr' Hc. apply E. rewrite <- Hc. apply in_map. auto.
Qed.
(** A shift or accept stays. *)
Lemma latest_keeps la l acc r : free l -> In r l -> r_at r = la -> (match r with QReduce _ _ _ _ => False | _ => True end) ->
  exists r', In r' l /\ r_at r' = la /\ (match r' with QReduce _ _ _ _ => False | _ => True end) /\ latest la l acc = Some (r_act r').
Proof.
  intros Hf Hr Ha Hk. apply in_split in Hr. destruct Hr as (pre & post & ->). rewrite latest_app. cbn.
  assert (Hpost : forall r', In r' post -> r_at r' = la -> match r' with QReduce _ _ _ _ => False | _ => True end).
  { intros r' Hr' Ha'. destruct r' as [t n|la' nt p a|]; auto. cbn in Ha'. subst la'. apply in_split in Hr'. destruct Hr' as (p1 & p2 & ->).
    apply (Hf (pre ++ r :: p1) la nt p a p2) with (r := r); [rewrite <- app_assoc; reflexivity|apply in_app_iff; right; left; auto|auto]. }
  rewrite Ha, opt_refl. fold (latest la post (Some (r_act r))).
  destruct (set_mem opt_nat_eqb la (map r_at post)) eqn:E.
  - apply (set_mem_In opt_nat_eqb opt_nat_eqb_spec) in E. apply in_map_iff in E. destruct E as (r1 & E1 & E2).
    destruct (latest_some la post (Some (r_act r)) r1 E2 E1) as (r' & H1 & H2 & H3). exists r'. split; [apply in_app_iff; right; right; auto|]. split; auto. split; [apply (Hpost _ H1 H2)|exact H3].
  - apply (set_mem_not_In opt_nat_eqb opt_nat_eqb_spec) in E. exists r. split; [apply in_app_iff; right; left; auto|]. split; auto. split; auto.
    apply latest_none. intros r' Hr' Hc. apply E. rewrite <- Hc. apply in_map. auto.
Qed.
(** Two reductions at one place are one. *)
Lemma free_one l la nt p a nt' p' a' : free l -> In (QReduce la nt p a) l -> In (QReduce la nt' p' a') l -> QReduce la nt p a = QReduce la nt' p' a'.
Proof.
  intros Hf H1 H2. apply in_split in H1. destruct H1 as (pre & post & ->). apply in_app_iff in H2. destruct H2 as [H2|[H2|H2]]; auto.
  - exfalso. apply (Hf pre la nt p a post eq_refl _ H2). reflexivity.
  - exfalso. apply in_split in H2. destruct H2 as (p1 & p2 & ->).
    apply (Hf (pre ++ QReduce la nt p a :: p1) la nt' p' a' p2) with (r := QReduce la nt p a); [rewrite <- app_assoc; reflexivity|apply in_app_iff; right; left; auto|reflexivity].
Qed.

(** The value in the table after requests to an empty row. *)
Lemma value_spec l (Hf : free l) (Hg : agreeing l) la act : latest la l None = Some act <->
  match act with
  | Shift n => exists t, la = Some t /\ In (QShift t n) l
  | Accept => la = None /\ In QAccept l
  | Reduce nt p a => In (QReduce la nt p a) l /\ forall r, In r l -> r_at r = la -> match r with QReduce _ _ _ _ => True | _ => False end
  end.
Proof.
  assert (Hin : latest la l None = Some act -> exists r, In r l /\ r_at r = la /\ act = r_act r).
  { intro H. destruct (set_mem opt_nat_eqb la (map r_at l)) eqn:E.
    - apply (set_mem_In opt_nat_eqb opt_nat_eqb_spec) in E. apply in_map_iff in E. destruct E as (r1 & E1 & E2).
      destruct (latest_some la l None r1 E2 E1) as (r' & H1 & H2 & H3). exists r'. split; auto. split; auto. congruence.
    - apply (set_mem_not_In opt_nat_eqb opt_nat_eqb_spec) in E. rewrite latest_none in H; [discriminate|]. intros r Hr Hc. apply E. rewrite <- Hc. apply in_map. auto. }
  split.
  - intro H. destruct (Hin H) as (r & Hr & Ha & Hact). destruct r as [t n|la' nt p a|]; cbn in Hact, Ha; subst act.
    + exists t. auto.
    + subst la'. split; auto. intros r' Hr' Ha'. destruct r' as [t n|la' nt' p' a'|] eqn:E; auto.
      * destruct (latest_keeps la l None r' Hf ltac:(subst r'; auto) ltac:(subst r'; auto) ltac:(subst r'; exact Logic.I)) as (r2 & H1 & H2 & H3 & H4).
        rewrite H in H4. destruct r2; [discriminate|destruct H3|discriminate].
      * destruct (latest_keeps la l None r' Hf ltac:(subst r'; auto) ltac:(subst r'; auto) ltac:(subst r'; exact Logic.I)) as (r2 & H1 & H2 & H3 & H4).
        rewrite H in H4. destruct r2; [discriminate|destruct H3|discriminate].
    + auto.
  - intro H. destruct act as [n|nt p a|].
    + destruct H as (t & -> & Hr). destruct (latest_keeps (Some t) l None (QShift t n) Hf Hr eq_refl Logic.I) as (r2 & H1 & H2 & H3 & H4). rewrite H4.
      destruct r2 as [t' n'|?|]; [|destruct H3|discriminate]. cbn in H2. injection H2 as ->. rewrite (Hg _ _ _ H1 Hr). reflexivity.
    + destruct H as (Hr & Hall). destruct (latest_some la l None _ Hr eq_refl) as (r2 & H1 & H2 & H3). rewrite H3. specialize (Hall _ H1 H2).
      destruct r2 as [?|la' nt' p' a'|]; try contradiction. cbn in H2. subst la'. pose proof (free_one _ _ _ _ _ _ _ _ Hf Hr H1) as E. injection E as <- <- <-. reflexivity.
    + destruct H as (-> & Hr). destruct (latest_keeps None l None QAccept Hf Hr eq_refl Logic.I) as (r2 & H1 & H2 & H3 & H4). rewrite H4.
      destruct r2 as [?|?|]; [discriminate|destruct H3|reflexivity].
Qed.

(** The builder succeeds iff there is no such clash. *)
Lemma requests_ok l (Hg : agreeing l) : forall tb, (forall la, get_action tb s la = None) ->
  (exists tb', foldM r_apply l tb = Ok tb') <-> free l.
Proof.
  induction l as [|r l IH] using rev_ind; intros tb H0.
  - split; [|intros _; exists tb; reflexivity]. intros _ pre la nt p a post E. destruct pre; discriminate.
  - assert (Hg' : agreeing l) by (intros t n n' H1 H2; apply (Hg t n n'); apply in_app_iff; auto).
    specialize (IH Hg' tb H0). rewrite foldM_app. destruct (foldM r_apply l tb) as [tb1|pn|] eqn:E.
    + destruct (requests_value _ _ _ E) as (V & _). assert (Hf : free l) by (apply IH; eauto). cbn [bind foldM].
      assert (Hlast : (exists tb', r_apply tb1 r = Ok tb') <-> (match r with QReduce la _ _ _ => forall r', In r' l -> r_at r' <> la | _ => True end)).
      { destruct r as [t n|la nt p a|]; cbn [r_apply].
        - split; auto. intros _. unfold add_shift. rewrite V, H0. destruct (latest (Some t) l None) as [[n'|nt p act|]|] eqn:Ev; eauto.
          + apply (value_spec l Hf Hg') in Ev. destruct Ev as (t' & Et & Hr). injection Et as <-.
            rewrite (Hg t n' n); [rewrite Nat.eqb_refl; eauto|apply in_app_iff; auto|apply in_app_iff; right; left; auto].
          + apply (value_spec l Hf Hg') in Ev. destruct Ev as (Ev & _). discriminate.
        - unfold add_reduce. rewrite V, H0. split.
          + intros (tb' & H) r' Hr' Ha. destruct (latest_some la l None r' Hr' Ha) as (r2 & _ & _ & H3). rewrite H3 in H. destruct r2; discriminate.
          + intro H. rewrite latest_none by auto. eauto.
        - split; auto. intros _. eauto. }
      split.
      * intros (tb' & H). apply bind_Ok in H. destruct H as (tb2 & H & _). assert (Hx : exists tb', r_apply tb1 r = Ok tb') by eauto. apply Hlast in Hx.
        intros pre la nt p a post El r' Hr'. destruct post as [|r2 post] using rev_ind.
        -- apply app_inj_tail in El. destruct El as (<- & ->). auto.
        -- rewrite app_comm_cons, app_assoc in El. apply app_inj_tail in El. destruct El as (El & _). exact (Hf _ _ _ _ _ _ El r' Hr').
      * intro H. assert (Hx : match r with QReduce la _ _ _ => forall r', In r' l -> r_at r' <> la | _ => True end).
        { destruct r as [t n|la nt p a|]; auto. intros r' Hr'. exact (H l la nt p a [] eq_refl r' Hr'). }
        apply Hlast in Hx. destruct Hx as (tb' & ->). cbn. eauto.
    + split; [intros (tb' & H); discriminate|]. intro H. exfalso. assert (Hf : free l); [|apply IH in Hf; destruct Hf; discriminate].
      intros pre la nt p a post El. apply (H pre la nt p a (post ++ [r])). rewrite El, <- app_assoc. reflexivity.
    + split; [intros (tb' & H); discriminate|]. intro H. exfalso. assert (Hf : free l); [|apply IH in Hf; destruct Hf; discriminate].
      intros pre la nt p a post El. apply (H pre la nt p a (post ++ [r])). rewrite El, <- app_assoc. reflexivity.
Qed.
End Requests.
Arguments request A : clear implicits.

(** ** The requests of an item and of a state *)
Lemma foldM_map {X Y B} (h : X -> Y) (f : B -> Y -> res B) l : forall b, foldM f (map h l) b = foldM (fun b x => f b (h x)) l b.
Proof. induction l as [|x l IH]; intro b; cbn; [reflexivity|]. destruct (f b (h x)); cbn; auto. Qed.
Lemma foldM_flat {X Y B} (h : X -> list Y) (f : B -> Y -> res B) (k : B -> X -> res B) l :
  (forall b x, In x l -> k b x = foldM f (h x) b) -> forall b, foldM k l b = foldM f (flat_map h l) b.
Proof.
  induction l as [|x l IH]; intros H b; cbn; [reflexivity|]. rewrite foldM_app, (H b x (or_introl eq_refl)).
  destruct (foldM f (h x) b); cbn; auto. apply IH. intros b' x' Hx. apply H. right. auto.
Qed.

Section Slr.
Context {A : Type}.
Variables (ho : hash_order) (follow : follow_table) (g : grammar A).
Hypothesis Hho : hash_order_ok ho.
Hypothesis Hnd : nd follow.

Definition shift_reqs (st : lr1_state) (it : item) : list (request A) :=
  match next_symbol g it with
  | Some (T t) => match map_get symbol_eqb (T t) (st_goto st) with Some j => [QShift t j] | None => [] end
  | _ => []
  end.
Definition reduce_reqs (it : item) : list (request A) :=
  match next_symbol g it with
  | None => match get_production g (it_nt it) (it_prod it) with
            | Some p => map (fun t => QReduce (Some t) (it_nt it) (it_prod it) (p_action p)) (ho_terms ho (fo_terminals (get_follow follow (it_nt it)))) ++
                        (if fo_end (get_follow follow (it_nt it)) then [QReduce None (it_nt it) (it_prod it) (p_action p)] else [])
            | None => []
            end
  | Some _ => []
  end.
Definition accept_reqs (it : item) : list (request A) := if Nat.eqb (it_nt it) 0 && Nat.eqb (it_prod it) 0 && Nat.eqb (it_cursor it) 1 then [QAccept] else [].
Definition item_reqs (st : lr1_state) (it : item) : list (request A) := shift_reqs st it ++ reduce_reqs it ++ accept_reqs it.
Definition row (st : lr1_state) : list (request A) := flat_map (item_reqs st) (st_items st).

Definition has_prod (it : item) : Prop := exists pr, get_production g (it_nt it) (it_prod it) = Some pr.

Lemma slr_item_reqs s st tb it : has_prod it -> slr_item ho follow g s st tb it = foldM (r_apply s) (item_reqs st it) tb.
Proof.
  intros (pr & Hp). unfold slr_item, item_reqs, shift_reqs, reduce_reqs, accept_reqs, slr_reductions. rewrite Hp.
  set (acc := Nat.eqb (it_nt it) 0 && Nat.eqb (it_prod it) 0 && Nat.eqb (it_cursor it) 1).
  assert (Hacc : forall tb : lr_table A, Ok (if acc then add_accept tb s else tb) = foldM (r_apply s) (if acc then [QAccept] else []) tb) by (intro tb0; destruct acc; reflexivity).
  destruct (next_symbol g it) as [[n|t]|].
  - apply Hacc.
  - destruct (map_get symbol_eqb (T t) (st_goto st)) as [j|]; [|apply Hacc]. cbn. destruct (add_shift tb s t j) as [tb1|p|]; cbn; [apply Hacc|reflexivity|reflexivity].
  - cbn [bind]. rewrite app_nil_l, !foldM_app, foldM_map. cbn [r_apply].
    match goal with |- bind (bind ?F _) _ = _ => destruct F as [tb1|p|] end; cbn [bind]; [|reflexivity|reflexivity].
    destruct (fo_end (get_follow follow (it_nt it))); cbn [foldM bind r_apply].
    + destruct (add_reduce tb1 s None (it_nt it) (it_prod it) (p_action pr)) as [tb2|p|]; cbn [bind]; [apply Hacc|reflexivity|reflexivity].
    + apply Hacc.
Qed.
Lemma slr_items_row s st tb : (forall it, In it (st_items st) -> has_prod it) -> foldM (slr_item ho follow g s st) (st_items st) tb = foldM (r_apply s) (row st) tb.
Proof. intro H. unfold row. apply foldM_flat. intros b it Hi. apply slr_item_reqs; auto. Qed.

Lemma row_agreeing st : agreeing (row st).
Proof.
  assert (H : forall t n, In (QShift t n) (row st) -> map_get symbol_eqb (T t) (st_goto st) = Some n).
  { intros t n H. apply in_flat_map in H. destruct H as (it & _ & H). unfold item_reqs in H. rewrite !in_app_iff in H. destruct H as [H|[H|H]].
    - unfold shift_reqs in H. destruct (next_symbol g it) as [[m|t']|]; try destruct H. destruct (map_get symbol_eqb (T t') (st_goto st)) as [j|] eqn:E; [|destruct H].
      destruct H as [H|[]]. injection H as <- <-. exact E.
    - exfalso. unfold reduce_reqs in H. destruct (next_symbol g it); [destruct H|]. destruct (get_production _ _ _); [|destruct H]. apply in_app_iff in H. destruct H as [H|H].
      + apply in_map_iff in H. destruct H as (? & H & _). discriminate.
      + destruct (fo_end _); [|destruct H]. destruct H as [H|[]]. discriminate.
    - exfalso. unfold accept_reqs in H. destruct (_ && _); [|destruct H]. destruct H as [H|[]]. discriminate. }
  intros t n n' H1 H2. apply H in H1, H2. congruence.
Qed.

Variable states : list lr1_state.
Hypothesis Hprods : forall s st it, nth_error states s = Some st -> In it (st_items st) -> has_prod it.
Hypothesis Hgotos : forall s st, nth_error states s = Some st -> NoDup (map fst (st_goto st)).

Lemma slr_prefix l : (exists r, states = l ++ r) -> forall N,
  (forall tb, foldM (slr_state ho follow g) (enumerate l) (table_new N) = Ok tb ->
     (forall s st, nth_error l s = Some st -> free (row st) /\ (forall la, get_action tb s la = latest la (row st) None) /\ forall n, get_goto tb s n = map_get symbol_eqb (NT n) (st_goto st)) /\
     (forall s, List.length l <= s -> (forall la, get_action tb s la = None) /\ forall n, get_goto tb s n = None) /\ tb_n_states tb = N) /\
  ((forall st, In st l -> free (row st)) -> exists tb, foldM (slr_state ho follow g) (enumerate l) (table_new N) = Ok tb).
Proof.
  induction l as [|st l IH] using rev_ind; intros Hr N.
  - split; [|intros _; eexists; reflexivity]. intros tb H. injection H as <-. split; [intros [|s] st H; discriminate|]. split; [intros s _; split; reflexivity|reflexivity].
  - destruct Hr as (r & Hr). rewrite <- app_assoc in Hr. cbn in Hr. destruct (IH (ex_intro _ (st :: r) Hr) N) as (IH1 & IH2).
    assert (Hst : nth_error states (List.length l) = Some st) by (rewrite Hr, nth_error_app2, Nat.sub_diag by lia; reflexivity).
    rewrite enumerate_app, foldM_app. split.
    + intros tb H. apply bind_Ok in H. destruct H as (tb1 & H1 & H2). destruct (IH1 tb1 H1) as (K1 & K2 & K3). cbn [foldM] in H2. apply bind_Ok in H2. destruct H2 as (tb2 & H2 & H3).
      injection H3 as ->. unfold slr_state in H2. cbn [fst snd] in H2. rewrite slr_items_row in H2 by (intros it Hi; exact (Hprods _ _ _ Hst Hi)).
      apply bind_Ok in H2. destruct H2 as (tb3 & H2 & H3). injection H3 as <-. destruct (requests_value _ _ _ _ H2) as (V1 & V2 & V3 & V4).
      destruct (K2 (List.length l) (le_n _)) as (F1 & F2). pose proof (hok_gotos ho Hho (st_goto st)) as HP. pose proof (Hgotos _ _ Hst) as Hng.
      assert (Hng' : NoDup (map fst (ho_gotos ho (st_goto st)))).
      { eapply Permutation_NoDup; [apply Permutation_map, Permutation_sym, HP|exact Hng]. }
      assert (Hgo : forall s n, get_goto tb3 s n = get_goto tb1 s n) by (intros s n; unfold get_goto; rewrite V3; reflexivity).
      split; [|split].
      * intros s st' Hs. destruct (Nat.eq_dec s (List.length l)) as [->|Hne].
        -- rewrite nth_error_app2, Nat.sub_diag in Hs by lia. injection Hs as <-. split; [|split].
           ++ apply (requests_ok (List.length l) _ (row_agreeing st) tb1 F1). eauto.
           ++ intro la. rewrite get_action_add_gotos, V1, F1. reflexivity.
           ++ intro n. rewrite get_goto_add_gotos, Nat.eqb_refl, Hgo, F2 by auto.
              rewrite (map_get_perm symbol_eqb symbol_eqb_spec _ (ho_gotos ho (st_goto st)) (st_goto st) Hng' HP). destruct (map_get symbol_eqb (NT n) (st_goto st)); reflexivity.
        -- assert (Hlt : s < List.length l). { assert (s < List.length (l ++ [st])) by (apply nth_error_Some; congruence). rewrite app_length in *. cbn in *. lia. }
           rewrite nth_error_app1 in Hs by auto. destruct (K1 _ _ Hs) as (L1 & L2 & L3). split; auto. split.
           ++ intro la. rewrite get_action_add_gotos, V2 by lia. apply L2.
           ++ intro n. rewrite get_goto_add_gotos by auto. destruct (Nat.eqb_spec s (List.length l)); [lia|]. rewrite Hgo. apply L3.
      * intros s Hs. rewrite app_length in Hs. cbn in Hs. destruct (K2 s ltac:(lia)) as (G1 & G2). split.
        -- intro la. rewrite get_action_add_gotos, V2 by lia. apply G1.
        -- intro n. rewrite get_goto_add_gotos by auto. destruct (Nat.eqb_spec s (List.length l)); [lia|]. rewrite Hgo. apply G2.
      * rewrite add_gotos_n. congruence.
    + intro H. destruct IH2 as (tb1 & E); [intros st' Hs; apply H, in_app_iff; auto|]. rewrite E. destruct (IH1 tb1 E) as (_ & K2 & _). cbn [bind foldM].
      unfold slr_state. cbn [fst snd]. rewrite slr_items_row by (intros it Hi; exact (Hprods _ _ _ Hst Hi)).
      destruct (K2 (List.length l) (le_n _)) as (F1 & _). destruct (proj2 (requests_ok (List.length l) _ (row_agreeing st) tb1 F1)) as (tb2 & E2); [apply H, in_app_iff; right; left; auto|].
      rewrite E2. cbn. eauto.
Qed.

Lemma slr_values tb : build_slr_table ho follow g states = Ok tb ->
  (forall s st, nth_error states s = Some st -> free (row st) /\ (forall la, get_action tb s la = latest la (row st) None) /\ forall n, get_goto tb s n = map_get symbol_eqb (NT n) (st_goto st)) /\
  tb_n_states tb = List.length states.
Proof.
  intro H. destruct (proj1 (slr_prefix states (ex_intro _ [] (eq_sym (app_nil_r _))) (List.length states)) tb H) as (H1 & _ & H2). auto.
Qed.
Lemma slr_builds : (exists tb, build_slr_table ho follow g states = Ok tb) <-> forall st, In st states -> free (row st).
Proof.
  split.
  - intros (tb & H) st Hst. apply In_nth_error in Hst. destruct Hst as (s & Hs). apply (slr_values tb H) in Hs. apply Hs.
  - intro H. apply (slr_prefix states (ex_intro _ [] (eq_sym (app_nil_r _))) (List.length states)). exact H.
Qed.
Lemma slr_no_fuel : build_slr_table ho follow g states <> OutOfFuel.
Proof.
  unfold build_slr_table. apply foldM_no_fuel. intros tb [s st] Hi. apply enumerate_nth_error in Hi. unfold slr_state. cbn [fst snd].
  rewrite slr_items_row by (intros it Hit; exact (Hprods _ _ _ Hi Hit)).
  assert (H : foldM (r_apply s) (row st) tb <> OutOfFuel).
  { apply foldM_no_fuel. intros tb' r _. destruct r; cbn; unfold add_shift, add_reduce; try match goal with |- context [get_action ?a ?b ?c] => destruct (get_action a b c) as [[?|? ? ?|]|] end; try destruct (Nat.eqb _ _); discriminate. }
  destruct (foldM _ _ _); cbn; congruence.
Qed.

(** ** When the requests of a state clash *)
Notation has tbl n la := (match la with Some t => In t (fo_terminals (get_follow tbl n)) | None => fo_end (get_follow tbl n) = true end).
(** The reductions by one item are at different places. *)
Lemma reduce_reqs_spec it r : In r (reduce_reqs it) <-> exists p la, next_symbol g it = None /\ get_production g (it_nt it) (it_prod it) = Some p /\ r = QReduce la (it_nt it) (it_prod it) (p_action p) /\ has follow (it_nt it) la.
Proof.
  unfold reduce_reqs. destruct (next_symbol g it) as [X|]; [split; [intros []|intros (p & la & H & _); discriminate]|].
  destruct (get_production g (it_nt it) (it_prod it)) as [p|]; [|split; [intros []|intros (p & la & _ & H & _); discriminate]].
  rewrite in_app_iff, in_map_iff. split.
  - intros [(t & <- & Ht)|H].
    + exists p, (Some t). split; [reflexivity|]. split; [reflexivity|]. split; [reflexivity|]. cbn. eapply Permutation_in; [apply hok_terms; exact Hho|exact Ht].
    + destruct (fo_end (get_follow follow (it_nt it))) eqn:E; [|destruct H]. destruct H as [<-|[]]. exists p, None. cbn. auto.
  - intros (p' & [t|] & _ & E & -> & H); injection E as <-; cbn in H.
    + left. exists t. split; auto. eapply Permutation_in; [apply Permutation_sym, hok_terms; exact Hho|exact H].
    + right. rewrite H. left. auto.
Qed.
Lemma reduce_reqs_nodup it : NoDup (map r_at (reduce_reqs it)).
Proof.
  unfold reduce_reqs. destruct (next_symbol g it) as [X|]; [constructor|]. destruct (get_production g (it_nt it) (it_prod it)) as [p|]; [|constructor].
  rewrite map_app, map_map. cbn [r_at].
  assert (H : NoDup (map Some (ho_terms ho (fo_terminals (get_follow follow (it_nt it)))))).
  { apply FinFun.Injective_map_NoDup; [intros a b E; congruence|]. eapply Permutation_NoDup; [apply Permutation_sym, hok_terms; exact Hho|apply Hnd]. }
  destruct (fo_end _); [|cbn; rewrite app_nil_r; exact H]. cbn. rewrite <- (rev_involutive (_ ++ _)). apply NoDup_rev. rewrite rev_app_distr. cbn. constructor.
  - rewrite <- in_rev, in_map_iff. intros (t & E & _). discriminate.
  - apply NoDup_rev. exact H.
Qed.

Definition is_reduce (r : request A) : Prop := match r with QReduce _ _ _ _ => True | _ => False end.
Lemma free_app (l1 l2 : list (request A)) : free (l1 ++ l2) <-> free l1 /\ free l2 /\ forall r r', In r l1 -> In r' l2 -> is_reduce r' -> r_at r <> r_at r'.
Proof.
  split.
  - intro H. split; [|split].
    + intros pre la nt p a post E. apply (H pre la nt p a (post ++ l2)). rewrite E, <- app_assoc. reflexivity.
    + intros pre la nt p a post E r Hr. apply (H (l1 ++ pre) la nt p a post); [rewrite E, app_assoc; reflexivity|apply in_app_iff; auto].
    + intros r r' Hr Hr' Hk. destruct r' as [t n|la nt p a|]; try destruct Hk. apply in_split in Hr'. destruct Hr' as (p1 & p2 & ->).
      apply (H (l1 ++ p1) la nt p a p2); [rewrite <- app_assoc; reflexivity|apply in_app_iff; auto].
  - intros (H1 & H2 & H3) pre la nt p a post E r Hr. symmetry in E. apply app_eq_app in E. destruct E as (l & [(-> & E)|(E & E')]).
    + apply in_app_iff in Hr. destruct Hr as [Hr|Hr]; [|exact (H2 _ _ _ _ _ _ E r Hr)].
      apply (H3 r (QReduce la nt p a) Hr); [rewrite E; apply in_app_iff; right; left; auto|exact Logic.I].
    + destruct l as [|r0 l]; cbn in E'.
      * rewrite app_nil_r in E. subst l1. apply (H3 r (QReduce la nt p a) Hr); [rewrite <- E'; left; auto|exact Logic.I].
      * injection E' as <- ->. exact (H1 _ _ _ _ _ _ E r Hr).
Qed.
Lemma free_nil : free (@nil (request A)).
Proof. intros pre la nt p a post E. destruct pre; discriminate. Qed.
Lemma free_nodup (l : list (request A)) : NoDup (map r_at l) -> free l.
Proof.
  intros H pre la nt p a post E r Hr Hc. rewrite E, map_app in H. cbn in H. apply NoDup_remove_2 in H. apply H. apply in_app_iff. left. rewrite <- Hc. apply in_map. exact Hr.
Qed.
Lemma free_item st it : free (item_reqs st it).
Proof.
  assert (Ha : free (accept_reqs it) /\ forall r, In r (accept_reqs it) -> ~ is_reduce r).
  { unfold accept_reqs. destruct (_ && _); (split; [apply free_nodup; cbn; repeat constructor; auto|]); intros r Hr; [destruct Hr as [<-|[]]; auto|destruct Hr]. }
  unfold item_reqs. apply free_app. split; [|split].
  - unfold shift_reqs. destruct (next_symbol g it) as [[n|t]|]; try apply free_nil. destruct (map_get _ _ _); [|apply free_nil]. apply free_nodup. cbn. repeat constructor; auto.
  - apply free_app. split; [apply free_nodup, reduce_reqs_nodup|]. split; [apply Ha|]. intros r r' _ Hr' Hk. exfalso. exact (proj2 Ha _ Hr' Hk).
  - intros r r' Hr Hr' Hk. apply in_app_iff in Hr'. destruct Hr' as [Hr'|Hr']; [|exfalso; exact (proj2 Ha _ Hr' Hk)].
    exfalso. apply reduce_reqs_spec in Hr'. destruct Hr' as (p & la & Hn & _). unfold shift_reqs in Hr. rewrite Hn in Hr. destruct Hr.
Qed.
(** An item asks for something at [la]. *)
Lemma free_row st : sorted_items (st_items st) -> free (row st) <->
  forall it it' r r', In it (st_items st) -> In it' (st_items st) -> item_lt it' it -> In r (item_reqs st it) -> is_reduce r -> In r' (item_reqs st it') -> r_at r' <> r_at r.
Proof.
  unfold row. generalize (st_items st). intros l Hs. induction Hs as [|it l Hs IH Hf]; cbn.
  - split; [intros _ it it' r r' []|intros _; apply free_nil].
  - rewrite Forall_forall in Hf. rewrite free_app, IH. split.
    + intros (_ & H2 & H3) i i' r r' [<-|Hi] [<-|Hi'] Hlt Hr Hk Hr'.
      * exfalso. exact (item_lt_irrefl _ Hlt).
      * exfalso. exact (item_lt_irrefl _ (item_lt_trans _ _ _ Hlt (Hf _ Hi'))).
      * apply (H3 r' r Hr'); [|exact Hk]. apply in_flat_map. eauto.
      * apply (H2 i i' r r'); auto.
    + intro H. split; [apply free_item|]. split; [intros i i' r r' Hi Hi'; apply H; auto|].
      intros r r' Hr Hr' Hk. apply in_flat_map in Hr'. destruct Hr' as (i & Hi & Hr'). apply (H i it r' r); auto.
Qed.
End Slr.
