(** * Complete: the abstract LR machine accepts every sentence, when FIRST is complete and no reduction
    was overridden *)
From Verif Require Export LrSem.

Section Complete.
Context {A Tok : Type}.
Variable g : grammar A.
Hypothesis Hwf : wf_grammar g.
Variable tbl : first_table.
Variable states : list lr1_state.
Variable entries : list (nat * nat).
Hypothesis Haut : automaton_ok g tbl states entries.
Variable nt0 e : nat.
Hypothesis Hentry : In (nt0, e) entries.
Variable act : nat -> option nat -> option aact.
Hypothesis Hact : act_ok g states act.
Variable class : Tok -> option nat.

(** Lookahead of the remaining input. *)
Inductive peek : list Tok -> option nat -> Prop :=
| peek_eof : peek [] None
| peek_tok : forall tok toks t, class tok = Some t -> peek (tok :: toks) (Some t).

Lemma peek_fun toks x y : peek toks x -> peek toks y -> x = y.
Proof. intros H1 H2; destruct H1; inversion H2; congruence. Qed.

Definition aconf : Type := list nat * list (tree Tok) * list Tok.

Inductive astep : aconf -> aconf -> Prop :=
| as_shift : forall s ss ts tok toks t n,
    class tok = Some t -> act s (Some t) = Some (AShift n) ->
    astep (s :: ss, ts, tok :: toks) (n :: s :: ss, Leaf tok :: ts, toks)
| as_reduce : forall s ss ts toks la n p pr s0 ss0 s1,
    peek toks la -> act s la = Some (AReduce n p) -> get_production g n p = Some pr ->
    skipn (List.length (rhs pr)) (s :: ss) = s0 :: ss0 -> trans states s0 (NT n) = Some s1 ->
    astep (s :: ss, ts, toks)
          (s1 :: s0 :: ss0,
           Node n p (rev (firstn (List.length (rhs pr)) ts)) :: skipn (List.length (rhs pr)) ts, toks).

Inductive asteps : aconf -> aconf -> Prop :=
| ass_refl : forall c, asteps c c
| ass_step : forall a b c, astep a b -> asteps b c -> asteps a c.

Lemma asteps_trans a b c : asteps a b -> asteps b c -> asteps a c.
Proof. induction 1; auto. intro. econstructor; eauto. Qed.
Lemma asteps_one a b : astep a b -> asteps a b.
Proof. intro. econstructor; eauto. constructor. Qed.

Lemma astep_fun a b c : astep a b -> astep a c -> b = c.
Proof.
  intros H1 H2. destruct H1; inversion H2; subst.
  - congruence.
  - match goal with H : peek (_ :: _) _ |- _ => inversion H; subst end. congruence.
  - match goal with H : peek (_ :: _) _ |- _ => inversion H; subst end. congruence.
  - assert (la0 = la) by (eapply peek_fun; eauto). subst.
    assert (Some (AReduce n0 p0) = Some (AReduce n p)) by congruence.
    match goal with H : Some (AReduce _ _) = _ |- _ => inversion H; subst end.
    assert (pr0 = pr) by congruence; subst.
    congruence.
Qed.

(** FIRST entries are complete where closures use them. *)
Definition first_complete_at (m : nat) : Prop :=
  (nullable g m -> flag tbl m = true) /\ (forall t, first_of g m t -> In t (terms tbl m)).
Definition first_complete_tails : Prop :=
  forall n p pr X l m, get_production g n p = Some pr -> rhs pr = X :: l -> In (NT m) l ->
    first_complete_at m.
(** Every reduction the item sets ask for is in the table. *)
Definition no_override : Prop :=
  forall s st it, nth_error states s = Some st -> In it (st_items st) -> red_item g it ->
    act s (it_la it) = Some (AReduce (it_nt it) (it_prod it)).

Hypothesis Hfc : first_complete_tails.
Hypothesis Hno : no_override.

(** Trees with empty yield come from nullable symbols; the first token of a yield is in FIRST. *)
Lemma tree_first :
  (forall tr X, wf_tree g class tr X ->
     (yield tr = [] -> exists m, X = NT m /\ nullable g m) /\
     (forall tok w t, yield tr = tok :: w -> class tok = Some t ->
        X = T t \/ exists m, X = NT m /\ first_of g m t)) /\
  (forall ts Xs, wf_forest g class ts Xs ->
     (yields ts = [] -> nullable_seq g Xs) /\
     (forall tok w t, yields ts = tok :: w -> class tok = Some t -> first_seq g Xs t)).
Proof.
  apply wf_tree_forest_ind.
  - intros tok t Hc. simpl. split; [discriminate|]. intros tok' w t' H. inversion H; subst. left; congruence.
  - intros nt p kids pr Hp _ [IH1 IH2]. simpl. split.
    + intro H. exists nt; split; auto. econstructor; eauto.
    + intros tok w t H Hc. right. exists nt; split; auto. specialize (IH2 _ _ _ H Hc).
      clear - IH2 Hp.
      assert (Hs : forall l, first_seq g l t -> exists l1 r, (l = l1 ++ T t :: r \/ exists m, l = l1 ++ NT m :: r /\ first_of g m t) /\ nullable_seq g l1).
      { clear IH2. intros l H; induction H as [t r|m r t Hm|m r t Hm H (l1 & r' & Hd & Hl)].
        - exists [], r; split; [left; auto|constructor].
        - exists [], r; split; [right; exists m; auto|constructor].
        - exists (NT m :: l1), r'. split; [|constructor; auto].
          destruct Hd as [->|(m' & -> & Hm')]; [left; auto|right; exists m'; auto]. }
      destruct (Hs _ IH2) as (l1 & r & [H|(m & H & Hm)] & Hl).
      * eapply first_of_T; eauto.
      * eapply first_of_NT; eauto.
  - split; [constructor|]. intros; discriminate.
  - intros tr ts X Xs Ht [IH1 IH2] Hts [IH3 IH4]. unfold yields in *. simpl. split.
    + intro H. apply app_eq_nil in H. destruct H as [Ha Hb].
      destruct (IH1 Ha) as (m & -> & Hm). constructor; auto.
    + intros tok w t H Hc. destruct (yield tr) as [|tok' w'] eqn:E.
      * destruct (IH1 eq_refl) as (m & -> & Hm). apply first_seq_skip; eauto.
      * simpl in H. inversion H; subst. destruct (IH2 _ _ _ eq_refl Hc) as [->|(m & -> & Hm)].
        -- constructor.
        -- constructor; auto.
Qed.

Lemma first_la_complete l : (forall m, In (NT m) l -> first_complete_at m) ->
  forall ts, wf_forest g class ts l -> forall toks la x, peek toks la -> peek (yields ts ++ toks) x ->
  first_la tbl l la x.
Proof.
  intros Hc ts Hw. induction Hw as [|tr ts X Xs Ht Hts IH]; intros toks la x Hla Hx.
  - simpl in Hx. rewrite (peek_fun _ _ _ Hx Hla). constructor.
  - unfold yields in *. simpl in Hx. rewrite <- app_assoc in Hx.
    destruct (proj1 tree_first _ _ Ht) as [H1 H2].
    destruct (yield tr) as [|tok w] eqn:E.
    + destruct (H1 eq_refl) as (m & -> & Hm). apply fl_skip.
      * apply (Hc m (or_introl eq_refl)); auto.
      * eapply IH; eauto. intros; apply Hc; right; auto.
    + simpl in Hx. inversion Hx as [|? ? ? Hcl]; subst. destruct (H2 _ _ _ eq_refl Hcl) as [->|(m & -> & Hm)].
      * constructor.
      * apply fl_NT. apply (Hc m (or_introl eq_refl)); auto.
Qed.

Lemma wf_forest_length ts Xs : wf_forest g class ts Xs -> List.length ts = List.length Xs.
Proof. induction 1; simpl; auto. Qed.

Lemma wf_forest_peek ts Xs toks la : wf_forest g class ts Xs -> peek toks la -> exists x, peek (yields ts ++ toks) x.
Proof.
  intros Hw Hla.
  assert (H : (forall tr X, wf_tree g class tr X -> forall tok w, yield tr = tok :: w -> class tok <> None) /\
              (forall ts Xs, wf_forest g class ts Xs -> forall tok w, yields ts = tok :: w -> class tok <> None)).
  { apply wf_tree_forest_ind.
    - intros tok t Hc tok' w H. inversion H; subst. congruence.
    - intros nt p kids pr _ _ IH tok w H. eapply IH; eauto.
    - intros tok w H; discriminate.
    - intros tr ts' X Xs' _ IH1 _ IH2 tok w H. unfold yields in *; simpl in H.
      destruct (yield tr) as [|tok' w'] eqn:E; simpl in H; [eapply IH2; eauto|].
      inversion H; subst. eapply IH1; eauto. }
  destruct (yields ts) as [|tok w] eqn:E; simpl; eauto.
  destruct (class tok) as [t|] eqn:Ec; [exists (Some t); constructor; auto|].
  exfalso. eapply (proj2 H); eauto.
Qed.

Lemma item_tail_complete d pi it m : valid g tbl nt0 d pi it ->
  In (NT m) (skipn (S (it_cursor it)) (item_rhs g it)) -> first_complete_at m.
Proof.
  intros Hv Hm. destruct (valid_prod g Hwf tbl states entries Haut nt0 e Hentry _ _ _ Hv) as (pr & Hpr & _).
  rewrite (item_rhs_prod g _ _ Hpr) in Hm. destruct (rhs pr) as [|X l] eqn:E.
  - destruct (it_cursor it); simpl in Hm; contradiction.
  - simpl in Hm. eapply Hfc; eauto. eapply skipn_In; eauto.
Qed.

Lemma simulate :
  (forall tr X, wf_tree g class tr X -> forall d pi s ss it ts toks la,
     stack_path states e pi (s :: ss) -> valid g tbl nt0 d pi it -> next_symbol g it = Some X ->
     peek toks la -> first_la tbl (skipn (S (it_cursor it)) (item_rhs g it)) (it_la it) la ->
     exists s1, trans states s X = Some s1 /\
       asteps (s :: ss, ts, yield tr ++ toks) (s1 :: s :: ss, tr :: ts, toks)) /\
  (forall kids Xs, wf_forest g class kids Xs -> forall d pi s ss it ts toks,
     stack_path states e pi (s :: ss) -> valid g tbl nt0 d pi it ->
     skipn (it_cursor it) (item_rhs g it) = Xs -> peek toks (it_la it) ->
     exists s1 ss1, asteps (s :: ss, ts, yields kids ++ toks) (s1 :: ss1, rev kids ++ ts, toks) /\
       stack_path states e (rev Xs ++ pi) (s1 :: ss1) /\ skipn (List.length kids) (s1 :: ss1) = s :: ss /\
       exists it1, valid g tbl nt0 d (rev Xs ++ pi) it1 /\ it_nt it1 = it_nt it /\
         it_prod it1 = it_prod it /\ it_la it1 = it_la it /\ is_complete g it1 = true).
Proof.
  apply wf_tree_forest_ind.
  - intros tok t Hc d pi s ss it ts toks la Hp Hv Hn Hpk Hf.
    destruct (in_top g tbl states entries Haut nt0 e Hentry _ _ _ _ _ Hp Hv) as (st & Hst & Hin).
    destruct (ac_shift _ _ _ Hact _ _ _ _ Hst Hin Hn) as (n & Ht & Ha). exists n; split; auto.
    apply asteps_one. simpl. econstructor; eauto.
  - intros n p kids pr Hpr Hw IH d pi s ss it ts toks la Hp Hv Hn Hpk Hf.
    assert (Hv0 : valid g tbl nt0 (S d) pi (start_item n p la)).
    { eapply v_step; eauto. exists n, p, pr, la; auto. }
    destruct (IH (S d) pi s ss (start_item n p la) ts toks Hp Hv0) as (s1 & ss1 & Hs & Hp1 & Hsk & it1 & Hv1 & E1 & E2 & E3 & Hc1).
    { simpl. rewrite (item_rhs_prod g (start_item n p la) pr Hpr). auto. }
    { exact Hpk. }
    destruct (in_top g tbl states entries Haut nt0 e Hentry _ _ _ _ _ Hp1 Hv1) as (st & Hst & Hin).
    assert (Hred : red_item g it1).
    { split; auto. rewrite E1. simpl. destruct (next_symbol_production g _ _ Hn) as (pr' & Hpr' & Hc').
      apply nth_error_In in Hc'. eapply (wfg_nt g Hwf); eauto. }
    pose proof (Hno _ _ _ Hst Hin Hred) as Ha. rewrite E1, E2, E3 in Ha. simpl in Ha.
    destruct (goto_exists g tbl states entries Haut nt0 e Hentry _ _ _ _ _ _ Hp Hv Hn) as (s2 & Ht2 & _).
    exists s2; split; auto. eapply asteps_trans; [exact Hs|]. apply asteps_one.
    pose proof (wf_forest_length _ _ Hw) as Hlen.
    pose proof (as_reduce s1 ss1 (rev kids ++ ts) toks la n p pr s ss s2 Hpk Ha Hpr) as Hst1.
    rewrite <- Hlen in Hst1. specialize (Hst1 Hsk Ht2).
    rewrite <- (rev_length kids) in Hst1.
    rewrite firstn_app, skipn_app, Nat.sub_diag, firstn_all, skipn_all in Hst1. simpl in Hst1.
    rewrite app_nil_r, rev_involutive in Hst1. exact Hst1.
  - intros d pi s ss it ts toks Hp Hv Hsk Hpk. exists s, ss. simpl. split; [constructor|].
    split; auto. split; auto. exists it. repeat split; auto.
    unfold is_complete. destruct (valid_prod g Hwf tbl states entries Haut nt0 e Hentry _ _ _ Hv) as (pr & Hpr & Hl).
    rewrite (item_rhs_prod g _ _ Hpr) in *. pose proof (skipn_length (it_cursor it) (rhs pr)) as H.
    rewrite Hsk in H. simpl in H. apply Nat.eqb_eq. lia.
  - intros tr kids X Xs Ht IH1 Hts IH2 d pi s ss it ts toks Hp Hv Hsk Hpk.
    apply skipn_next_symbol in Hsk. destruct Hsk as (Hn & Hr).
    destruct (wf_forest_peek _ _ toks _ Hts Hpk) as (x & Hx).
    assert (Hfl : first_la tbl (skipn (S (it_cursor it)) (item_rhs g it)) (it_la it) x).
    { rewrite <- Hr. eapply first_la_complete; eauto. intros m Hm. eapply item_tail_complete; eauto.
      rewrite <- Hr; auto. }
    destruct (IH1 d pi s ss it ts (yields kids ++ toks) x Hp Hv Hn Hx Hfl) as (s1 & Ht1 & Hs1).
    assert (Hp1 : stack_path states e (X :: pi) (s1 :: s :: ss)) by (constructor; auto).
    assert (Hv1 : valid g tbl nt0 d (X :: pi) (advance it)) by (constructor; auto).
    destruct (IH2 d (X :: pi) s1 (s :: ss) (advance it) (tr :: ts) toks Hp1 Hv1) as (s2 & ss2 & Hs2 & Hp2 & Hsk2 & it2 & Hv2 & E1 & E2 & E3 & Hc2).
    { simpl it_cursor. rewrite advance_rhs. auto. }
    { exact Hpk. }
    exists s2, ss2. simpl rev. rewrite <- !app_assoc. simpl app. split; [|split; [auto|split]].
    + unfold yields in *. simpl. rewrite <- app_assoc. eapply asteps_trans; eauto.
    + simpl List.length. rewrite <- (Nat.add_1_l). 
      assert (Hsp : forall n (l : list nat), skipn (1 + n) l = skipn 1 (skipn n l)).
      { clear. induction n as [|n IHn]; intros [|y l]; auto. exact (IHn l). }
      rewrite Hsp, Hsk2. reflexivity.
    + exists it2. auto.
Qed.

(** The whole run. *)
Theorem complete_run tr m pr toks :
  get_production g nt0 0 = Some pr -> rhs pr = [NT m] ->
  wf_tree g class tr (NT m) -> yield tr = toks ->
  exists s1, asteps ([e], [], toks) ([s1; e], [tr], []) /\ act s1 None = Some AAccept.
Proof.
  intros Hpr Hr Ht Hy.
  assert (Hv : valid g tbl nt0 0 [] (start_item nt0 0 None)) by constructor.
  assert (Hn : next_symbol g (start_item nt0 0 None) = Some (NT m)).
  { unfold next_symbol. rewrite (item_rhs_prod g (start_item nt0 0 None) pr Hpr), Hr. reflexivity. }
  assert (Hp : stack_path states e [] [e]) by constructor.
  destruct (proj1 simulate tr (NT m) Ht 0 [] e [] _ [] [] None Hp Hv Hn) as (s1 & Ht1 & Hs1).
  - constructor.
  - rewrite (item_rhs_prod g (start_item nt0 0 None) pr Hpr), Hr. simpl. constructor.
  - rewrite app_nil_r, Hy in Hs1. exists s1; split; auto.
    assert (Hp1 : stack_path states e [NT m] [s1; e]) by (constructor; auto).
    assert (Hv1 : valid g tbl nt0 0 [NT m] (advance (start_item nt0 0 None))) by (constructor; auto).
    destruct (in_top g tbl states entries Haut nt0 e Hentry _ _ _ _ _ Hp1 Hv1) as (st & Hst & Hin).
    eapply (ac_accept _ _ _ Hact); eauto. repeat split; auto.
    apply (entry_public g tbl states entries Haut nt0 e Hentry).
Qed.

(** Accepting configurations are final, so runs are unique. *)
Lemma accept_final s1 ts b : act s1 None = Some AAccept -> ~ astep ([s1; e], ts, []) b.
Proof.
  intros Ha H. inversion H; subst.
  match goal with H : peek [] _ |- _ => inversion H; subst end. congruence.
Qed.

Lemma asteps_final_fun a b c : asteps a b -> asteps a c -> (forall d, ~ astep b d) -> (forall d, ~ astep c d) -> b = c.
Proof.
  induction 1 as [a|a a' b Hs Hss IH]; intros Hc Hb Hcf.
  - inversion Hc; subst; auto. exfalso; eapply Hb; eauto.
  - inversion Hc; subst; [exfalso; eapply Hcf; eauto|].
    match goal with H : astep a _ |- _ => rewrite <- (astep_fun _ _ _ Hs H) in * end. auto.
Qed.

Theorem unique_tree tr tr' m pr :
  get_production g nt0 0 = Some pr -> rhs pr = [NT m] ->
  wf_tree g class tr (NT m) -> wf_tree g class tr' (NT m) -> yield tr = yield tr' -> tr = tr'.
Proof.
  intros Hpr Hr H1 H2 Hy.
  destruct (complete_run tr m pr _ Hpr Hr H1 eq_refl) as (s1 & R1 & A1).
  destruct (complete_run tr' m pr _ Hpr Hr H2 eq_refl) as (s2 & R2 & A2).
  rewrite <- Hy in R2.
  assert (H : (([s1; e], [tr], []) : aconf) = ([s2; e], [tr'], [])).
  { eapply asteps_final_fun; eauto; intros d Hd; eapply accept_final; try exact Hd; auto. }
  inversion H; auto.
Qed.
End Complete.

(** Productive grammars with complete FIRST entries have inhabited FIRST entries. *)
Section Inhabited.
Context {A : Type}.
Variable g : grammar A.
Variable tbl : first_table.

Lemma derives_terminals_first n w : derives g [NT n] (map T w) ->
  nullable g n \/ exists t, first_of g n t.
Proof.
  intro H. destruct w as [|t w].
  - left. apply nullable_iff. auto.
  - right. exists t. apply first_of_iff. exists (map T w). auto.
Qed.
End Inhabited.
