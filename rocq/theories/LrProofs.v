(** * LrProofs: the grammar classes of LrSpec.v *)
From Verif Require Import UserPrefix InterleaveProofs PropertiesRefactor.
From Verif Require Export LrSpec.
Local Open Scope list_scope.

Section Lr.
Context {A : Type}.
Variable nts : list (ast_non_terminal A).
Notation T w := (map ASTerminal w).
Notation N n := (ASNonTerminal n).
Notation ud := (uderives nts).
Notation plain ss := (Forall (fun s => unnamed s = s) ss).

(** ** Derivations *)
Lemma ud_app_inv a b z : ud (a ++ b) z -> exists z1 z2, z = z1 ++ z2 /\ ud a z1 /\ ud b z2.
Proof.
  intro H. remember (a ++ b) as c eqn:E. revert a b E. induction H as [l|l m r Hs Hd IH]; intros a b ->.
  - exists a, b. repeat split; constructor.
  - remember (a ++ b) as c eqn:E. destruct Hs as [l n p pr r' Hp]. symmetry in E.
    apply app_eq_app in E. destruct E as (mid & [(Ea & Eb)|(Ea & Eb)]).
    + destruct mid as [|s mid]; cbn in Eb.
      * rewrite app_nil_r in Ea. subst a. destruct (IH l (map unnamed (ap_symbols pr) ++ r')) as (z1 & z2 & -> & H1 & H2); [reflexivity|].
        exists z1, z2. repeat split; auto. subst b. eapply ud_step; [exact (uds nts [] n p pr r' Hp)|exact H2].
      * injection Eb as <- Er. subst r'. destruct (IH (l ++ map unnamed (ap_symbols pr) ++ mid) b) as (z1 & z2 & -> & H1 & H2); [rewrite <- !app_assoc; reflexivity|].
        exists z1, z2. repeat split; auto. subst a. eapply ud_step; [exact (uds nts l n p pr mid Hp)|exact H1].
    + destruct (IH a (mid ++ map unnamed (ap_symbols pr) ++ r')) as (z1 & z2 & -> & H1 & H2); [subst l; rewrite <- !app_assoc; reflexivity|].
      exists z1, z2. repeat split; auto. subst b. eapply ud_step; [exact (uds nts mid n p pr r' Hp)|exact H2].
Qed.
Lemma ud_terminals w z : ud (T w) z -> z = T w.
Proof.
  intro H. remember (T w) as a eqn:E. revert E. induction H as [|a b c Hs Hd IH]; auto. intros ->. exfalso. remember (T w) as a eqn:E. destruct Hs as [l n p pr r Hp].
  assert (Hin : In (N n) (T w)) by (rewrite <- E; apply in_or_app; right; left; reflexivity). apply in_map_iff in Hin. destruct Hin as (? & ? & _). discriminate.
Qed.
Lemma ud_trans a b c : ud a b -> ud b c -> ud a c. Proof. apply uderives_trans. Qed.
Lemma ud_body l n p pr r : uproduction nts n p = Some pr -> ud (l ++ N n :: r) (l ++ body pr ++ r).
Proof. intro H. eapply ud_step; [exact (uds nts l n p pr r H)|]. constructor. Qed.

Lemma first_app a b la x : uin_first nts (a ++ b) la x <-> (exists t r, x = Some t /\ ud a (ASTerminal t :: r)) \/ (ud a [] /\ uin_first nts b la x).
Proof.
  split.
  - intros [(t & r & -> & H)|(H & ->)].
    + destruct (ud_app_inv _ _ _ H) as (z1 & z2 & E & H1 & H2). destruct z1 as [|s z1]; cbn in E.
      * right. split; [exact H1|]. left. exists t, r. subst z2. auto.
      * injection E as <- ->. left. eauto.
    + destruct (ud_app_inv _ _ _ H) as (z1 & z2 & E & H1 & H2). symmetry in E. apply app_eq_nil in E. destruct E as (-> & ->). right. split; [exact H1|]. right. auto.
  - intros [(t & r & -> & H)|(H1 & [(t & r & -> & H2)|(H2 & ->)])].
    + left. exists t, (r ++ b). split; [reflexivity|]. change (ASTerminal t :: r ++ b) with ((ASTerminal t :: r) ++ b). apply uderives_app; [exact H|constructor].
    + left. exists t, r. split; [reflexivity|]. change (ASTerminal t :: r) with ([] ++ ASTerminal t :: r). apply uderives_app; auto.
    + right. split; [|reflexivity]. change (@nil ast_symbol) with (@nil ast_symbol ++ []). apply uderives_app; auto.
Qed.
Lemma first_terminals w la : uin_first nts (T w) la (match w with [] => la | t :: _ => Some t end).
Proof. destruct w as [|t w]; [right; split; [constructor|reflexivity]|left; exists t, (T w); split; [reflexivity|constructor]]. Qed.
Lemma first_terminals_inv w la x : uin_first nts (T w) la x -> x = match w with [] => la | t :: _ => Some t end.
Proof.
  intros [(t & r & -> & H)|(H & ->)]; apply ud_terminals in H; destruct w as [|s w]; cbn in *; try discriminate; [injection H as -> _; reflexivity|reflexivity].
Qed.
Lemma first_back a b la x : ud a b -> uin_first nts b la x -> uin_first nts a la x.
Proof. intros H [(t & r & -> & H1)|(H1 & ->)]; [left; exists t, r; split; [reflexivity|]|right; split; [|reflexivity]]; eapply ud_trans; eauto. Qed.
(** [b] with lookahead [x], [x] being in FIRST of [c] with [la]. *)
Lemma first_trans b c la x y : uin_first nts c la x -> uin_first nts b x y -> uin_first nts (b ++ c) la y.
Proof. intros Hc [(t & r & -> & H)|(H & ->)]; apply first_app; [left; eauto|right; auto]. Qed.

(** ** Rightmost derivations *)
Lemma rd_trans a b c : rderives nts a b -> rderives nts b c -> rderives nts a c.
Proof. intros H1 H2. induction H2 as [|l m r H IH Hs]; auto. eapply rd_step; [exact (IH H1)|exact Hs]. Qed.
Lemma rd_left l a b : rderives nts a b -> rderives nts (l ++ a) (l ++ b).
Proof.
  induction 1 as [|a b c H IH Hs]; [constructor|]. eapply rd_step; [exact IH|]. destruct Hs as [l' n p pr w Hp].
  rewrite !app_assoc. rewrite <- (app_assoc (l ++ l')). exact (rs nts (l ++ l') n p pr w Hp).
Qed.
Lemma rd_right a b w : rderives nts a b -> rderives nts (a ++ T w) (b ++ T w).
Proof.
  induction 1 as [|a b c H IH Hs]; [constructor|]. eapply rd_step; [exact IH|]. destruct Hs as [l' n p pr w' Hp].
  replace ((l' ++ N n :: T w') ++ T w) with (l' ++ N n :: T (w' ++ w)) by (rewrite map_app, <- app_assoc; reflexivity).
  replace ((l' ++ body pr ++ T w') ++ T w) with (l' ++ body pr ++ T (w' ++ w)) by (rewrite map_app, <- !app_assoc; reflexivity). exact (rs nts l' n p pr (w' ++ w) Hp).
Qed.
Lemma rd_ud a b : rderives nts a b -> ud a b.
Proof. induction 1 as [|a b c H IH Hs]; [constructor|]. eapply ud_trans; [exact IH|]. destruct Hs as [l n p pr w Hp]. exact (ud_body l n p pr _ Hp). Qed.

(** Trees over token names: what is derived is derived rightmost. *)
Lemma tree_rightmost :
  (forall (t : utree string) s, utree_of nts Some t s -> rderives nts [unnamed s] (T (uyield t))) /\
  (forall (ts : list (utree string)) ss, uforest_of nts Some ts ss -> rderives nts (map unnamed ss) (T (flat_map uyield ts))).
Proof.
  apply utree_uforest_ind.
  - auto.
  - intros tok s H. injection H as ->. constructor.
  - intros n p kids q Hq _ IH. cbn [unnamed uyield]. eapply rd_trans; [|exact IH]. eapply rd_step; [constructor|].
    pose proof (rs nts [] n p q [] Hq) as H. cbn in H. rewrite app_nil_r in H. exact H.
  - constructor.
  - intros t ts s ss _ IH1 _ IH2. cbn [map flat_map]. rewrite map_app. change (unnamed s :: map unnamed ss) with ([unnamed s] ++ map unnamed ss).
    eapply rd_trans; [exact (rd_left [unnamed s] _ _ IH2)|]. exact (rd_right _ _ _ IH1).
Qed.
Lemma plain_unnamed ss : plain ss -> map unnamed ss = ss.
Proof. induction 1; cbn; congruence. Qed.
Lemma ud_rightmost a w : plain a -> ud a (T w) -> rderives nts a (T w).
Proof.
  intros Hp H. destruct (derives_forest nts Some _ _ H _ (leaves nts Some w w ltac:(clear; induction w; constructor; auto))) as (ts & F & Y).
  pose proof (proj2 tree_rightmost _ _ F) as R. rewrite (plain_unnamed _ Hp), Y in R.
  assert (E : flat_map uyield (map ULeaf w) = w) by (clear; induction w; cbn; congruence). rewrite E in R. exact R.
Qed.
Lemma body_plain pr : plain (body (A := A) pr).
Proof. unfold body. induction (ap_symbols pr) as [|s l IH]; constructor; auto. induction s; cbn; auto. Qed.
Lemma ud_plain a b : ud a b -> plain a -> plain b.
Proof.
  induction 1 as [|a b c Hs Hd IH]; auto. intro Ha. apply IH. destruct Hs as [x n p q y Hq]. rewrite !Forall_app in *. destruct Ha as (H1 & H2). inversion H2; subst.
  repeat split; auto. apply body_plain.
Qed.
Lemma skipn_plain k l : plain l -> plain (skipn k l).
Proof. revert l. induction k; intros l H; cbn; auto. destruct l; auto. inversion H; auto. Qed.

Section Start.
Variable S : string.
Notation urhs := (urhs nts S).
Notation valid := (ulr1_valid nts S).
Notation Sent := (right_sentential nts S).

Lemma urhs_plain lhs p l : urhs lhs p = Some l -> plain l.
Proof.
  destruct lhs as [n|]; cbn.
  - destruct (uproduction nts n p) as [q|]; [|discriminate]. intro H. injection H as <-. apply body_plain.
  - destruct (Nat.eqb p 0); [|discriminate]. intro H. injection H as <-. repeat constructor.
Qed.
Lemma urhs_some n p l : urhs (Some n) p = Some l -> exists pr, uproduction nts n p = Some pr /\ body pr = l.
Proof. cbn. destruct (uproduction nts n p) as [q|]; [|discriminate]. intro H. injection H as <-. eauto. Qed.
Lemma split_nth {X} (l : list X) k x : nth_error l k = Some x -> l = firstn k l ++ x :: skipn (k + 1) l.
Proof. revert l. induction k; intros [|y l] H; try discriminate; cbn in *; [injection H as ->; reflexivity|]. rewrite <- (IHk l H). reflexivity. Qed.
Lemma firstn_snoc {X} (l : list X) k x : nth_error l k = Some x -> firstn (k + 1) l = firstn k l ++ [x].
Proof. revert l. induction k; intros [|y l] H; try discriminate; cbn in *; [injection H as ->; reflexivity|]. rewrite (IHk l H). reflexivity. Qed.

(** Where valid items come from, without assumptions: a sentential form. *)
Lemma valid_rhs gamma lhs p k la : valid gamma lhs p k la -> exists l, urhs lhs p = Some l /\ k <= List.length l.
Proof.
  induction 1 as [|gamma lhs p k la l C q l' x _ _ Hl Hk Hq Hf|gamma lhs p k la l X _ _ Hl Hk].
  - exists [N S]. cbn. split; [reflexivity|lia].
  - exists l'. split; [exact Hq|lia].
  - exists l. split; [exact Hl|]. assert (k < List.length l) by (apply nth_error_Some; congruence). lia.
Qed.
Lemma valid_sentential gamma lhs p k la l : valid gamma lhs p k la -> urhs lhs p = Some l ->
  exists alpha, gamma = alpha ++ firstn k l /\
    match lhs with
    | None => alpha = [] /\ la = None
    | Some n => exists r, ud [N S] (alpha ++ N n :: r) /\ uin_first nts r None la
    end.
Proof.
  intro H. revert l. induction H as [|gamma lhs p k la l C q l' x Hv IH Hl Hk Hq Hf|gamma lhs p k la l X Hv IH Hl Hk]; intros l0 H0.
  - exists []. cbn. auto.
  - destruct (IH l Hl) as (alpha & -> & Hm). exists (alpha ++ firstn k l). cbn [firstn]. split; [rewrite app_nil_r; reflexivity|].
    destruct lhs as [n|].
    + destruct Hm as (r & Hd & Hr). destruct (urhs_some _ _ _ Hl) as (pr & Hpr & Hb). exists (skipn (k + 1) l ++ r). split; [|eapply first_trans; eauto].
      eapply ud_trans; [exact Hd|]. pose proof (ud_body alpha n p pr r Hpr) as Hs. rewrite Hb in Hs. rewrite (split_nth _ _ _ Hk) in Hs at 1.
      rewrite <- !app_assoc in Hs |- *. exact Hs.
    + destruct Hm as (-> & ->). cbn in Hl. destruct (Nat.eqb p 0); [|discriminate]. injection Hl as <-. destruct k as [|k]; [|destruct k; discriminate]. injection Hk as <-. exists [].
      split; [constructor|]. exact Hf.
  - assert (l0 = l) by congruence. subst l0. destruct (IH l Hl) as (alpha & -> & Hm). exists alpha. rewrite (firstn_snoc _ _ _ Hk), app_assoc. auto.
Qed.
Lemma valid_follow gamma lhs p k la : valid gamma lhs p k la -> ufollow nts S lhs la.
Proof.
  intro H. destruct (valid_rhs _ _ _ _ _ H) as (l & Hl & _). destruct (valid_sentential _ _ _ _ _ _ H Hl) as (alpha & _ & Hm).
  destruct lhs as [n|]; cbn; [|apply Hm]. destruct Hm as (r & Hd & Hr). eauto.
Qed.
Lemma valid_lr0 gamma lhs p k la : valid gamma lhs p k la -> lr0_valid nts S gamma lhs p k.
Proof.
  intro H. exists la. induction H as [|gamma lhs p k la l C q l' x Hv IH Hl Hk Hq Hf|gamma lhs p k la l X Hv IH Hl Hk]; [constructor|eapply ulv_closure; eauto|eapply ulv_move; eauto].
Qed.

(** ** SLR(1), LALR(1), LR(1) *)
Lemma reduces_lr0 gamma a p la : ulr1_reduces nts S gamma a p la -> lr0_complete nts S gamma a p /\ ufollow nts S a la.
Proof. intros (l & Hl & Hv). split; [exists l; split; [exact Hl|eapply valid_lr0; eauto]|eapply valid_follow; eauto]. Qed.
Lemma shifts_lr0 gamma t : ulr1_shifts nts S gamma t -> lr0_shifts nts S gamma t.
Proof. intros (lhs & p & k & la & l & Hv & Hl & Hk). exists lhs, p, k, l. split; [eapply valid_lr0; eauto|auto]. Qed.
Lemma slr1_lalr1 : slr1 nts S -> lalr1 nts S.
Proof.
  intros H gamma gamma' Hs. destruct (H gamma') as (Hrr & Hsr). split.
  - intros a p b q la Ha Hb. destruct (reduces_lr0 _ _ _ _ Ha) as ((l & Hl & Hv) & Fa), (reduces_lr0 _ _ _ _ Hb) as (Cb & Fb).
    apply (Hrr a p b q la); auto. exists l. split; [exact Hl|]. apply Hs. exact Hv.
  - intros a p t Ha Hsh. destruct (reduces_lr0 _ _ _ _ Ha) as ((l & Hl & Hv) & Fa). apply (Hsr a p t); auto.
    + exists l. split; [exact Hl|]. apply Hs. exact Hv.
    + apply shifts_lr0. exact Hsh.
Qed.
Lemma lalr1_lr1 : lalr1 nts S -> items_lr1 nts S.
Proof. intros H gamma. apply H. intros lhs p k. reflexivity. Qed.

(** ** Knuth's definition *)
Lemma sentential_first alpha n rho : (exists z, rderives nts [N S] z /\ z = alpha ++ N n :: rho) ->
  forall p l t, urhs (Some n) p = Some l -> uin_first nts rho None t -> valid alpha (Some n) p 0 t.
Proof.
  intros (z & H & E). revert alpha n rho E. remember [N S] as start eqn:Es. induction H as [z|a b c H IH Hs]; intros alpha n rho E p l t Hl Ht.
  - subst z. destruct alpha as [|s alpha]; [|destruct alpha; discriminate]. cbn in E. injection E as <- <-.
    apply (ulv_closure nts (uin_first nts) S [] None 0 0 None [N S] S p l); auto. constructor.
  - specialize (IH Es). destruct Hs as [lf m q pr w Hq]. rewrite app_assoc in E.
    assert (Hrule : forall k, k <= List.length (body pr) -> valid (lf ++ firstn k (body pr)) (Some m) q k (match w with [] => None | s :: _ => Some s end)).
    { induction k as [|k IHk]; intro Hk.
      - cbn [firstn]. rewrite app_nil_r. apply (IH lf m (T w) eq_refl q (body pr)); [cbn; rewrite Hq; reflexivity|apply first_terminals].
      - destruct (nth_error (body pr) k) as [X|] eqn:Ek; [|apply nth_error_None in Ek; lia].
        replace (Datatypes.S k) with (k + 1) by lia. rewrite (firstn_snoc _ _ _ Ek), app_assoc. eapply ulv_move; [apply IHk; lia| |exact Ek]. cbn. rewrite Hq. reflexivity. }
    apply app_eq_app in E. destruct E as (mid & [(E1 & E2)|(E1 & E2)]).
    + destruct mid as [|s mid]; cbn in E2.
      { exfalso. assert (Hin : In (N n) (T w)) by (rewrite <- E2; left; reflexivity). apply in_map_iff in Hin. destruct Hin as (? & ? & _). discriminate. }
      injection E2 as <- ->. apply app_eq_app in E1. destruct E1 as (mid2 & [(E3 & E4)|(E3 & E4)]).
      * destruct mid2 as [|s mid2]; cbn in E4.
        { rewrite app_nil_r in E3. subst lf. specialize (Hrule 0 ltac:(lia)). cbn [firstn] in Hrule. rewrite app_nil_r in Hrule.
          eapply (ulv_closure _ _ _ _ _ _ 0 _ (body pr) n p l); [exact Hrule|cbn; rewrite Hq; reflexivity|rewrite <- E4; reflexivity|exact Hl|].
          rewrite <- E4. cbn [skipn Nat.add]. apply first_app in Ht. destruct Ht as [Ht|(Hn & Ht)]; [left; exact Ht|].
          apply first_terminals_inv in Ht. right. split; [exact Hn|]. rewrite Ht. destruct w; reflexivity. }
        { injection E4 as <- ->. apply (IH alpha n (mid2 ++ N m :: T w)) with (p := p) (l := l); [rewrite E3, <- app_assoc; reflexivity|exact Hl|].
          eapply first_back; [apply (ud_body mid2 m q pr (T w) Hq)|]. rewrite <- app_assoc in Ht. exact Ht. }
      * assert (Hk : nth_error (body pr) (List.length mid2) = Some (N n)) by (rewrite E4, nth_error_app2, Nat.sub_diag by lia; reflexivity).
        assert (Hlen : List.length mid2 < List.length (body pr)) by (apply nth_error_Some; congruence).
        specialize (Hrule (List.length mid2) ltac:(lia)). rewrite E4, firstn_app, firstn_all, Nat.sub_diag in Hrule. cbn [firstn] in Hrule. rewrite app_nil_r in Hrule. subst alpha.
        eapply (ulv_closure _ _ _ _ _ _ _ _ (body pr) n p l); [exact Hrule|cbn; rewrite Hq; reflexivity|exact Hk|exact Hl|].
        rewrite E4. replace (skipn (List.length mid2 + 1) (mid2 ++ N n :: mid)) with mid by (rewrite skipn_app, skipn_all2 by lia; replace (List.length mid2 + 1 - List.length mid2) with 1 by lia; reflexivity).
        apply first_app in Ht. destruct Ht as [Ht|(Hn & Ht)]; [left; exact Ht|]. apply first_terminals_inv in Ht. right. split; [exact Hn|]. rewrite Ht. destruct w; reflexivity.
    + exfalso. assert (Hin : In (N n) (T w)) by (rewrite E2; apply in_or_app; right; left; reflexivity). apply in_map_iff in Hin. destruct Hin as (? & ? & _). discriminate.
Qed.
Lemma handle_valid alpha a w p l k : Sent alpha a w -> urhs a p = Some l -> k <= List.length l -> valid (alpha ++ firstn k l) a p k (hd_error w).
Proof.
  intros Hs Hl. induction k as [|k IH]; intro Hk.
  - cbn [firstn]. rewrite app_nil_r. destruct a as [n|]; cbn in Hs.
    + apply (sentential_first alpha n (T w)) with (l := l); [eauto|exact Hl|]. pose proof (first_terminals w None) as F. destruct w; exact F.
    + destruct Hs as (-> & ->). cbn in Hl. destruct p; [|discriminate]. constructor.
  - destruct (nth_error l k) as [X|] eqn:Ek; [|apply nth_error_None in Ek; lia].
    replace (Datatypes.S k) with (k + 1) by lia. rewrite (firstn_snoc _ _ _ Ek), app_assoc. eapply ulv_move; [apply IH; lia|exact Hl|exact Ek].
Qed.
Lemma prefix_next g lhs p k la : valid g lhs p k la -> forall eta X r, g = eta ++ X :: r ->
  exists lhs' p' k' la' l, valid eta lhs' p' k' la' /\ urhs lhs' p' = Some l /\ nth_error l k' = Some X.
Proof.
  induction 1 as [|gamma lhs p k la l C q l' x Hv IH Hl Hk Hq Hf|gamma lhs p k la l Y Hv IH Hl Hk]; intros eta X r E.
  - destruct eta; discriminate.
  - exact (IH _ _ _ E).
  - destruct (exists_last (l := X :: r) ltac:(discriminate)) as (r' & z & Er). rewrite Er, app_assoc in E. apply app_inj_tail in E. destruct E as (-> & <-).
    destruct r' as [|y r'].
    + cbn in Er. injection Er as <- _. rewrite app_nil_r in *. exists lhs, p, k, la, l. auto.
    + cbn in Er. injection Er as <- _. exact (IH eta X r' eq_refl).
Qed.
Lemma complete_valid alpha a w p l : Sent alpha a w -> urhs a p = Some l -> ulr1_reduces nts S (alpha ++ l) a p (hd_error w).
Proof. intros Hs Hl. exists l. split; [exact Hl|]. pose proof (handle_valid alpha a w p l _ Hs Hl (le_n _)) as H. rewrite firstn_all in H. exact H. Qed.
Lemma items_knuth : items_lr1 nts S -> knuth_lr1 nts S.
Proof.
  intros H alpha a p beta w gamma b q delta x y Ha Hb Hc Hd E Ew.
  pose proof (complete_valid _ _ _ _ _ Ha Hb) as R1. pose proof (complete_valid _ _ _ _ _ Hc Hd) as R2. rewrite !app_assoc in E. apply app_eq_app in E.
  assert (Hshift : forall g s m a' p' la, ulr1_reduces nts S (g ++ ASTerminal s :: m) a' p' la -> ulr1_shifts nts S g s).
  { intros g s m a' p' la (l & Hl & Hv). destruct (prefix_next _ _ _ _ _ Hv _ _ _ eq_refl) as (lhs' & p'' & k' & la' & l' & Hv' & Hl' & Hk'). exists lhs', p'', k', la', l'. auto. }
  assert (Hhd : forall v m z, T v = m ++ T z -> m = [] /\ v = z \/ exists s m', m = ASTerminal s :: m' /\ hd_error v = Some s).
  { intros v [|s m] z Ez; cbn in Ez.
    - left. split; [reflexivity|]. clear - Ez. revert z Ez. induction v as [|c v IH]; intros [|d z] Ez; try discriminate; auto. injection Ez as -> Ez. f_equal. auto.
    - right. destruct v as [|c v]; [discriminate|]. injection Ez as <- _. eauto. }
  destruct E as (m & [(E1 & E2)|(E1 & E2)]).
  - destruct (Hhd _ _ _ E2) as [(-> & ->)|(s & m' & -> & Hy)].
    + rewrite app_nil_r in E1. rewrite E1 in R2. rewrite Ew in R1. destruct (proj1 (H _) _ _ _ _ _ R1 R2) as (-> & ->).
      assert (beta = delta) by congruence. subst delta. apply app_inv_tail in E1. auto.
    + exfalso. rewrite Ew, Hy in R1. rewrite E1 in R2. exact (proj2 (H _) _ _ _ R1 (Hshift _ _ _ _ _ _ R2)).
  - destruct (Hhd _ _ _ E2) as [(-> & ->)|(s & m' & -> & Hx)].
    + rewrite app_nil_r in E1. rewrite <- E1 in R2. rewrite Ew in R1. destruct (proj1 (H _) _ _ _ _ _ R1 R2) as (-> & ->).
      assert (beta = delta) by congruence. subst delta. apply app_inv_tail in E1. auto.
    + exfalso. rewrite Hx in R2. rewrite E1 in R1. exact (proj2 (H _) _ _ _ R2 (Hshift _ _ _ _ _ _ R1)).
Qed.

(** Every item valid for a string comes from a right-sentential form, when the symbols are productive. *)
Definition prods (l : list ast_symbol) : Prop := Forall (fun s => exists w, ud [s] (T w)) l.
Hypothesis Hprod : productive_symbols nts.
Lemma body_prods n p pr : uproduction nts n p = Some pr -> prods (body pr).
Proof. intro H. apply Forall_forall. intros s Hs. exact (Hprod n p pr s H Hs). Qed.
Lemma prods_ud a b : ud a b -> prods a -> prods b.
Proof.
  unfold prods. induction 1 as [|a b c Hs Hd IH]; auto. intro Ha. apply IH. destruct Hs as [x n p q y Hq]. rewrite !Forall_app in *. destruct Ha as (H1 & H2). inversion H2; subst.
  repeat split; auto. apply (body_prods n p q Hq).
Qed.
Lemma prods_string a : prods a -> exists w, ud a (T w).
Proof.
  induction 1 as [|s a (w & Hw) _ (v & Hv)]; [exists []; constructor|]. exists (w ++ v). rewrite map_app. change (s :: a) with ([s] ++ a). apply uderives_app; auto.
Qed.
Lemma prods_skipn k l : prods l -> prods (skipn k l).
Proof. revert l. induction k; intros l H; cbn; auto. destruct l; auto. inversion H; subst. auto. Qed.
Lemma first_string a la x : prods a -> uin_first nts a la x -> exists v, ud a (T v) /\ x = match v with [] => la | t :: _ => Some t end.
Proof.
  intros Hp [(t & r & -> & H)|(H & ->)].
  - pose proof (prods_ud _ _ H Hp) as Hr. inversion Hr; subst. destruct (prods_string r ltac:(assumption)) as (v & Hv). exists (t :: v). split; [|reflexivity].
    eapply ud_trans; [exact H|]. change (ASTerminal t :: r) with ([ASTerminal t] ++ r). change (T (t :: v)) with ([ASTerminal t] ++ T v). apply uderives_app; [constructor|exact Hv].
  - exists []. auto.
Qed.
Lemma valid_handle g lhs p k la l : valid g lhs p k la -> urhs lhs p = Some l -> exists alpha w, g = alpha ++ firstn k l /\ Sent alpha lhs w /\ hd_error w = la.
Proof.
  intro H. revert l. induction H as [|gamma lhs p k la l C q l' x Hv IH Hl Hk Hq Hf|gamma lhs p k la l X Hv IH Hl Hk]; intros l0 H0.
  - exists [], []. cbn. auto.
  - destruct (IH l Hl) as (alpha & w & -> & Hs & Hw). destruct lhs as [n|].
    + destruct (urhs_some _ _ _ Hl) as (pr & Hpr & Hb).
      assert (Hps : prods (skipn (k + 1) l)) by (apply prods_skipn; rewrite <- Hb; exact (body_prods n p pr Hpr)).
      destruct (first_string _ _ _ Hps Hf) as (v & Hd & Ex). exists (alpha ++ firstn k l), (v ++ w). cbn [firstn]. rewrite app_nil_r. split; [reflexivity|]. split; [|subst x la; destruct v; reflexivity].
      cbn. eapply rd_trans; [exact Hs|]. eapply rd_trans; [eapply rd_step; [constructor|exact (rs nts alpha n p pr w Hpr)]|]. rewrite Hb.
      replace (alpha ++ l ++ T w) with (((alpha ++ firstn k l) ++ [N C]) ++ skipn (k + 1) l ++ T w) by (rewrite (split_nth _ _ _ Hk) at 3; rewrite <- !app_assoc; reflexivity).
      replace ((alpha ++ firstn k l) ++ N C :: T (v ++ w)) with (((alpha ++ firstn k l) ++ [N C]) ++ T v ++ T w) by (rewrite map_app, <- !app_assoc; reflexivity).
      apply rd_left. apply rd_right. apply ud_rightmost; [|exact Hd]. apply skipn_plain. rewrite <- Hb. apply body_plain.
    + cbn in Hs. destruct Hs as (-> & ->). cbn in Hl. destruct p; [|discriminate]. cbn in Hl. injection Hl as <-. destruct k as [|k]; [|destruct k; discriminate]. injection Hk as <-.
      exists [], []. cbn. split; [reflexivity|]. split; [constructor|]. cbn in Hw. subst la. apply (first_terminals_inv []) in Hf. congruence.
  - assert (l0 = l) by congruence. subst l0. destruct (IH l Hl) as (alpha & w & -> & Hm). exists alpha, w. rewrite (firstn_snoc _ _ _ Hk), app_assoc. auto.
Qed.
Lemma knuth_items : knuth_lr1 nts S -> items_lr1 nts S.
Proof.
  intros H g. split.
  - intros a p b q la (l & Hl & Hv) (l' & Hl' & Hv'). destruct (valid_handle _ _ _ _ _ _ Hv Hl) as (al & w & E & Hs & Hw), (valid_handle _ _ _ _ _ _ Hv' Hl') as (al' & x & E' & Hs' & Hx).
    rewrite firstn_all in E, E'. destruct (H al a p l w al' b q l' x x Hs Hl Hs' Hl') as (_ & -> & -> & _); auto; [rewrite !app_assoc; congruence|congruence].
  - intros a p t (l & Hl & Hv) (c & q & k & la & l' & Hv' & Hl' & Hk). destruct (valid_handle _ _ _ _ _ _ Hv Hl) as (al & w & E & Hs & Hw), (valid_handle _ _ _ _ _ _ Hv' Hl') as (al' & x & E' & Hs' & Hx).
    rewrite firstn_all in E. destruct c as [n|]; [|cbn in Hl'; destruct q; [|discriminate]; cbn in Hl'; injection Hl' as <-; destruct k as [|[|k]]; discriminate].
    destruct (urhs_some _ _ _ Hl') as (pr & Hpr & Hb).
    assert (Hps : prods (skipn (k + 1) l')) by (apply prods_skipn; rewrite <- Hb; exact (body_prods n q pr Hpr)). destruct (prods_string _ Hps) as (v & Hd).
    apply ud_rightmost in Hd; [|apply skipn_plain; rewrite <- Hb; apply body_plain].
    assert (Hform : rderives nts [N S] (g ++ ASTerminal t :: skipn (k + 1) l' ++ T x)).
    { cbn in Hs'. eapply rd_step; [exact Hs'|]. pose proof (rs nts al' n q pr x Hpr) as R. rewrite Hb, (split_nth _ _ _ Hk) in R. rewrite E'. rewrite <- !app_assoc in *. exact R. }
    inversion Hd as [z E1 E2|z m r Hd1 Hd2 E1 E2].
    + (* no non-terminals after [t] *)
      assert (Eq : al' ++ l' ++ T x = al ++ l ++ T (t :: v ++ x)).
      { rewrite (split_nth _ _ _ Hk). rewrite !app_assoc. rewrite <- E', <- E, <- app_assoc. rewrite E2. cbn. rewrite map_app. reflexivity. }
      destruct (H al a p l w al' (Some n) q l' x _ Hs Hl Hs' Hl' Eq Hw) as (_ & _ & _ & Ex).
      apply (f_equal (@List.length _)) in Ex. cbn in Ex. rewrite app_length in Ex. clear - Ex. lia.
    + remember (T v) as tv eqn:Ev. destruct Hd2 as [mu C j pr' rho Hj]. 
      assert (Eq : (g ++ ASTerminal t :: mu) ++ body pr' ++ T (rho ++ x) = al ++ l ++ T (t :: v ++ x)).
      { rewrite (app_assoc al), <- E. rewrite <- app_assoc. f_equal. cbn [map app]. f_equal. rewrite !map_app, <- Ev, <- !app_assoc. reflexivity. }
      assert (Hs2 : Sent (g ++ ASTerminal t :: mu) (Some C) (rho ++ x)).
      { cbn. eapply rd_trans; [exact Hform|]. rewrite <- app_assoc. cbn [app]. replace (g ++ ASTerminal t :: skipn (k + 1) l' ++ T x) with ((g ++ [ASTerminal t]) ++ skipn (k + 1) l' ++ T x) by (rewrite <- app_assoc; reflexivity).
        replace (g ++ ASTerminal t :: mu ++ N C :: T (rho ++ x)) with ((g ++ [ASTerminal t]) ++ (mu ++ N C :: T rho) ++ T x) by (rewrite map_app, <- !app_assoc; reflexivity).
        apply rd_left, rd_right. exact Hd1. }
      destruct (H al a p l w (g ++ ASTerminal t :: mu) (Some C) j (body pr') (rho ++ x) _ Hs Hl Hs2 ltac:(cbn; rewrite Hj; reflexivity) Eq Hw) as (Ex & _).
      apply (f_equal (@List.length _)) in Ex. rewrite E, !app_length in Ex. cbn in Ex. clear - Ex. lia.
Qed.

(** ** LL(1) *)
Hypothesis Hll : ll1 nts S.
(** How far down the left edge the token [s] leads. *)
Inductive rank : list ast_symbol -> option string -> nat -> Prop :=
| rk_nil : forall s, rank [] s 0
| rk_term : forall t r s, rank (ASTerminal t :: r) s 0
| rk_nt : forall C r s p l la n, urhs (Some C) p = Some l -> ufollow nts S (Some C) la -> uin_first nts l la s -> rank l s n -> rank (N C :: r) s (n + 1).
Lemma ll1_pick C p l la q l' la' s : urhs (Some C) p = Some l -> ufollow nts S (Some C) la -> uin_first nts l la s ->
  urhs (Some C) q = Some l' -> ufollow nts S (Some C) la' -> uin_first nts l' la' s -> p = q /\ l = l'.
Proof. intros H1 H2 H3 H4 H5 H6. pose proof (Hll C p q l l' la la' s H1 H4 H2 H5 H3 H6) as ->. split; congruence. Qed.
Lemma rank_unique a s n : rank a s n -> forall b m, (a = b \/ exists X r r', a = X :: r /\ b = X :: r') -> rank b s m -> n = m.
Proof.
  induction 1 as [s|t r s|C r s p l la n Hl Hf Hi Hr IH]; intros b m [E|(X & x & y & E & ->)] Hb; try discriminate; try (injection E as <- <-); subst; inversion Hb; subst; auto.
  - match goal with H1 : urhs (Some C) ?p0 = Some ?l0, H2 : ufollow nts S (Some C) ?la0, H3 : uin_first nts ?l0 ?la0 s, H4 : rank ?l0 s _ |- _ =>
      destruct (ll1_pick _ _ _ _ _ _ _ _ Hl Hf Hi H1 H2 H3) as (_ & <-); rewrite (IH l _ (or_introl eq_refl) H4); reflexivity end.
  - match goal with H1 : urhs (Some C) ?p0 = Some ?l0, H2 : ufollow nts S (Some C) ?la0, H3 : uin_first nts ?l0 ?la0 s, H4 : rank ?l0 s _ |- _ =>
      destruct (ll1_pick _ _ _ _ _ _ _ _ Hl Hf Hi H1 H2 H3) as (_ & <-); rewrite (IH l _ (or_introl eq_refl) H4); reflexivity end.
Qed.
Definition hd_or (w : list string) (x : option string) := match w with [] => x | t :: _ => Some t end.
Lemma rank_head X r r' s n : rank (X :: r) s n -> rank (X :: r') s n.
Proof. intro H. inversion H; subst; econstructor; eauto. Qed.
Lemma first_hd_or a w x : ud a (T w) -> uin_first nts a x (hd_or w x).
Proof. intro H. eapply first_back; [exact H|]. apply first_terminals. Qed.
Lemma tree_rank :
  (forall (t : utree string) s, utree_of nts Some t s -> forall l r x, ud [N S] (l ++ unnamed s :: r) -> uin_first nts r None x ->
     exists n, rank [unnamed s] (hd_or (uyield t) x) n) /\
  (forall (ts : list (utree string)) ss, uforest_of nts Some ts ss -> forall l r x, ud [N S] (l ++ map unnamed ss ++ r) -> uin_first nts r None x ->
     exists n, rank (map unnamed ss) (hd_or (flat_map uyield ts) x) n).
Proof.
  apply utree_uforest_ind.
  - intros t b s _ IH. exact IH.
  - intros. exists 0. constructor.
  - intros C p kids pr Hpr Hk IH l r x Hd Hx. cbn [unnamed uyield] in *. destruct (IH l r x) as (n & Hn); [eapply ud_trans; [exact Hd|exact (ud_body l C p pr r Hpr)]|exact Hx|].
    exists (n + 1). eapply (rk_nt C [] _ p (body pr) x n); [cbn; rewrite Hpr; reflexivity|exists l, r; auto| |exact Hn]. apply first_hd_or. apply rd_ud. exact (proj2 tree_rightmost _ _ Hk).
  - intros. exists 0. constructor.
  - intros t ts s ss Ht IH1 Hts IH2 l r x Hd Hx. cbn [map flat_map app] in *.
    assert (Hx' : uin_first nts (map unnamed ss ++ r) None (hd_or (flat_map uyield ts) x)).
    { eapply first_trans; [exact Hx|]. apply first_hd_or. apply rd_ud. exact (proj2 tree_rightmost _ _ Hts). }
    destruct (IH1 l (map unnamed ss ++ r) _ Hd Hx') as (n & Hn). exists n. eapply rank_head. replace (hd_or (uyield t ++ flat_map uyield ts) x) with (hd_or (uyield t) (hd_or (flat_map uyield ts) x)) by (destruct (uyield t); reflexivity). exact Hn.
Qed.
Lemma rank_exists l X r x w : ud [N S] (l ++ X :: r) -> uin_first nts r None x -> unnamed X = X -> ud [X] (T w) -> exists n, rank [X] (hd_or w x) n.
Proof.
  intros Hd Hx Hpl Hw. destruct (derives_forest nts Some _ _ Hw _ (leaves nts Some w w ltac:(clear; induction w; constructor; auto))) as (ts & F & Y).
  assert (E : flat_map uyield (map ULeaf w) = w) by (clear; induction w; cbn; congruence). rewrite E in Y.
  inversion F as [|t ts' s ss Ht Hts]; subst. inversion Hts; subst. destruct (proj1 tree_rank _ _ Ht l r x) as (n & Hn); [rewrite Hpl; exact Hd|exact Hx|]. cbn [flat_map] in *. rewrite app_nil_r in *.
  exists n. rewrite Hpl in Hn. exact Hn.
Qed.

(** The items valid for [g] that can go on with [s]. *)
Definition comp (g : list ast_symbol) (s : option string) (lhs : option string) (p k : nat) (l : list ast_symbol) : Prop :=
  exists la, valid g lhs p k la /\ urhs lhs p = Some l /\ uin_first nts (skipn k l) la s.
Definition kernel (lhs : option string) (k : nat) : Prop := lhs = None \/ k <> 0.
Lemma comp_closure g lhs p k la l C q l' x s : valid g lhs p k la -> urhs lhs p = Some l -> nth_error l k = Some (N C) -> urhs (Some C) q = Some l' ->
  uin_first nts (skipn (k + 1) l) la x -> uin_first nts l' x s -> comp g s lhs p k l.
Proof.
  intros Hv Hl Hk Hq Hf Hs. exists la. split; [exact Hv|]. split; [exact Hl|]. destruct (urhs_some _ _ _ Hq) as (pr & Hpr & <-).
  assert (E : skipn k l = N C :: skipn (k + 1) l).
  { clear - Hk. revert l Hk. induction k; intros [|y l] Hk; try discriminate; cbn in *; [injection Hk as ->; reflexivity|]. apply IHk. exact Hk. }
  rewrite E. eapply first_back; [exact (ud_body [] C q pr _ Hpr)|]. cbn [app]. eapply first_trans; eauto.
Qed.
Lemma skipn_nth {X} (l : list X) k x : nth_error l k = Some x -> skipn k l = x :: skipn (k + 1) l.
Proof. revert l. induction k; intros [|y l] Hk; try discriminate; cbn in *; [injection Hk as ->; reflexivity|]. apply IHk. exact Hk. Qed.
Lemma comp_kernel g lhs p k la : valid g lhs p k la -> forall l s n, urhs lhs p = Some l -> uin_first nts (skipn k l) la s -> rank (skipn k l) s n ->
  exists lhs' p' k' l' n', comp g s lhs' p' k' l' /\ kernel lhs' k' /\ rank (skipn k' l') s n' /\ n <= n' /\ (~ kernel lhs k -> n < n').
Proof.
  induction 1 as [|g lhs p k la l C q l' x Hv IH Hl Hk Hq Hf|g lhs p k la l X Hv IH Hl Hk]; intros l0 s n H0 Hs Hr.
  - exists None, 0, 0, l0, n. split; [exists None; repeat split; auto; constructor|]. unfold kernel. repeat split; auto. intro K. destruct K. auto.
  - assert (l0 = l') by congruence. subst l0. cbn [skipn] in *. destruct (comp_closure _ _ _ _ _ _ _ _ _ _ _ Hv Hl Hk Hq Hf Hs) as (la' & Hc).
    assert (Hc' : uin_first nts (skipn k l) la s).
    { rewrite (skipn_nth _ _ _ Hk). destruct (urhs_some _ _ _ Hq) as (pr & Hpr & <-). eapply first_back; [exact (ud_body [] C q pr _ Hpr)|]. cbn [app]. eapply first_trans; eauto. }
    destruct (IH l s (n + 1) Hl Hc') as (lhs' & p' & k' & l'' & n' & H1 & H2 & H3 & H4 & H5).
    { rewrite (skipn_nth _ _ _ Hk). eapply (rk_nt C _ s q l' x n); auto. eapply valid_follow. eapply ulv_closure; eauto. }
    exists lhs', p', k', l'', n'. repeat split; auto; clear - H4; lia.
  - assert (l0 = l) by congruence. subst l0. exists lhs, p, (k + 1), l, n. split; [exists la; repeat split; auto; eapply ulv_move; eauto|]. unfold kernel.
    assert (k + 1 <> 0) by (clear; lia). repeat split; auto. intro K. destruct K. auto.
Qed.
Lemma valid_nil_kernel lhs p k la : valid [] lhs p k la -> kernel lhs k -> lhs = None /\ p = 0 /\ k = 0.
Proof.
  intro H. remember [] as g eqn:E. destruct H as [|g lhs p k la l C q l' x Hv Hl Hk Hq Hf|g lhs p k la l X Hv Hl Hk]; auto.
  - intros [?|K]; [discriminate|]. destruct K. reflexivity.
  - destruct g; discriminate.
Qed.
Lemma valid_snoc_kernel g X lhs p k la l : valid (g ++ [X]) lhs p k la -> kernel lhs k -> urhs lhs p = Some l -> exists k', k = k' + 1 /\ valid g lhs p k' la /\ nth_error l k' = Some X.
Proof.
  intros H K E. remember (g ++ [X]) as g' eqn:Eg. destruct H as [|g' lhs p k la l1 C q l' x Hv Hl Hk Hq Hf|g' lhs p k la l1 Y Hv Hl Hk].
  - destruct g; discriminate.
  - destruct K as [?|K]; [discriminate|]. destruct K. reflexivity.
  - apply app_inj_tail in Eg. destruct Eg as (<- & <-). exists k. repeat split; auto. congruence.
Qed.

Definition one_kernel (g : list ast_symbol) (s : option string) : Prop :=
  forall a p k l b q j m, comp g s a p k l -> comp g s b q j m -> kernel a k -> kernel b j -> a = b /\ p = q /\ k = j.
Lemma kernel_above g s : one_kernel g s -> forall a p k l b q j m n, comp g s a p k l -> comp g s b q j m -> kernel a k -> ~ kernel b j -> rank (skipn k l) s n -> rank (skipn j m) s n -> False.
Proof.
  intros H1 a p k l b q j m n Ha Hb Ka Kb Ra Rb. pose proof Hb as (la & Hv & Hl & Hf). destruct (comp_kernel _ _ _ _ _ Hv _ _ _ Hl Hf Rb) as (c & p' & k' & l' & n' & Hc & Kc & Rc & _ & Hlt).
  specialize (Hlt Kb). destruct (H1 _ _ _ _ _ _ _ _ Ha Hc Ka Kc) as (<- & <- & <-). destruct Ha as (? & _ & El & _), Hc as (? & _ & El' & _). assert (l = l') by congruence. subst l'.
  pose proof (rank_unique _ _ _ Ra _ _ (or_introl eq_refl) Rc). clear - H Hlt. lia.
Qed.
Lemma kernel_dec (lhs : option string) k : kernel lhs k \/ (~ kernel lhs k /\ k = 0 /\ exists C, lhs = Some C).
Proof. unfold kernel. destruct lhs as [C|]; [|auto]. destruct k; [right|auto]. split; [intros [?|?]; [discriminate|auto]|]. eauto. Qed.
Lemma closure_unique g s : one_kernel g s -> forall a p k la, valid g a p k la -> forall l b q j m n, urhs a p = Some l -> uin_first nts (skipn k l) la s ->
  comp g s b q j m -> rank (skipn k l) s n -> rank (skipn j m) s n -> a = b /\ p = q /\ k = j.
Proof.
  intros H1 a p k la Hv0. pose proof Hv0 as Hv. induction Hv as [|g a p k la l1 C i l1' x Hv IH Hl Hk Hi Hf|g a p k la l1 X Hv IH Hl Hk]; intros l b q j m n El Fl Hb Ra Rb.
  1, 3: destruct (kernel_dec b j) as [Kb|(Kb & _)];
    [|exfalso; eapply (kernel_above _ _ H1); [eexists; split; [exact Hv0|split; [exact El|exact Fl]]|exact Hb| |exact Kb|exact Ra|exact Rb]; unfold kernel; first [left; reflexivity|right; clear; lia]].
  1, 2: eapply H1; [eexists; split; [exact Hv0|split; [exact El|exact Fl]]|exact Hb| |exact Kb]; unfold kernel; first [left; reflexivity|right; clear; lia].
  assert (l = l1') by congruence. subst l. cbn [skipn] in *.
  assert (Ha : comp g s (Some C) i 0 l1') by (eexists; split; [exact Hv0|split; [exact El|exact Fl]]).
  destruct (kernel_dec b j) as [Kb|(Kb & -> & D & ->)].
  - exfalso. eapply (kernel_above _ _ H1 _ _ _ _ _ _ _ _ _ Hb Ha Kb); [|exact Rb|exact Ra]. unfold kernel. intros [?|K]; [discriminate|apply K; reflexivity].
  - destruct Hb as (lb & Vb & Eb & Fb). remember (Some D) as d eqn:Ed. remember 0 as z eqn:Ez. pose proof Vb as Vb0.
    destruct Vb as [|g a' p' k' la' l2 C' i' l2' x' Hv' Hl' Hk' Hi' Hf'|g a' p' k' la' l2 X Hv' Hl' Hk']; [discriminate| |clear - Ez; lia].
    clear Ed Ez. assert (m = l2') by congruence. subst m. cbn [skipn] in *.
    assert (Hj : comp g s a' p' k' l2) by (exact (comp_closure _ _ _ _ _ _ _ _ _ _ _ Hv' Hl' Hk' Hi' Hf' Fb)).
    assert (R1 : rank (skipn k l1) s (n + 1)) by (rewrite (skipn_nth _ _ _ Hk); eapply rk_nt; [exact Hi|exact (valid_follow _ _ _ _ _ Hv0)|exact Fl|exact Ra]).
    assert (R2 : rank (skipn k' l2) s (n + 1)) by (rewrite (skipn_nth _ _ _ Hk'); eapply rk_nt; [exact Hi'|exact (valid_follow _ _ _ _ _ Vb0)|exact Fb|exact Rb]).
    assert (Fc : uin_first nts (skipn k l1) la s).
    { rewrite (skipn_nth _ _ _ Hk). destruct (urhs_some _ _ _ Hi) as (pr & Hpr & <-). eapply first_back; [exact (ud_body [] C i pr _ Hpr)|]. cbn [app]. eapply first_trans; eauto. }
    destruct (IH H1 Hv l1 a' p' k' l2 (n + 1) Hl Fc Hj R1 R2) as (<- & <- & <-). assert (l1 = l2) by congruence. subst l2. assert (N C = N C') by congruence.
    assert (C = C') by congruence. subst C'. destruct (ll1_pick _ _ _ _ _ _ _ _ Hi (valid_follow _ _ _ _ _ Hv0) Fl Hi' (valid_follow _ _ _ _ _ Vb0) Fb) as (-> & _). auto.
Qed.

Lemma comp_unique g : forall s, one_kernel g s.
Proof.
  induction g as [|X g IHg] using rev_ind; intros s a p k l b q j m Ha Hb Ka Kb.
  - destruct Ha as (la & Hv & _), Hb as (la' & Hv' & _). destruct (valid_nil_kernel _ _ _ _ Hv Ka) as (-> & -> & ->), (valid_nil_kernel _ _ _ _ Hv' Kb) as (-> & -> & ->). auto.
  - destruct Ha as (la & Hv & El & Fl), Hb as (la' & Hv' & Em & Fm). destruct (valid_snoc_kernel _ _ _ _ _ _ _ Hv Ka El) as (k0 & -> & Va & Na), (valid_snoc_kernel _ _ _ _ _ _ _ Hv' Kb Em) as (j0 & -> & Vb & Nb).
    assert (Hx : a = None /\ b = None \/ exists w, ud [X] (T w)).
    { destruct a as [n|]; [right|destruct b as [n|]; [right|auto]]; [destruct (urhs_some _ _ _ El) as (pr & Hpr & <-); apply nth_error_In in Na|destruct (urhs_some _ _ _ Em) as (pr & Hpr & <-); apply nth_error_In in Nb]; eapply Hprod; eauto. }
    destruct Hx as [(-> & ->)|(w & Hw)].
    + cbn in El, Em. destruct p; [|discriminate]. destruct q; [|discriminate]. injection El as <-. injection Em as <-. destruct k0 as [|[|]]; try discriminate. destruct j0 as [|[|]]; try discriminate. auto.
    + assert (Hpl : unnamed X = X) by (pose proof (urhs_plain _ _ _ El) as P; rewrite Forall_forall in P; apply P; eapply nth_error_In; eauto).
      assert (Fa : uin_first nts (skipn k0 l) la (hd_or w s)).
      { rewrite (skipn_nth _ _ _ Na). change (X :: skipn (k0 + 1) l) with ([X] ++ skipn (k0 + 1) l). eapply first_trans; [exact Fl|]. apply first_hd_or. exact Hw. }
      assert (Fb : uin_first nts (skipn j0 m) la' (hd_or w s)).
      { rewrite (skipn_nth _ _ _ Nb). change (X :: skipn (j0 + 1) m) with ([X] ++ skipn (j0 + 1) m). eapply first_trans; [exact Fm|]. apply first_hd_or. exact Hw. }
      assert (Hr : exists n, rank [X] (hd_or w s) n).
      { destruct (valid_sentential _ _ _ _ _ _ Va El) as (al & _ & Hm). destruct a as [n|].
        - destruct Hm as (r & Hd & Hr). destruct (urhs_some _ _ _ El) as (pr & Hpr & Hbd). apply (rank_exists (al ++ firstn k0 l) X (skipn (k0 + 1) l ++ r) s w); auto; [|eapply first_trans; eauto].
          eapply ud_trans; [exact Hd|]. pose proof (ud_body al n p pr r Hpr) as Hs. rewrite Hbd, (split_nth _ _ _ Na) in Hs. rewrite <- !app_assoc in *. exact Hs.
        - destruct Hm as (-> & ->). cbn in El. destruct p; [|discriminate]. injection El as <-. destruct k0 as [|[|]]; try discriminate. injection Na as <-.
          apply (rank_exists [] (N S) [] s w); auto. constructor. }
      destruct Hr as (n & Hr).
      destruct (closure_unique g (hd_or w s) (IHg _) a p k0 la Va l b q j0 m n El Fa) as (-> & -> & ->); auto.
      * exists la'. auto.
      * rewrite (skipn_nth _ _ _ Na). eapply rank_head; eauto.
      * rewrite (skipn_nth _ _ _ Nb). eapply rank_head; eauto.
Qed.
Lemma ll1_items : items_lr1 nts S.
Proof.
  intro g. split.
  - intros a p b q la (l & Hl & Hv) (m & Hm & Hv').
    destruct (closure_unique g la (comp_unique g la) a p _ la Hv l b q (List.length m) m 0 Hl) as (-> & -> & _); auto; rewrite ?skipn_all; try (apply rk_nil).
    + right. split; [constructor|reflexivity].
    + exists la. repeat split; auto. rewrite skipn_all. right. split; [constructor|reflexivity].
  - intros a p t (l & Hl & Hv) (b & q & j & la & m & Hv' & Hm & Hj).
    destruct (closure_unique g (Some t) (comp_unique g _) a p _ (Some t) Hv l b q j m 0 Hl) as (-> & -> & E); auto; rewrite ?skipn_all; try (apply rk_nil).
    + right. split; [constructor|reflexivity].
    + exists la. repeat split; auto. rewrite (skipn_nth _ _ _ Hj). left. exists t, (skipn (j + 1) m). split; [reflexivity|constructor].
    + rewrite (skipn_nth _ _ _ Hj). constructor.
    + assert (l = m) by congruence. subst m. rewrite <- E in Hj. assert (List.length l < List.length l) by (apply nth_error_Some; congruence). clear - H. lia.
Qed.
End Start.
End Lr.
