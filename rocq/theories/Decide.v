(** * Decide: checking [ulr1_grammar] by looking at the automaton

    Used to show that concrete grammars meet the hypotheses of the completeness theorems, and for
    property C18 (see Properties.v). *)
From Verif Require Export PropRun.

Lemma ho_id_ok : hash_order_ok ho_id. Proof. split; intro l; apply Permutation_refl. Qed.

Section Decide.
Context {B : Type}.
(** No complete item of the state clashes with another item. *)
Definition clean_state (g : grammar B) (st : lr1_state) : bool :=
  forallb (fun a => negb (is_complete g a) ||
    forallb (fun b =>
      (negb (is_complete g b && opt_nat_eqb (it_la a) (it_la b)) ||
         (Nat.eqb (it_nt a) (it_nt b) && Nat.eqb (it_prod a) (it_prod b))) &&
      match next_terminal g b with
      | Some t => negb (opt_nat_eqb (it_la a) (Some t))
      | None => true
      end) (st_items st)) (st_items st).

Lemma clean_reduce g st a b : clean_state g st = true -> In a (st_items st) -> In b (st_items st) ->
  is_complete g a = true -> is_complete g b = true -> it_la a = it_la b -> it_nt a = it_nt b /\ it_prod a = it_prod b.
Proof.
  unfold clean_state. intros H Ha Hb Ca Cb Hla. rewrite forallb_forall in H. specialize (H _ Ha). rewrite Ca in H. cbn in H.
  rewrite forallb_forall in H. specialize (H _ Hb). apply andb_true_iff in H. destruct H as [H _].
  rewrite Cb in H. assert (Ho : opt_nat_eqb (it_la a) (it_la b) = true) by (apply opt_nat_eqb_spec; auto).
  rewrite Ho in H. cbn in H. apply andb_true_iff in H. destruct H as [H1 H2].
  apply Nat.eqb_eq in H1, H2. auto.
Qed.
Lemma clean_shift g st a b t : clean_state g st = true -> In a (st_items st) -> In b (st_items st) ->
  is_complete g a = true -> next_symbol g b = Some (T t) -> it_la a <> Some t.
Proof.
  unfold clean_state. intros H Ha Hb Ca Nb Hla. rewrite forallb_forall in H. specialize (H _ Ha). rewrite Ca in H. cbn in H.
  rewrite forallb_forall in H. specialize (H _ Hb). apply andb_true_iff in H. destruct H as [_ H].
  unfold next_terminal in H. rewrite Nb in H. apply negb_true_iff in H.
  assert (Ho : opt_nat_eqb (it_la a) (Some t) = true) by (apply opt_nat_eqb_spec; auto). congruence.
Qed.
End Decide.

Section Lr1.
Context {A : Type}.
Variable items : list (grammar_item A).
Notation nts := (declared_nts items).
Notation cs := (token_entries items).
Hypothesis Hnames : distinct_names items.
Variables (ho : hash_order) (fuel : nat).
Hypothesis Hho : hash_order_ok ho.
Variable g : grammar (lexpr A).
Variable tbl : first_table.
Variable states : list lr1_state.
Variable entries : list (nat * nat).
Hypothesis Hlower : lower nts cs = Ok g.
Hypothesis Hauto : generate_lr1_automaton ho fuel g tbl = Ok (states, entries).

(** With any FIRST table that is complete where closures use it (the macro's own need not be). *)
Theorem clean_lr1_any : first_complete_tails g tbl -> forallb (clean_state g) states = true -> ulr1_grammar nts.
Proof.
  intros Hfc Hcl. pose proof (lower_spec nts cs) as Hls. rewrite Hlower in Hls. destruct Hls as (ti & Hlow).
  pose proof (lowered_wf _ _ _ _ Hlow) as Hwf.
  pose proof (generate_lr1_automaton_ok g tbl ho Hho Hwf fuel states entries Hauto) as Haut.
  intros N gamma HNin Hpub.
  destruct (proj1 (in_map_iff fst (slots 0 nts) N)) as ((N0 & i) & E0 & HN).
  { rewrite slots_fst. exact HNin. }
  cbn in E0. subst N0.
  assert (Hcomp : forall lhs n p l la, lhs_rel items i lhs n -> urhs nts (an_name N) lhs p = Some l ->
            is_complete g (mkit n p (List.length l) la) = true).
  { intros lhs n p l la Hl Hu. destruct (urhs_down items Hnames ti g Hlow N i HN Hpub _ _ _ _ Hl Hu) as (q & Hq & Hf).
    unfold is_complete, item_rhs. cbn. rewrite Hq. apply Nat.eqb_eq. apply (Forall2_length_ _ _ _ Hf). }
  assert (Hstate : forall s st, nth_error states s = Some st -> clean_state g st = true).
  { intros s st Hs. eapply forallb_forall in Hcl; [exact Hcl|]. eapply nth_error_In; eauto. }
  split.
  - intros a p b q la (l1 & Hu1 & H1) (l2 & Hu2 & H2).
    destruct (user_state items Hnames ti g Hlow N i HN Hpub tbl states entries Haut Hfc _ _ _ _ _ H1) as (s & st & Hst & Hall).
    destruct (Hall _ _ _ _ H1) as (n & x & L1 & X1 & I1). destruct (Hall _ _ _ _ H2) as (m & x' & L2 & X2 & I2).
    assert (x' = x) by (eapply la_rel_det; eauto). subst x'.
    destruct (clean_reduce _ _ _ _ (Hstate _ _ Hst) I1 I2 (Hcomp _ _ _ _ _ L1 Hu1) (Hcomp _ _ _ _ _ L2 Hu2) eq_refl) as [E1 E2].
    cbn in E1, E2. subst m q. split; auto. eapply lhs_rel_fun; eauto.
  - intros a p t (l1 & Hu1 & H1) (b & q & k & la & l2 & H2 & Hu2 & Hk).
    destruct (user_state items Hnames ti g Hlow N i HN Hpub tbl states entries Haut Hfc _ _ _ _ _ H1) as (s & st & Hst & Hall).
    destruct (Hall _ _ _ _ H1) as (n & x & L1 & X1 & I1). destruct (Hall _ _ _ _ H2) as (m & x' & L2 & X2 & I2).
    destruct (urhs_down items Hnames ti g Hlow N i HN Hpub _ _ _ _ L2 Hu2) as (pq & Hpq & Hf).
    destruct (Forall2_nth_l _ _ _ _ _ Hf Hk) as (Y & HY & (ty & Hty & ->)).
    destruct x as [tx|]; [|contradiction]. cbn in X1. assert (tx = ty) by (eapply terminal_unique; eauto). subst tx.
    assert (Hnx : next_symbol g (mkit m q k x') = Some (T ty)) by (eapply nth_error_next; eauto).
    eapply (clean_shift _ _ _ _ _ (Hstate _ _ Hst) I1 I2 (Hcomp _ _ _ _ _ L1 Hu1) Hnx). reflexivity.
Qed.

Theorem clean_lr1 : tails_plain nts -> generate_first_table ho fuel g = Ok tbl ->
  forallb (clean_state g) states = true -> ulr1_grammar nts.
Proof.
  intros Htp Hfirst. pose proof (lower_spec nts cs) as Hls. rewrite Hlower in Hls. destruct Hls as (ti & Hlow).
  apply clean_lr1_any. exact (tails_plain_complete items Hnames ti g Hlow ho Hho fuel tbl Hfirst Htp).
Qed.
End Lr1.

(** ** Checking that a FIRST table is closed under the FIRST equations *)
Section FirstCheck.
Context {B : Type}.
Variable g : grammar B.
Variable tbl : first_table.
Fixpoint seq_terms (l : list symbol) : list nat :=
  match l with
  | [] => []
  | T t :: _ => [t]
  | NT m :: r => terms tbl m ++ (if flag tbl m then seq_terms r else [])
  end.
Definition seq_flag (l : list symbol) : bool := forallb (fun X => match X with T _ => false | NT m => flag tbl m end) l.
Definition first_check : bool :=
  forallb (fun '(n, N) => forallb (fun pr =>
    (negb (seq_flag (rhs pr)) || flag tbl n) &&
    forallb (fun t => existsb (Nat.eqb t) (terms tbl n)) (seq_terms (rhs pr))) (nt_productions N)) (enumerate (g_nts g)).
Lemma first_check_prod n p pr : first_check = true -> get_production g n p = Some pr ->
  (seq_flag (rhs pr) = true -> flag tbl n = true) /\ (forall t, In t (seq_terms (rhs pr)) -> In t (terms tbl n)).
Proof.
  intros H Hp. unfold get_production in Hp. destruct (get_non_terminal g n) as [N|] eqn:EN; [|discriminate].
  unfold first_check in H. rewrite forallb_forall in H. specialize (H (n, N)).
  assert (Hin : In (n, N) (enumerate (g_nts g))) by (apply enumerate_nth_error; exact EN).
  specialize (H Hin). cbn beta iota in H. rewrite forallb_forall in H. specialize (H _ (nth_error_In _ _ Hp)).
  apply andb_true_iff in H. destruct H as [H1 H2]. split.
  - intro Hf. rewrite Hf in H1. exact H1.
  - intros t Ht. rewrite forallb_forall in H2. specialize (H2 _ Ht). apply existsb_exists in H2.
    destruct H2 as (x & Hx & E). apply Nat.eqb_eq in E. subst. exact Hx.
Qed.
Lemma first_check_nullable : first_check = true ->
  (forall n, nullable g n -> flag tbl n = true) /\ (forall l, nullable_seq g l -> seq_flag l = true).
Proof.
  intro H. apply nullable_both.
  - intros n p pr Hp _ IH. apply (first_check_prod _ _ _ H Hp). exact IH.
  - reflexivity.
  - intros m r _ IHm _ IHr. cbn. rewrite IHm. exact IHr.
Qed.
Lemma seq_terms_app l r t : seq_flag l = true -> In t (seq_terms r) -> In t (seq_terms (l ++ r)).
Proof.
  induction l as [|[m|u] l IH]; cbn [seq_flag forallb app seq_terms]; auto; [|discriminate].
  intros Hf Ht. apply andb_true_iff in Hf. destruct Hf as [H1 H2]. rewrite H1. apply in_or_app. right. apply IH; auto.
Qed.
Lemma first_check_complete : first_check = true -> forall m, first_complete_at g tbl m.
Proof.
  intros H m. destruct (first_check_nullable H) as [Hn Hs]. split; [apply Hn|]. intros t Ht.
  induction Ht as [n p pr l t r Hp Hr Hl|n p pr l m t r Hp Hr Hl Hm IH]; apply (first_check_prod _ _ _ H Hp); rewrite Hr;
    apply seq_terms_app; auto.
  - left. reflexivity.
  - cbn [seq_terms]. apply in_or_app. left. exact IH.
Qed.
Lemma first_check_tails : first_check = true -> first_complete_tails g tbl.
Proof. intros H n p pr X l m _ _ _. apply first_check_complete. exact H. Qed.
End FirstCheck.

(** ** Checking the grammar classes of USpec.v on concrete grammars *)
Section Checks.
Context {A : Type}.
Variable nts : list (ast_non_terminal A).

Lemma uproductive_intro n p pr : uproduction nts n p = Some pr ->
  Forall (fun s => match unnamed s with ASTerminal _ => True | ASNonTerminal m => uproductive nts m | _ => False end) (ap_symbols pr) ->
  uproductive nts n.
Proof.
  intros Hp Hf. assert (H : exists w, uderives nts (map unnamed (ap_symbols pr)) (map ASTerminal w)).
  { clear Hp. induction Hf as [|s l Hs Hl (w & Hw)]; [exists []; constructor|]. cbn [map].
    destruct (unnamed s) as [t|m|op s'|nm s'] eqn:E; try contradiction.
    - exists (t :: w). change (uderives nts ([ASTerminal t] ++ map unnamed l) ([ASTerminal t] ++ map ASTerminal w)).
      apply uderives_app; [constructor|auto].
    - destruct Hs as (v & Hv). exists (v ++ w). rewrite map_app.
      change (ASNonTerminal m :: map unnamed l) with ([ASNonTerminal m] ++ map unnamed l). apply uderives_app; auto. }
  destruct H as (w & Hw). exists w. eapply ud_step; [|exact Hw].
  pose proof (uds nts [] n p pr [] Hp) as Hs. cbn [app] in Hs. rewrite app_nil_r in Hs. exact Hs.
Qed.

Lemma uproduction_In n p pr : uproduction nts n p = Some pr -> exists N, In N nts /\ an_name N = n /\ In pr (an_productions N).
Proof.
  unfold uproduction. destruct (find _ nts) as [N|] eqn:E; [|discriminate]. intro H.
  apply find_some in E. destruct E as [E1 E2]. apply String.eqb_eq in E2. apply nth_error_In in H. eauto.
Qed.
Definition mem (n : string) (l : list string) : bool := existsb (String.eqb n) l.
Lemma mem_In n l : mem n l = true <-> In n l.
Proof.
  unfold mem. rewrite existsb_exists. split; [intros (x & H & E); apply String.eqb_eq in E; subst; auto|].
  intro H. exists n. rewrite String.eqb_refl. auto.
Qed.
Definition all_productions (f : string -> ast_production A -> bool) : bool :=
  forallb (fun N => forallb (f (an_name N)) (an_productions N)) nts.
Lemma all_productions_spec f n p pr : all_productions f = true -> uproduction nts n p = Some pr -> f n pr = true.
Proof.
  intros H Hp. destruct (uproduction_In _ _ _ Hp) as (N & HN & <- & Hin).
  unfold all_productions in H. rewrite forallb_forall in H. specialize (H _ HN). rewrite forallb_forall in H. auto.
Qed.

Definition nonnull_check (P : list string) : bool :=
  all_productions (fun n pr => negb (mem n P) ||
    existsb (fun s => match s with ASTerminal _ => true | ASNonTerminal m => mem m P | _ => false end) (body pr)).
Lemma nonnull_sound P : nonnull_check P = true -> forall m, mem m P = true -> ~ unullable nts m.
Proof.
  intros H m Hm Hn. set (good s := match s with ASTerminal _ => true | ASNonTerminal m => mem m P | _ => false end).
  assert (Hd : forall l r, uderives nts l r -> existsb good l = true -> existsb good r = true).
  { intros l r Hd. induction Hd as [l|l x r Hs Hd IH]; auto. intro Hl. apply IH. destruct Hs as [l n p pr r' Hp].
    rewrite existsb_app in Hl. cbn in Hl. rewrite !existsb_app.
    destruct (existsb good l); auto. destruct (existsb good r') ; [rewrite !orb_true_r; auto|]. cbn in *.
    rewrite orb_false_r in *. pose proof (all_productions_spec _ _ _ _ H Hp) as Hc. cbn beta in Hc. rewrite Hl in Hc. exact Hc. }
  specialize (Hd _ _ Hn). cbn in Hd. rewrite orb_false_r, Hm in Hd. specialize (Hd eq_refl). discriminate.
Qed.

Definition tails_check (R P : list string) : bool :=
  nonnull_check P &&
  all_productions (fun n pr => match body pr with
    | [] => true
    | X :: l => forallb (fun s => match s with ASNonTerminal m => mem m R | _ => true end) l &&
        (negb (mem n R) || match X with ASNonTerminal m => mem m R && mem m P | _ => true end)
    end).
Lemma tails_check_plain R P : tails_check R P = true -> tails_plain nts.
Proof.
  intro H. apply andb_true_iff in H. destruct H as [H1 H2]. exists (fun n => mem n R = true). split.
  - intros m (n & p & pr & X & l & Hp & Hb & Hin). pose proof (all_productions_spec _ _ _ _ H2 Hp) as H. cbn beta in H.
    rewrite Hb in H. apply andb_true_iff in H. destruct H as [H _]. rewrite forallb_forall in H. exact (H _ Hin).
  - intros n p pr m l Hn Hp Hb. pose proof (all_productions_spec _ _ _ _ H2 Hp) as H. cbn beta in H.
    rewrite Hb, Hn in H. apply andb_true_iff in H. destruct H as [_ H]. cbn in H. apply andb_true_iff in H. destruct H.
    split; auto. eapply nonnull_sound; eauto.
Qed.
Lemma tails_productive_all : all_productive nts ->
  all_productions (fun _ pr => forallb (fun s => match s with ASNonTerminal m => mem m (map an_name nts) | _ => true end) (body pr)) = true ->
  tails_productive nts.
Proof.
  intros Hall H m (n & p & pr & X & l & Hp & Hb & Hin). pose proof (all_productions_spec _ _ _ _ H Hp) as H0. cbn beta in H0.
  rewrite forallb_forall in H0. specialize (H0 (ASNonTerminal m)). rewrite Hb in H0. specialize (H0 (or_intror Hin)). cbn in H0.
  apply mem_In in H0. apply in_map_iff in H0. destruct H0 as (N & <- & HN). apply Hall; auto.
Qed.
End Checks.
