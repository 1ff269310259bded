(** * AddedProofs: adding rules can only enlarge the computed FIRST sets of the others *)
From Verif Require Export EntryProofs.
From Verif Require Import Determinism LocalProofs LowerAlike LowerTrees UserProofs FirstProofs ComputedProofs StageProofs.
From Coq Require Import Permutation.
Local Open Scope list_scope.

(** ** FIRST tables of a grammar embedded in another *)
Section Embed.
Variables sr er : nat -> nat -> Prop.
Hypothesis sr_fun : forall i j j', sr i j -> sr i j' -> j = j'.
Hypothesis sr_inj : forall i i' j, sr i j -> sr i' j -> i = i'.
Hypothesis er_fun : forall i j j', er i j -> er i j' -> j = j'.
Hypothesis er_inj : forall i i' j, er i j -> er i' j -> i = i'.
Notation lsame := (lsame sr).

Definition emb (t t' : first_table) : Prop := forall n m, er n m ->
  (n < List.length t <-> m < List.length t') /\ flag t n = flag t' m /\ lsame (terms t n) (terms t' m).
Definition stemb (s s' : first_table * bool) : Prop := emb (fst s) (fst s') /\ (snd s = true -> snd s' = true).
Definition sym_emb (X Y : symbol) : Prop :=
  match X, Y with NT n, NT m => er n m | T i, T j => sr i j | _, _ => False end.

Lemma add_all_emb n m ts ts' s s' : er n m -> lsame ts ts' -> stemb s s' -> stemb (add_all n ts s) (add_all m ts' s').
Proof.
  intros Hnm Ht [H U].
  destruct (add_all_spec n ts s) as (A1 & A2 & A3 & A4). destruct (add_all_spec m ts' s') as (B1 & B2 & B3 & B4).
  split.
  - intros k k' Hk. rewrite A1, B1, A2, B2. destruct (H k k' Hk) as (HL & HF & HT). split; [exact HL|]. split; [exact HF|]. split.
    + intros i Hi. apply A3 in Hi. destruct Hi as [Hi|(-> & Hl & Hi)].
      * destruct (proj1 HT i Hi) as (j & Hj & Hin). exists j. split; auto. apply B3. auto.
      * destruct (proj1 Ht i Hi) as (j & Hj & Hin). exists j. split; auto. apply B3. right.
        rewrite (er_fun _ _ _ Hk Hnm) in *. split; auto. split; auto. apply (proj1 HL). exact Hl.
    + intros j Hj. apply B3 in Hj. destruct Hj as [Hj|(-> & Hl & Hj)].
      * destruct (proj2 HT j Hj) as (i & Hi & Hin). exists i. split; auto. apply A3. auto.
      * destruct (proj2 Ht j Hj) as (i & Hi & Hin). exists i. split; auto. apply A3. right.
        rewrite (er_inj _ _ _ Hk Hnm) in *. split; auto. split; auto. apply (proj2 HL). exact Hl.
  - intro Hu. apply A4 in Hu. apply B4. destruct Hu as [Hu|(t & H1 & H2)]; [auto|right].
    destruct (proj1 Ht t H1) as (j & Hj & Hin). exists j. split; auto. intro Hc. apply H2.
    apply (lsame_mem sr sr_fun sr_inj _ _ _ _ (proj2 (proj2 (H n m Hnm))) Hj). exact Hc.
Qed.
Lemma add_first_emb t t' n m i j : er n m -> sr i j -> emb t t' -> stemb (add_first t n i) (add_first t' m j).
Proof.
  intros Hnm Hij Ht. assert (Hs : stemb (t, false) (t', false)) by (split; auto).
  assert (Hl : lsame [i] [j]).
  { split; intros x [<-|[]]; eexists; split; eauto; left; reflexivity. }
  pose proof (add_all_emb n m [i] [j] _ _ Hnm Hl Hs) as H. cbn [add_all] in H.
  destruct (add_first t n i) as [a b], (add_first t' m j) as [a' b']. exact H.
Qed.
Lemma set_empty_emb t t' n m : er n m -> emb t t' -> stemb (set_empty t n) (set_empty t' m).
Proof.
  intros Hnm H. split.
  - intros k k' Hk. destruct (H k k' Hk) as (HL & HF & HT). rewrite !flag_empty, !terms_empty.
    split; [unfold set_empty; simpl; rewrite !update_nth_length; auto|]. split; [|exact HT].
    assert (E1 : Nat.eqb n k = Nat.eqb m k').
    { apply bool_ext. rewrite !Nat.eqb_eq. split; intros ->; [exact (er_fun _ _ _ Hnm Hk)|exact (er_inj _ _ _ Hnm Hk)]. }
    assert (E2 : Nat.ltb k (List.length t) = Nat.ltb k' (List.length t')) by (apply bool_ext; rewrite !Nat.ltb_lt; exact HL).
    rewrite E1, E2, HF. reflexivity.
  - unfold set_empty; simpl. destruct (H n m Hnm) as (_ & HF & _). unfold flag in HF. rewrite HF. auto.
Qed.

Context {A A' : Type}.
Variables ho ho' : hash_order.
Hypothesis Hho : hash_order_ok ho.
Hypothesis Hho' : hash_order_ok ho'.

Lemma first_symbols_emb n m syms syms' : er n m -> Forall2 sym_emb syms syms' -> forall s s', stemb s s' ->
  stemb (first_symbols ho n syms s) (first_symbols ho' m syms' s').
Proof.
  intro Hnm. induction 1 as [|X Y syms syms' HXY _ IH]; intros [t u] [t' u'] [Ht Hu]; cbn [fst snd] in Ht, Hu.
  - cbn [first_symbols]. destruct (set_empty_emb _ _ n m Hnm Ht) as [H _]. split; auto.
  - destruct X as [k|i], Y as [k'|j]; cbn [sym_emb] in HXY; try contradiction; cbn [first_symbols].
    + destruct (Ht k k' HXY) as (_ & Hf & Hl).
      change (fs_empty (get_first t k)) with (flag t k). change (fs_empty (get_first t' k')) with (flag t' k'). rewrite Hf.
      destruct (flag t' k'); [apply IH; split; auto|]. apply add_all_emb; [exact Hnm| |split; auto].
      exact (lsame_perm sr _ _ _ _ (hok_terms _ Hho _) (hok_terms _ Hho' _) Hl).
    + pose proof (add_first_emb _ _ n m _ _ Hnm HXY Ht) as [H1 H2].
      destruct (add_first t n i) as [a b], (add_first t' m j) as [a' b']. cbn [fst snd] in *. split; cbn [fst snd]; [auto|].
      intro H. apply orb_true_iff in H. apply orb_true_iff. destruct H; auto.
Qed.

Definition prod_emb (p : production A) (q : production A') : Prop := Forall2 sym_emb (rhs p) (rhs q).
Lemma first_production_emb n m p q s s' : er n m -> prod_emb p q -> stemb s s' -> stemb (first_production ho n s p) (first_production ho' m s' q).
Proof.
  intros Hnm Hp Hs. unfold first_production. apply first_symbols_emb; auto. unfold prod_emb in Hp.
  inversion Hp as [|X Y l l' _ _ E1 E2]; auto.
  destruct s as [t u], s' as [t' u']. destruct Hs as [Ht Hu]. cbn [fst snd] in *.
  pose proof (set_empty_emb _ _ n m Hnm Ht) as [H1 H2].
  destruct (set_empty t n) as [a b], (set_empty t' m) as [a' b']. cbn [fst snd] in *. split; cbn [fst snd]; [auto|].
  intro Hb. apply orb_true_iff in Hb. apply orb_true_iff. destruct Hb; auto.
Qed.

(** What is done for [m] leaves the others alone. *)
Definition only (m : nat) (s s' : first_table * bool) : Prop :=
  List.length (fst s') = List.length (fst s) /\
  (forall k, k <> m -> flag (fst s') k = flag (fst s) k /\ forall t, In t (terms (fst s') k) <-> In t (terms (fst s) k)) /\
  (snd s = true -> snd s' = true).
Lemma only_refl m s : only m s s.
Proof. split; [reflexivity|]. split; auto. intros k _. split; [reflexivity|]. intro t. reflexivity. Qed.
Lemma only_trans m a b c : only m a b -> only m b c -> only m a c.
Proof.
  intros (L1 & H1 & U1) (L2 & H2 & U2). split; [congruence|]. split; auto. intros k Hk.
  destruct (H1 k Hk) as (F1 & T1), (H2 k Hk) as (F2 & T2). split; [congruence|]. intro t. rewrite T2. apply T1.
Qed.
Lemma add_all_only m ts s : only m s (add_all m ts s).
Proof.
  destruct (add_all_spec m ts s) as (A1 & A2 & A3 & A4). split; [exact A1|]. split.
  - intros k Hk. split; [apply A2|]. intro t. rewrite A3. tauto.
  - intro H. apply A4. auto.
Qed.
Lemma add_first_only m i t u : only m (t, u) (fst (add_first t m i), u || snd (add_first t m i)).
Proof. pose proof (add_all_only m [i] (t, u)) as H. cbn [add_all] in H. destruct (add_first t m i) as [a b]. exact H. Qed.
Lemma set_empty_only m t u b : (u = true -> b = true) -> only m (t, u) (fst (set_empty t m), b).
Proof.
  intro Hb. split; [unfold set_empty; simpl; apply update_nth_length|]. split; [|exact Hb]. intros k Hk. cbn [fst]. rewrite flag_empty, terms_empty.
  assert (E : Nat.eqb m k = false) by (apply Nat.eqb_neq; congruence). rewrite E. split; [reflexivity|]. intro x. reflexivity.
Qed.
Lemma first_symbols_only m syms : forall s, only m s (first_symbols ho' m syms s).
Proof.
  induction syms as [|[k|i] syms IH]; intros [t u]; cbn [first_symbols].
  - apply set_empty_only. auto.
  - destruct (fs_empty (get_first t k)); [apply IH|apply add_all_only].
  - pose proof (add_first_only m i t u) as H. destruct (add_first t m i) as [a b]. exact H.
Qed.
Lemma first_production_only m (q : production A') s : only m s (first_production ho' m s q).
Proof.
  unfold first_production. eapply only_trans; [|apply first_symbols_only]. destruct (rhs q); [|apply only_refl].
  destruct s as [t u]. pose proof (set_empty_only m t u (u || snd (set_empty t m))) as H. destruct (set_empty t m) as [a b]. apply H.
  intros ->. reflexivity.
Qed.
Lemma stemb_only m s s1 s2 : (forall n, ~ er n m) -> stemb s s1 -> only m s1 s2 -> stemb s s2.
Proof.
  intros Hm (H & U) (L & HO & U2). split; [|auto]. intros k k' Hk. destruct (H k k' Hk) as (HL & HF & HT).
  assert (Hne : k' <> m) by (intros ->; exact (Hm _ Hk)). destruct (HO k' Hne) as (F2 & T2). rewrite L. split; auto. split; [congruence|]. split.
  - intros i Hi. destruct (proj1 HT i Hi) as (j & Hj & Hin). exists j. split; auto. apply T2. exact Hin.
  - intros j Hj. apply T2 in Hj. exact (proj2 HT j Hj).
Qed.

(** [l'] is [l] with non-terminals added. *)
Inductive nts_emb : list (nat * non_terminal A) -> list (nat * non_terminal A') -> Prop :=
| ne_nil : nts_emb [] []
| ne_keep : forall n N l m M l', er n m -> Forall2 prod_emb (nt_productions N) (nt_productions M) -> nts_emb l l' -> nts_emb ((n, N) :: l) ((m, M) :: l')
| ne_skip : forall l m M l', (forall n, ~ er n m) -> nts_emb l l' -> nts_emb l ((m, M) :: l').
Variable g : grammar A.
Variable g' : grammar A'.
Hypothesis Hg : nts_emb (enumerate (g_nts g)) (enumerate (g_nts g')).

Lemma first_pass_emb t t' : emb t t' -> stemb (first_pass ho g t) (first_pass ho' g' t').
Proof.
  intro Ht. unfold first_pass, non_terminal_indices. assert (Hs : stemb (t, false) (t', false)) by (split; auto).
  revert Hs. generalize (t, false), (t', false). pose proof Hg as G. revert G. generalize (enumerate (g_nts g)), (enumerate (g_nts g')). intros L L' G. induction G as [|n N l m M l' Hnm HN _ IH|l m M l' Hm _ IH]; intros s s' Hs; [exact Hs| |].
  - cbn [fold_left]. apply IH. clear IH. revert s s' Hs.
    induction HN as [|p q ps qs Hpq _ IH]; intros s s' Hs; [exact Hs|]. cbn [fold_left]. apply IH. apply first_production_emb; auto.
  - cbn [fold_left]. apply IH. apply (stemb_only m _ s'); auto. clear IH Hs Hm. revert s'. generalize (nt_productions M).
    intro ps. induction ps as [|q ps IH]; intro s'; [apply only_refl|]. cbn [fold_left]. eapply only_trans; [apply first_production_only|apply IH].
Qed.

(** The sets grow. *)
Lemma first_loop_grows f : forall t r, justified g' t -> first_loop ho' f g' t = Ok r -> tbl_le t r.
Proof.
  induction f as [|f IH]; intros t r Hj H; [discriminate|]. cbn [first_loop] in H.
  destruct (first_pass_ok g' ho' (hok_terms _ Hho') t Hj) as (Htr & _). destruct (first_pass ho' g' t) as [a b].
  destruct b.
  - eapply tbl_le_trans; [exact (to_le _ _ _ Htr)|]. apply IH; auto. exact (to_just _ _ _ Htr Hj).
  - injection H as <-. exact (to_le _ _ _ Htr).
Qed.
Definition emb_le (t t' : first_table) : Prop := forall n m, er n m ->
  (flag t n = true -> flag t' m = true) /\ forall i, In i (terms t n) -> exists j, sr i j /\ In j (terms t' m).
Lemma first_loop_emb f : forall f' t t', emb t t' -> justified g' t' -> forall r r',
  first_loop ho f g t = Ok r -> first_loop ho' f' g' t' = Ok r' -> emb_le r r'.
Proof.
  induction f as [|f IH]; intros f' t t' Ht Hj r r' H H'; [discriminate|]. destruct f' as [|f']; [discriminate|]. cbn [first_loop] in H, H'.
  pose proof (first_pass_emb _ _ Ht) as [H1 H2].
  destruct (first_pass_ok g' ho' (hok_terms _ Hho') t' Hj) as (Htr & _). pose proof (to_just _ _ _ Htr Hj) as Hj'.
  destruct (first_pass ho g t) as [a b], (first_pass ho' g' t') as [a' b']. cbn [fst snd] in *.
  destruct b; [rewrite (H2 eq_refl) in H'; eapply IH; eauto|]. injection H as <-.
  assert (Hle : tbl_le a' r').
  { destruct b'; [eapply first_loop_grows; eauto|]. injection H' as <-. apply tbl_le_refl. }
  intros n m Hnm. destruct (H1 n m Hnm) as (_ & HF & HT). split.
  - intro Hf. apply (proj1 Hle). congruence.
  - intros i Hi. destruct (proj1 HT i Hi) as (j & Hjj & Hin). exists j. split; auto. apply (proj2 Hle). exact Hin.
Qed.
Hypothesis Hlen : forall n m, er n m -> (n < n_non_terminals g <-> m < n_non_terminals g').
Lemma first_table_emb f f' t t' : generate_first_table ho f g = Ok t -> generate_first_table ho' f' g' = Ok t' -> emb_le t t'.
Proof.
  unfold generate_first_table. intros H H'. refine (first_loop_emb _ _ _ _ _ (justified_new g') _ _ H H').
  assert (Hn : forall m k, terms (first_table_new m) k = []).
  { intros m k. unfold terms, get_first, first_table_new. revert k. induction m as [|m IHm]; intros [|k]; cbn; auto. }
  assert (Hf : forall m k, flag (first_table_new m) k = false).
  { intros m k. unfold flag, get_first, first_table_new. revert k. induction m as [|m IHm]; intros [|k]; cbn; auto. }
  intros n m Hnm. rewrite !Hn, !Hf. unfold first_table_new. rewrite !repeat_length. split; [exact (Hlen n m Hnm)|]. split; [reflexivity|].
  split; intros x [].
Qed.
End Embed.

(** ** Lowering a block with more rules *)
Section Owner.
Context {A : Type}.
Variable l : list (ast_non_terminal A).
Hypothesis Hnd : NoDup (map an_name l).
(** The lowered non-terminal [n] comes from the declaration [N]; [b]: it is the one of the entry point. *)
Definition owner (n : nat) (N : ast_non_terminal A) (b : bool) : Prop :=
  exists i, In (N, i) (slots 0 l) /\ (b = false /\ n = i \/ b = true /\ an_pub N = true /\ n = S i).
Lemma owner_skeleton n N b : owner n N b -> exists x, nth_error (skeleton 0 l) n = Some x /\ nt_public x = b.
Proof.
  intros (i & Hi & [(-> & ->)|(-> & Hp & ->)]); destruct (slot_skeleton l _ _ Hi) as (H1 & H2).
  - eexists. split; [exact H1|reflexivity].
  - eexists. split; [exact (H2 Hp)|reflexivity].
Qed.
Lemma owner_unique n N b M c : owner n N b -> owner n M c -> N = M /\ b = c.
Proof.
  intros H H'. assert (E : b = c).
  { destruct (owner_skeleton _ _ _ H) as (x & X1 & X2), (owner_skeleton _ _ _ H') as (y & Y1 & Y2). congruence. }
  split; [|exact E]. subst c. destruct H as (i & Hi & Hb), H' as (j & Hj & Hc). assert (i = j) by (destruct Hb as [(? & ?)|(? & ? & ?)], Hc as [(? & ?)|(? & ? & ?)]; congruence).
  subst j. eapply slots_inj; eauto.
Qed.
Lemma owner_place n m N b : owner n N b -> owner m N b -> n = m.
Proof.
  intros (i & Hi & Hb) (j & Hj & Hc). pose proof (slot_index l Hnd _ _ Hi) as E. rewrite (slot_index l Hnd _ _ Hj) in E. injection E as ->.
  destruct Hb as [(? & ?)|(? & ? & ?)], Hc as [(? & ?)|(? & ? & ?)]; congruence.
Qed.
Lemma owner_In n N b : owner n N b -> In N l.
Proof. intros (i & Hi & _). eapply slots_In; eauto. Qed.
End Owner.

Lemma filter_names {A} keep (l : list (ast_non_terminal A)) : NoDup (map an_name l) -> NoDup (map an_name (filter keep l)).
Proof.
  induction l as [|N l IH]; intro H; [constructor|]. inversion H as [|? ? H1 H2]; subst. cbn. destruct (keep N); auto. cbn. constructor; auto.
  intro Hin. apply H1. apply in_map_iff in Hin. destruct Hin as (M & <- & HM). apply in_map. apply filter_In in HM. tauto.
Qed.
Lemma block_length {A} (N : ast_non_terminal A) k ps : List.length (block N k ps) = width N.
Proof. unfold block, width. destruct (an_pub N); reflexivity. Qed.

Lemma same_nths {X} (l : list X) : forall l', (forall n, nth_error l n = nth_error l' n) -> l = l'.
Proof.
  induction l as [|x l IH]; intros [|y l'] H; [reflexivity|discriminate (H 0)|discriminate (H 0)|].
  f_equal; [injection (H 0); auto|]. apply IH. intro n. exact (H (S n)).
Qed.
Lemma lowered_blocks {A} (l : list (ast_non_terminal A)) cs ti g : NoDup (map an_name l) -> lowered l cs ti g ->
  g_nts g = flat_map (fun y => block (fst y) (snd y) (lprods (nt_indices_of l) ti (fst y))) (slots 0 l).
Proof.
  intros Hnd Hlow. apply same_nths. intro n. rewrite (lo_nts _ _ _ _ Hlow).
  destruct (nth_error (skeleton 0 l) n) as [x|] eqn:E; cbn [option_map].
  - symmetry. destruct (skeleton_inv l _ _ E) as (N & i & Hi & [(-> & ->)|(-> & Hp & ->)]);
      destruct (blocks_nth (fun y => lprods (nt_indices_of l) ti (fst y)) l 0 N i Hi) as (_ & Hb); cbn [fst] in Hb; rewrite Nat.sub_0_r in Hb.
    + replace i with (i + 0) by lia. apply Hb. rewrite Nat.add_0_r. unfold with_prods, block. cbn.
      rewrite (added_body l ti Hnd _ _ Hi). destruct (an_pub N); reflexivity.
    + replace (S i) with (i + 1) by lia. apply Hb. rewrite Nat.add_1_r. unfold with_prods, block. rewrite Hp. cbn. rewrite (added_entry l ti _ _ Hi Hp). reflexivity.
  - apply nth_error_None in E. symmetry. apply nth_error_None.
    assert (HL : forall (f h : ast_non_terminal A * nat -> list (production (lexpr A))) s,
      List.length (flat_map (fun y => block (fst y) (snd y) (f y)) s) = List.length (flat_map (fun y => block (fst y) (snd y) (h y)) s)).
    { intros f h s. induction s as [|y s IH]; cbn; auto. rewrite !app_length, !block_length. congruence. }
    rewrite (HL _ (fun _ => [])). exact E.
Qed.

Section Rules.
Context {A : Type}.
Variable keep : ast_non_terminal A -> bool.
Variable ns' : list (ast_non_terminal A).
Notation ns := (filter keep ns').
Hypothesis Hnd' : NoDup (map an_name ns').
Variables cs cs' : list conversion.
Variables ti ti' : list (string * nat).
Variables g g' : grammar (lexpr A).
Hypothesis Hlow : lowered ns cs ti g.
Hypothesis Hlow' : lowered ns' cs' ti' g'.
Notation ni := (nt_indices_of ns). Notation ni' := (nt_indices_of ns').
Notation se := (EntryProofs.same_entry cs cs').
Let Hnd : NoDup (map an_name ns) := filter_names keep ns' Hnd'.

Definition same_nt (n m : nat) : Prop := exists N b, owner ns n N b /\ owner ns' m N b.
Lemma same_nt_fun i j j' : same_nt i j -> same_nt i j' -> j = j'.
Proof.
  intros (N & b & H1 & H2) (M & c & H3 & H4). destruct (owner_unique _ _ _ _ _ _ H1 H3) as (-> & ->). exact (owner_place _ Hnd' _ _ _ _ H2 H4).
Qed.
Lemma same_nt_inj i i' j : same_nt i j -> same_nt i' j -> i = i'.
Proof.
  intros (N & b & H1 & H2) (M & c & H3 & H4). destruct (owner_unique _ _ _ _ _ _ H2 H4) as (-> & ->). exact (owner_place _ Hnd _ _ _ _ H1 H3).
Qed.
Lemma same_names N M : In N ns' -> In M ns' -> an_name N = an_name M -> N = M.
Proof.
  clear - Hnd'. revert Hnd'. generalize ns'. intro l. induction l as [|x l IH]; cbn; intros H Ha Hb E; [contradiction|]. inversion H as [|? ? H1 H2]; subst.
  destruct Ha as [->|Ha], Hb as [->|Hb]; auto.
  - exfalso. apply H1. rewrite E. apply in_map; auto.
  - exfalso. apply H1. rewrite <- E. apply in_map; auto.
Qed.
Lemma same_nt_names nm i j : map_get String.eqb nm ni = Some i -> map_get String.eqb nm ni' = Some j -> same_nt i j.
Proof.
  intros Hi Hj. destruct (nt_indices_inv _ _ _ Hi) as (N & HN & EN), (nt_indices_inv _ _ _ Hj) as (M & HM & EM).
  assert (N = M). { apply same_names; [|eapply slots_In; eauto|congruence]. apply slots_In in HN. apply filter_In in HN. tauto. }
  subst M. exists N, false. split; eexists; eauto.
Qed.
Lemma lower_symbol_emb s x y : lower_symbol ni ti None s = Ok x -> lower_symbol ni' ti' None s = Ok y ->
  sym_emb se same_nt (bs_symbol x) (bs_symbol y).
Proof.
  intros Hx Hy. pose proof (lower_symbol_spec ns cs ti _ s (lo_ti _ _ _ _ Hlow) None) as S. rewrite Hx in S.
  pose proof (lower_symbol_spec ns' cs' ti' _ s (lo_ti _ _ _ _ Hlow') None) as S'. rewrite Hy in S'.
  destruct S as (_ & _ & S), S' as (_ & _ & S'). destruct (unnamed s) as [t|n|op s0|b s0]; try contradiction.
  - destruct S as (i & H1 & ->), S' as (j & H2 & ->). cbn. exists t. auto.
  - destruct S as (i & H1 & ->), S' as (j & H2 & ->). cbn. eapply same_nt_names; eauto.
Qed.
Lemma lprods_emb N : In N ns -> Forall2 (prod_emb se same_nt) (lprods ni ti N) (lprods ni' ti' N).
Proof.
  intro HN. destruct (lo_prods _ _ _ _ Hlow N HN) as (ps & Hps).
  assert (HN' : In N ns') by (apply filter_In in HN; tauto). destruct (lo_prods _ _ _ _ Hlow' N HN') as (ps' & Hps').
  unfold lprods. rewrite Hps, Hps'. refine (EntryProofs.mapM_same _ _ _ _ _ _ _ Hps Hps'). clear - Hlow Hlow' Hnd'.
  intros p q q' Hq Hq'. unfold lprod, prod_emb, rhs in *.
  destruct (mapM (lower_symbol ni ti None) (ap_symbols p)) as [ss| |] eqn:E; try discriminate.
  destruct (mapM (lower_symbol ni' ti' None) (ap_symbols p)) as [ss'| |] eqn:E'; try discriminate. cbn [bind] in Hq, Hq'.
  destruct (ap_action p); try discriminate. injection Hq as <-. injection Hq' as <-. cbn [p_symbols].
  pose proof (EntryProofs.mapM_same _ _ _ _ lower_symbol_emb _ _ E E') as HF. clear - HF. induction HF; cbn; constructor; auto.
Qed.
Definition enum {X} (k : nat) (l : list X) : list (nat * X) := combine (seq k (List.length l)) l.
Notation blocks := (flat_map (fun y => block (fst y) (snd y) (lprods ni ti (fst y)))).
Notation blocks' := (flat_map (fun y => block (fst y) (snd y) (lprods ni' ti' (fst y)))).
Lemma blocks_emb l' : forall k k', (forall N, In N l' -> In N ns') ->
  (forall N i, In (N, i) (slots k (filter keep l')) -> In (N, i) (slots 0 ns)) -> (forall N i, In (N, i) (slots k' l') -> In (N, i) (slots 0 ns')) ->
  nts_emb se same_nt (enum k (blocks (slots k (filter keep l')))) (enum k' (blocks' (slots k' l'))).
Proof.
  induction l' as [|N l' IH]; intros k k' Hin Hs Hs'; [constructor|].
  assert (H' : In (N, k') (slots 0 ns')) by (apply Hs'; left; reflexivity).
  assert (HE : entry_production (A := A) k = entry_production k) by reflexivity.
  cbn [filter] in *. destruct (keep N) eqn:Ek.
  - assert (H0 : In (N, k) (slots 0 ns)) by (apply Hs; left; reflexivity). cbn [slots flat_map fst snd].
    assert (HN : In N ns) by (eapply slots_In; eauto). assert (Hb : same_nt k k') by (exists N, false; split; eexists; eauto).
    specialize (IH (k + width N) (k' + width N) (fun M HM => Hin M (or_intror HM)) (fun M i HM => Hs M i (or_intror HM)) (fun M i HM => Hs' M i (or_intror HM))).
    unfold block. destruct (an_pub N) eqn:Ep.
    + assert (Hw : width N = 2) by (unfold width; rewrite Ep; reflexivity). rewrite Hw in *.
      replace (k + 2) with (S (S k)) in * by lia. replace (k' + 2) with (S (S k')) in * by lia.
      assert (Hb2 : same_nt (S k) (S k')) by (exists N, true; split; [exists k|exists k']; auto).
      cbn [app]. unfold enum. cbn [List.length seq combine]. apply ne_keep; [exact Hb|apply lprods_emb; exact HN|].
      apply ne_keep; [exact Hb2| |exact IH]. cbn [nt_of nt_productions]. constructor; [|constructor].
      unfold prod_emb, rhs, entry_production. cbn. repeat constructor. exact Hb.
    + assert (Hw : width N = 1) by (unfold width; rewrite Ep; reflexivity). rewrite Hw in *.
      replace (k + 1) with (S k) in * by lia. replace (k' + 1) with (S k') in * by lia.
      cbn [app]. unfold enum. cbn [List.length seq combine]. apply ne_keep; [exact Hb|apply lprods_emb; exact HN|exact IH].
  - cbn [slots flat_map fst snd].
    specialize (IH k (k' + width N) (fun M HM => Hin M (or_intror HM)) Hs (fun M i HM => Hs' M i (or_intror HM))).
    assert (Hno : forall n m b, owner ns' m N b -> ~ same_nt n m).
    { intros n m b Ho (M & c & HM & HM'). destruct (owner_unique _ _ _ _ _ _ Ho HM') as (<- & _). apply owner_In in HM. apply filter_In in HM. destruct HM. congruence. }
    assert (Hn1 : forall n, ~ same_nt n k') by (intro n; apply (Hno n k' false); exists k'; auto).
    unfold block. destruct (an_pub N) eqn:Ep.
    + assert (Hw : width N = 2) by (unfold width; rewrite Ep; reflexivity). rewrite Hw in *.
      replace (k' + 2) with (S (S k')) in * by lia. assert (Hn2 : forall n, ~ same_nt n (S k')) by (intro n; apply (Hno n (S k') true); exists k'; auto).
      cbn [app]. unfold enum at 2. cbn [List.length seq combine]. apply ne_skip; [exact Hn1|]. apply ne_skip; [exact Hn2|exact IH].
    + assert (Hw : width N = 1) by (unfold width; rewrite Ep; reflexivity). rewrite Hw in *.
      replace (k' + 1) with (S k') in * by lia. cbn [app]. unfold enum at 2. cbn [List.length seq combine]. apply ne_skip; [exact Hn1|exact IH].
Qed.
Lemma lowered_emb : nts_emb se same_nt (enumerate (g_nts g)) (enumerate (g_nts g')).
Proof.
  rewrite (lowered_blocks ns cs ti g Hnd Hlow), (lowered_blocks ns' cs' ti' g' Hnd' Hlow').
  exact (blocks_emb ns' 0 0 (fun _ H => H) (fun _ _ H => H) (fun _ _ H => H)).
Qed.
Lemma same_nt_there n m : same_nt n m -> (n < n_non_terminals g <-> m < n_non_terminals g').
Proof.
  intros (N & b & H & H'). destruct (owner_skeleton _ _ _ _ H) as (x & X & _), (owner_skeleton _ _ _ _ H') as (y & Y & _).
  assert (n < n_non_terminals g).
  { unfold n_non_terminals. apply nth_error_Some. rewrite (lo_nts _ _ _ _ Hlow), X. discriminate. }
  assert (m < n_non_terminals g').
  { unfold n_non_terminals. apply nth_error_Some. rewrite (lo_nts _ _ _ _ Hlow'), Y. discriminate. }
  tauto.
Qed.
End Rules.

(** ** The computed sets *)
Theorem computed_grows {A} (items items' : list (grammar_item A)) keep :
  declared_nts items = filter keep (declared_nts items') -> distinct_names items' ->
  supported (declared_nts items) (token_entries items) -> supported (declared_nts items') (token_entries items') ->
  forall n, In n (map an_name (declared_nts items)) ->
  (f_empty (computed items) n -> f_empty (computed items') n) /\ forall t, f_terms (computed items) n t -> f_terms (computed items') n t.
Proof.
  intros Hnts Hn' Hs Hs' n HIn. assert (Hn : distinct_names items) by (unfold distinct_names; rewrite Hnts; apply filter_names; exact Hn').
  destruct (stages_exist items Hs) as (g & tbl & states & entries & Hst).
  destruct (stages_exist items' Hs') as (g' & tbl' & states' & entries' & Hst').
  destruct (stages_data items _ _ _ _ Hst) as (ti & Hlow & _). destruct (stages_data items' _ _ _ _ Hst') as (ti' & Hlow' & _).
  assert (Ht : emb_le (EntryProofs.same_entry (token_entries items) (token_entries items')) (same_nt keep (declared_nts items')) tbl tbl').
  { destruct Hst as (ho & f & Hho & _ & Hf & _), Hst' as (ho' & f' & Hho' & _ & Hf' & _). rewrite Hnts in Hlow.
    exact (first_table_emb _ _ (same_entry_fun _ _ _ _ _ Hlow') (same_entry_inj _ _ _ _ _ Hlow) (same_nt_fun keep _ Hn') (same_nt_inj keep _ Hn')
      ho ho' Hho Hho' g g' (lowered_emb keep _ Hn' _ _ _ _ _ _ Hlow Hlow') (same_nt_there keep _ _ _ _ _ _ _ Hlow Hlow') f f' tbl tbl' Hf Hf'). }
  assert (Hni : exists m, map_get String.eqb n (nt_indices_of (declared_nts items')) = Some m).
  { destruct (nt_indices_some (declared_nts items') n) as (N & m & _ & _ & H); [|eauto]. rewrite Hnts in HIn. apply in_map_iff in HIn.
    destruct HIn as (N & <- & HN). apply filter_In in HN. apply in_map. tauto. }
  destruct Hni as (m & Hm).
  assert (Hnm : forall i, map_get String.eqb n (nt_indices_of (declared_nts items)) = Some i -> same_nt keep (declared_nts items') i m).
  { intros i Hi. rewrite Hnts in Hi. exact (same_nt_names keep _ Hn' n i m Hi Hm). }
  rewrite (computed_empty items Hn _ _ _ _ Hst), (computed_empty items' Hn' _ _ _ _ Hst'). split.
  - intros (i & Hi & Hf). exists m. split; auto. exact (proj1 (Ht _ _ (Hnm i Hi)) Hf).
  - intro t. rewrite (computed_terms items Hn _ _ _ _ Hst), (computed_terms items' Hn' _ _ _ _ Hst').
    intros (i & j & Hi & Hj & Htt). destruct (proj2 (Ht _ _ (Hnm i Hi)) j Hj) as (j' & (t' & E1 & E2) & Hin).
    exists m, j'. split; auto. split; auto. congruence.
Qed.
