(** * EntryProofs: the order of token entries, and entries that no production uses, do not matter *)
From Verif Require Export PropertiesComputed EntrySpec.
From Verif Require Import Determinism LocalProofs LowerAlike Lookahead ComputedProofs StageProofs.
From Coq Require Import Permutation.
Local Open Scope list_scope.

(** ** FIRST tables of grammars that differ in the numbers of their terminals *)
Section Renumber.
Variable sr : nat -> nat -> Prop.
Hypothesis sr_fun : forall i j j', sr i j -> sr i j' -> j = j'.
Hypothesis sr_inj : forall i i' j, sr i j -> sr i' j -> i = i'.

Definition lsame (l l' : list nat) : Prop :=
  (forall i, In i l -> exists j, sr i j /\ In j l') /\ (forall j, In j l' -> exists i, sr i j /\ In i l).
Definition tsame (t t' : first_table) : Prop :=
  List.length t = List.length t' /\ forall n, flag t n = flag t' n /\ lsame (terms t n) (terms t' n).
Definition stsame (s s' : first_table * bool) : Prop := tsame (fst s) (fst s') /\ snd s = snd s'.
Definition sym_same (X Y : symbol) : Prop :=
  match X, Y with NT n, NT m => n = m | T i, T j => sr i j | _, _ => False end.

Lemma lsame_mem l l' i j : lsame l l' -> sr i j -> (In i l <-> In j l').
Proof.
  intros (H1 & H2) Hij. split; intro H.
  - destruct (H1 i H) as (j' & Hj & Hin). rewrite (sr_fun _ _ _ Hij Hj). exact Hin.
  - destruct (H2 j H) as (i' & Hi & Hin). rewrite (sr_inj _ _ _ Hij Hi). exact Hin.
Qed.
Lemma lsame_perm l l' m m' : Permutation m l -> Permutation m' l' -> lsame l l' -> lsame m m'.
Proof.
  intros P P' (H1 & H2). split; intros x Hx.
  - apply (Permutation_in _ P) in Hx. destruct (H1 x Hx) as (y & Hy & Hin). exists y. split; auto. apply (Permutation_in _ (Permutation_sym P')). exact Hin.
  - apply (Permutation_in _ P') in Hx. destruct (H2 x Hx) as (y & Hy & Hin). exists y. split; auto. apply (Permutation_in _ (Permutation_sym P)). exact Hin.
Qed.

Lemma add_all_same nt ts ts' s s' : lsame ts ts' -> stsame s s' -> stsame (add_all nt ts s) (add_all nt ts' s').
Proof.
  intros Ht [[L H] U].
  destruct (add_all_spec nt ts s) as (A1 & A2 & A3 & A4). destruct (add_all_spec nt ts' s') as (B1 & B2 & B3 & B4).
  split.
  - split; [congruence|]. intro n. rewrite A2, B2. split; [apply H|]. split.
    + intros i Hi. apply A3 in Hi. destruct Hi as [Hi|(-> & Hl & Hi)].
      * destruct (proj1 (proj2 (H n)) i Hi) as (j & Hj & Hin). exists j. split; auto. apply B3. auto.
      * destruct (proj1 Ht i Hi) as (j & Hj & Hin). exists j. split; auto. apply B3. right. rewrite <- L. auto.
    + intros j Hj. apply B3 in Hj. destruct Hj as [Hj|(-> & Hl & Hj)].
      * destruct (proj2 (proj2 (H n)) j Hj) as (i & Hi & Hin). exists i. split; auto. apply A3. auto.
      * destruct (proj2 Ht j Hj) as (i & Hi & Hin). exists i. split; auto. apply A3. right. rewrite L. auto.
  - apply bool_ext. rewrite A4, B4, U. split; (intros [?|(t & H1 & H2)]; [auto|right]).
    + destruct (proj1 Ht t H1) as (j & Hj & Hin). exists j. split; auto. intro Hc. apply H2. apply (lsame_mem _ _ _ _ (proj2 (H nt)) Hj). exact Hc.
    + destruct (proj2 Ht t H1) as (i & Hi & Hin). exists i. split; auto. intro Hc. apply H2. apply (lsame_mem _ _ _ _ (proj2 (H nt)) Hi). exact Hc.
Qed.
Lemma add_first_same t t' nt i j : sr i j -> tsame t t' -> stsame (add_first t nt i) (add_first t' nt j).
Proof.
  intros Hij Ht. assert (Hs : stsame (t, false) (t', false)) by (split; auto).
  assert (Hl : lsame [i] [j]).
  { split; intros x [<-|[]]; eexists; split; eauto; left; reflexivity. }
  pose proof (add_all_same nt [i] [j] _ _ Hl Hs) as H. cbn [add_all] in H.
  destruct (add_first t nt i) as [a b], (add_first t' nt j) as [a' b']. exact H.
Qed.
Lemma set_empty_same t t' nt : tsame t t' -> stsame (set_empty t nt) (set_empty t' nt).
Proof.
  intros [L H]. split.
  - split; [unfold set_empty; simpl; rewrite !update_nth_length; auto|].
    intro n. rewrite !flag_empty, !terms_empty, L. split; [|apply H].
    destruct (_ && _); [reflexivity|apply H].
  - unfold set_empty; simpl. f_equal. apply H.
Qed.

Context {A A' : Type}.
Variables ho ho' : hash_order.
Hypothesis Hho : hash_order_ok ho.
Hypothesis Hho' : hash_order_ok ho'.

Lemma first_symbols_same nt syms syms' : Forall2 sym_same syms syms' -> forall s s', stsame s s' ->
  stsame (first_symbols ho nt syms s) (first_symbols ho' nt syms' s').
Proof.
  induction 1 as [|X Y syms syms' HXY _ IH]; intros [t u] [t' u'] [Ht Hu]; cbn [fst snd] in Ht, Hu; subst u'.
  - cbn [first_symbols]. destruct (set_empty_same _ _ nt Ht) as [H _]. split; auto.
  - destruct X as [n|i], Y as [m|j]; cbn [sym_same] in HXY; try contradiction; cbn [first_symbols].
    + subst m. pose proof (proj2 Ht n) as [Hf Hl].
      change (fs_empty (get_first t n)) with (flag t n). change (fs_empty (get_first t' n)) with (flag t' n). rewrite Hf.
      destruct (flag t' n); [apply IH; split; auto|]. apply add_all_same; [|split; auto].
      exact (lsame_perm _ _ _ _ (hok_terms _ Hho _) (hok_terms _ Hho' _) Hl).
    + pose proof (add_first_same _ _ nt _ _ HXY Ht) as [H1 H2].
      destruct (add_first t nt i) as [a b], (add_first t' nt j) as [a' b']. cbn [fst snd] in *. split; cbn [fst snd]; [auto|congruence].
Qed.

Definition prod_same (p : production A) (q : production A') : Prop := Forall2 sym_same (rhs p) (rhs q).
Definition nt_same (N : non_terminal A) (M : non_terminal A') : Prop := Forall2 prod_same (nt_productions N) (nt_productions M).
Variable g : grammar A.
Variable g' : grammar A'.
Hypothesis Hg : Forall2 nt_same (g_nts g) (g_nts g').

Lemma first_production_same nt p q s s' : prod_same p q -> stsame s s' -> stsame (first_production ho nt s p) (first_production ho' nt s' q).
Proof.
  intros Hp Hs. unfold first_production. apply first_symbols_same; auto. unfold prod_same in Hp.
  inversion Hp as [|X Y l l' _ _ E1 E2]; auto.
  destruct s as [t u], s' as [t' u']. destruct Hs as [Ht Hu]. cbn [fst snd] in *.
  pose proof (set_empty_same _ _ nt Ht) as [H1 H2].
  destruct (set_empty t nt) as [a b], (set_empty t' nt) as [a' b']. cbn [fst snd] in *. split; cbn [fst snd]; [auto|congruence].
Qed.
Lemma enumerate_same {X Y} (R : X -> Y -> Prop) l l' : Forall2 R l l' ->
  Forall2 (fun x y => fst x = fst y /\ R (snd x) (snd y)) (enumerate l) (enumerate l').
Proof.
  unfold enumerate. intro H. generalize 0.
  induction H as [|x y l l' Hxy _ IH]; intro k; cbn; constructor; auto.
Qed.
Lemma first_pass_same t t' : tsame t t' -> stsame (first_pass ho g t) (first_pass ho' g' t').
Proof.
  intro Ht. unfold first_pass. assert (Hs : stsame (t, false) (t', false)) by (split; auto).
  revert Hs. generalize (t, false), (t', false). unfold non_terminal_indices.
  induction (enumerate_same _ _ _ Hg) as [|[n N] [m M] l l' [E HN] _ IH]; intros s s' Hs; [exact Hs|].
  cbn [fold_left]. apply IH. clear IH. cbn [fst snd] in E, HN. subst m. revert s s' Hs. unfold nt_same in HN.
  induction HN as [|p q ps qs Hpq _ IH]; intros s s' Hs; [exact Hs|]. cbn [fold_left]. apply IH. apply first_production_same; auto.
Qed.
Lemma first_loop_same f : forall f' t t', tsame t t' -> forall r r', first_loop ho f g t = Ok r -> first_loop ho' f' g' t' = Ok r' -> tsame r r'.
Proof.
  induction f as [|f IH]; intros f' t t' Ht r r' H H'; [discriminate|]. destruct f' as [|f']; [discriminate|]. cbn [first_loop] in H, H'.
  pose proof (first_pass_same _ _ Ht) as [H1 H2].
  destruct (first_pass ho g t) as [a b], (first_pass ho' g' t') as [a' b']. cbn [fst snd] in *. subst b'.
  destruct b; [eapply IH; eauto|]. injection H as <-. injection H' as <-. exact H1.
Qed.
Lemma first_table_same f f' t t' : generate_first_table ho f g = Ok t -> generate_first_table ho' f' g' = Ok t' -> tsame t t'.
Proof.
  unfold generate_first_table. assert (E : n_non_terminals g = n_non_terminals g').
  { unfold n_non_terminals. clear - Hg. induction Hg; cbn; auto. }
  rewrite E. apply first_loop_same. split; [reflexivity|]. intro n. split; [reflexivity|].
  assert (Hn : forall m k, terms (first_table_new m) k = []).
  { intros m k. unfold terms, get_first, first_table_new. revert k. induction m as [|m IHm]; intros [|k]; cbn; auto. }
  rewrite Hn. split; intros x [].
Qed.
End Renumber.

(** ** Lowering with other token entries *)
Section Lowering.
Context {A : Type}.
Variable nts : list (ast_non_terminal A).
Variables cs cs' : list conversion.
Variables ti ti' : list (string * nat).
Variables g g' : grammar (lexpr A).
Hypothesis Hlow : lowered nts cs ti g.
Hypothesis Hlow' : lowered nts cs' ti' g'.

Definition same_entry (i j : nat) : Prop :=
  exists t, nth_error (map cv_from cs) i = Some t /\ nth_error (map cv_from cs') j = Some t.
Lemma entry_unique (l : list conversion) i i' (t : string) : NoDup (map cv_from l) ->
  nth_error (map cv_from l) i = Some t -> nth_error (map cv_from l) i' = Some t -> i = i'.
Proof.
  intros Hnd Hi Hi'. apply (proj1 (NoDup_nth_error (map cv_from l)) Hnd); [|congruence].
  apply nth_error_Some. congruence.
Qed.
Lemma same_entry_fun i j j' : same_entry i j -> same_entry i j' -> j = j'.
Proof.
  intros (t & H1 & H2) (t' & H1' & H2'). assert (t = t') by congruence. subst t'.
  exact (entry_unique cs' _ _ t (ti_dup _ _ _ (lo_ti _ _ _ _ Hlow')) H2 H2').
Qed.
Lemma same_entry_inj i i' j : same_entry i j -> same_entry i' j -> i = i'.
Proof.
  intros (t & H1 & H2) (t' & H1' & H2'). assert (t = t') by congruence. subst t'.
  exact (entry_unique cs _ _ t (ti_dup _ _ _ (lo_ti _ _ _ _ Hlow)) H1 H1').
Qed.

Notation ni := (nt_indices_of nts).
Lemma lower_symbol_same s x y : lower_symbol ni ti None s = Ok x -> lower_symbol ni ti' None s = Ok y ->
  sym_same same_entry (bs_symbol x) (bs_symbol y).
Proof.
  intros Hx Hy. pose proof (lower_symbol_spec nts cs ti _ s (lo_ti _ _ _ _ Hlow) None) as S. rewrite Hx in S.
  pose proof (lower_symbol_spec nts cs' ti' _ s (lo_ti _ _ _ _ Hlow') None) as S'. rewrite Hy in S'.
  destruct S as (_ & _ & S), S' as (_ & _ & S'). destruct (unnamed s) as [t|n|op s0|b s0]; try contradiction.
  - destruct S as (i & H1 & ->), S' as (j & H2 & ->). cbn. exists t. auto.
  - destruct S as (i & H1 & ->), S' as (j & H2 & ->). cbn. congruence.
Qed.
Lemma mapM_same {X Y Z} (R : Y -> Z -> Prop) (f : X -> res Y) (h : X -> res Z) l :
  (forall x y z, f x = Ok y -> h x = Ok z -> R y z) -> forall l1 l2, mapM f l = Ok l1 -> mapM h l = Ok l2 -> Forall2 R l1 l2.
Proof.
  intro H. induction l as [|x l IH]; intros l1 l2 H1 H2; cbn [mapM] in H1, H2.
  - injection H1 as <-. injection H2 as <-. constructor.
  - destruct (f x) as [y| |] eqn:Ef; try discriminate. destruct (h x) as [z| |] eqn:Eh; try discriminate. cbn [bind] in H1, H2.
    destruct (mapM f l) as [ys| |]; try discriminate. destruct (mapM h l) as [zs| |]; try discriminate. cbn [bind] in H1, H2.
    injection H1 as <-. injection H2 as <-. constructor; eauto.
Qed.
Lemma lprod_same (p : ast_production A) q q' : lprod ni ti p = Ok q -> lprod ni ti' p = Ok q' -> prod_same same_entry q q'.
Proof.
  unfold lprod, prod_same, rhs. intros Hq Hq'.
  destruct (mapM (lower_symbol ni ti None) (ap_symbols p)) as [ss| |] eqn:E; try discriminate.
  destruct (mapM (lower_symbol ni ti' None) (ap_symbols p)) as [ss'| |] eqn:E'; try discriminate. cbn [bind] in Hq, Hq'.
  destruct (ap_action p); try discriminate. injection Hq as <-. injection Hq' as <-. cbn [p_symbols].
  pose proof (mapM_same _ _ _ _ lower_symbol_same _ _ E E') as HF. clear - HF. induction HF; cbn; constructor; auto.
Qed.
Lemma lprods_same N : In N nts -> Forall2 (prod_same same_entry) (lprods ni ti N) (lprods ni ti' N).
Proof.
  intro HN. destruct (lo_prods _ _ _ _ Hlow N HN) as (ps & Hps). destruct (lo_prods _ _ _ _ Hlow' N HN) as (ps' & Hps').
  unfold lprods. rewrite Hps, Hps'. exact (mapM_same _ _ _ _ lprod_same _ _ Hps Hps').
Qed.
Lemma added_same n : Forall2 (prod_same same_entry) (added ni ti nts n) (added ni ti' nts n).
Proof.
  unfold added. assert (H : forall l, (forall N, In N l -> In N nts) ->
    Forall2 (prod_same same_entry)
      (flat_map (fun N => if opt_nat_eqb (map_get String.eqb (an_name N) ni) (Some n) then lprods ni ti N else []) l)
      (flat_map (fun N => if opt_nat_eqb (map_get String.eqb (an_name N) ni) (Some n) then lprods ni ti' N else []) l)); [|apply H; auto].
  induction l as [|N l IH]; intro Hl; cbn; [constructor|]. apply Forall2_app; [|apply IH; intros; apply Hl; right; auto].
  destruct (opt_nat_eqb _ _); [|constructor]. apply lprods_same. apply Hl. left. reflexivity.
Qed.
Lemma skeleton_same k (l : list (ast_non_terminal A)) : Forall (fun N => Forall2 (prod_same same_entry) (nt_productions N) (nt_productions N)) (skeleton k l).
Proof.
  unfold skeleton. revert k. induction l as [|N l IH]; intro k; cbn; [constructor|]. apply Forall_app. split; [|apply IH].
  unfold block. destruct (an_pub N); repeat constructor.
Qed.
Lemma Forall2_by_nth {X Y} (R : X -> Y -> Prop) : forall l l',
  (forall n, match nth_error l n, nth_error l' n with Some x, Some y => R x y | None, None => True | _, _ => False end) -> Forall2 R l l'.
Proof.
  induction l as [|x l IH]; intros [|y l'] H; [constructor| | |].
  - destruct (H 0).
  - destruct (H 0).
  - constructor; [exact (H 0)|]. apply IH. intro n. exact (H (S n)).
Qed.
Lemma lowered_same : Forall2 (nt_same same_entry) (g_nts g) (g_nts g').
Proof.
  apply Forall2_by_nth. intro n. rewrite (lo_nts _ _ _ _ Hlow), (lo_nts _ _ _ _ Hlow').
  destruct (nth_error (skeleton 0 nts) n) as [N|] eqn:E; cbn [option_map]; auto.
  unfold nt_same, with_prods, nt_of. cbn [nt_productions]. apply Forall2_app; [|apply added_same].
  pose proof (skeleton_same 0 nts) as H. rewrite Forall_forall in H. apply H. eapply nth_error_In; eauto.
Qed.
End Lowering.

(** ** The computed FIRST sets *)
Definition fsets_same (F F' : fsets) : Prop := (forall n, f_empty F n <-> f_empty F' n) /\ (forall n t, f_terms F n t <-> f_terms F' n t).
Lemma ffirst_same F F' l la x : fsets_same F F' -> ffirst F l la x -> ffirst F' l la x.
Proof.
  intros (H1 & H2). induction 1 as [la|t r la|n r la t H|n r la x H _ IH]; [constructor|constructor|apply ff_nt; apply H2; exact H|].
  apply ff_skip; auto. apply H1. exact H.
Qed.
Lemma fsets_sym F F' : fsets_same F F' -> fsets_same F' F.
Proof. intros (H1 & H2). split; intros; symmetry; auto. Qed.

Section Computed.
Context {A : Type}.
Variables items items' : list (grammar_item A).
Hypothesis Hnts : declared_nts items = declared_nts items'.
Hypothesis Hn : distinct_names items.
Hypothesis Hs : supported (declared_nts items) (token_entries items).
Hypothesis Hs' : supported (declared_nts items') (token_entries items').

Lemma names_same : distinct_names items'.
Proof. unfold distinct_names in *. rewrite <- Hnts. exact Hn. Qed.
Lemma computed_same : fsets_same (computed items) (computed items').
Proof.
  destruct (stages_exist items Hs) as (g & tbl & states & entries & Hst).
  destruct (stages_exist items' Hs') as (g' & tbl' & states' & entries' & Hst').
  destruct (stages_data items _ _ _ _ Hst) as (ti & Hlow & _ & _ & Hso & _).
  destruct (stages_data items' _ _ _ _ Hst') as (ti' & Hlow' & _ & _ & Hso' & _).
  assert (Ht : tsame (same_entry (token_entries items) (token_entries items')) tbl tbl').
  { destruct Hst as (ho & f & Hho & _ & Hf & _), Hst' as (ho' & f' & Hho' & _ & Hf' & _). rewrite <- Hnts in Hlow'.
    exact (first_table_same _ (same_entry_fun _ _ _ _ _ Hlow') (same_entry_inj _ _ _ _ _ Hlow)
      ho ho' Hho Hho' g g' (lowered_same _ _ _ _ _ _ _ Hlow Hlow') f f' tbl tbl' Hf Hf'). }
  pose proof (computed_empty items Hn _ _ _ _ Hst) as E. pose proof (computed_empty items' names_same _ _ _ _ Hst') as E'.
  pose proof (computed_terms items Hn _ _ _ _ Hst) as T. pose proof (computed_terms items' names_same _ _ _ _ Hst') as T'.
  rewrite <- Hnts in E', T'. split.
  - intro n. rewrite E, E'. split; intros (i & H1 & H2); exists i; (split; [exact H1|]); pose proof (proj1 (proj2 Ht i)); congruence.
  - intros n t. rewrite T, T'. split; intros (i & j & H1 & H2 & H3); exists i.
    + destruct (proj1 (proj2 (proj2 Ht i)) j H2) as (j' & (t' & Hj & Hj') & Hin). exists j'. split; auto. split; auto. congruence.
    + destruct (proj2 (proj2 (proj2 Ht i)) j H2) as (j' & (t' & Hj & Hj') & Hin). exists j'. split; auto. split; auto. congruence.
Qed.
End Computed.

(** ** Machines over the same rules *)
Section Used.
Context {A : Type}.
Variable nts : list (ast_non_terminal A).
Lemma uproduction_used n p pr t : uproduction nts n p = Some pr -> In (ASTerminal t) (body pr) -> mentioned nts t.
Proof.
  unfold uproduction. destruct (find _ nts) as [N|] eqn:E; [|discriminate]. intros Hp Ht. apply find_some in E. destruct E as (HN & _).
  exists N, pr. split; auto. split; auto. eapply nth_error_In; eauto.
Qed.
Lemma derives_used l r t : uderives nts l r -> In (ASTerminal t) r -> In (ASTerminal t) l \/ mentioned nts t.
Proof.
  induction 1 as [l|l m r Hd _ IH]; auto. intro Ht. destruct (IH Ht) as [H|H]; auto. destruct Hd as [a n p pr b Hp].
  apply in_app_or in H. destruct H as [H|H]; [left; apply in_or_app; auto|]. apply in_app_or in H.
  destruct H as [H|H]; [right; exact (uproduction_used _ _ _ _ Hp H)|left; apply in_or_app; right; right; auto].
Qed.
Lemma supported_used cs t : supported nts cs -> mentioned nts t -> In t (map cv_from cs).
Proof.
  intros (_ & _ & H) (N & pr & HN & Hpr & Ht). destruct (H N pr HN Hpr) as (Hsym & _). unfold body in Ht. apply in_map_iff in Ht.
  destruct Ht as (s & Es & Hs). rewrite Forall_forall in Hsym. specialize (Hsym s Hs). unfold symbol_ok in Hsym. rewrite Es in Hsym. exact Hsym.
Qed.
Variable F : fsets.
Hypothesis HF : first_sets nts F.
Lemma ffirst_used l la t : ffirst F l la (Some t) -> In (ASTerminal t) l \/ mentioned nts t \/ la = Some t.
Proof.
  remember (Some t) as x eqn:Ex. induction 1 as [la|t' r la|n r la t' H|n r la x H _ IH]; subst; auto.
  - injection Ex as ->. left. left. reflexivity.
  - injection Ex as ->. destruct (fst_terms _ _ HF _ _ H) as (r' & Hr). destruct (derives_used _ _ t Hr) as [[E|[]]|Hu]; [left; auto|discriminate|auto].
  - destruct (IH eq_refl) as [H'|[H'|H']]; auto. left. right. exact H'.
Qed.
Lemma urhs_used S lhs p l t : urhs nts S lhs p = Some l -> In (ASTerminal t) l -> mentioned nts t.
Proof.
  destruct lhs as [n|]; cbn.
  - destruct (uproduction nts n p) as [pr|] eqn:E; [|discriminate]. intro H; injection H as <-. exact (uproduction_used _ _ _ _ E).
  - destruct (Nat.eqb p 0); [|discriminate]. intro H; injection H as <-. intros [H|[]]. discriminate.
Qed.
Lemma valid_used S gamma lhs p k la t : uvalid_by nts (ffirst F) S gamma lhs p k la -> la = Some t -> mentioned nts t.
Proof.
  intro H. revert t. induction H as [|gamma lhs p k la l C q l' x Hv IH Hr Hn Hq Hf|gamma lhs p k la l X Hv IH Hr Hn]; intros t E; auto; [discriminate|].
  subst x. apply ffirst_used in Hf. destruct Hf as [Hf|[Hf|Hf]]; auto.
  apply (urhs_used S lhs p l t Hr). rewrite <- (firstn_skipn (k + 1) l). apply in_or_app. auto.
Qed.
(** A listed token is used. *)
Lemma unused_blocked S gamma t : ~ mentioned nts t -> kblocked_by nts (ffirst F) S gamma (Some t).
Proof.
  intro Hu. split; [|split].
  - intros (t' & E & lhs & p & k & la & l & Hv & Hl & Hk). injection E as <-. apply Hu. apply (urhs_used S lhs p l t Hl). eapply nth_error_In; eauto.
  - intros (l & Hl & Hv). apply Hu. exact (valid_used _ _ _ _ _ _ t Hv eq_refl).
  - intros n p (l & Hl & Hv). apply Hu. exact (valid_used _ _ _ _ _ _ t Hv eq_refl).
Qed.
End Used.

Section Mono.
Context {A : Type}.
Variable nts : list (ast_non_terminal A).
Variables F F' : fsets.
Hypothesis HFF : fsets_same F F'.
Lemma valid_mono S gamma lhs p k la : uvalid_by nts (ffirst F) S gamma lhs p k la -> uvalid_by nts (ffirst F') S gamma lhs p k la.
Proof.
  induction 1 as [|gamma lhs p k la l C q l' x Hv IH Hr Hn Hq Hf|gamma lhs p k la l X Hv IH Hr Hn];
    [constructor|eapply ulv_closure; eauto; eapply ffirst_same; eauto|eapply ulv_move; eauto].
Qed.
Lemma reduces_mono S gamma lhs p la : ureduces_by nts (ffirst F) S gamma lhs p la -> ureduces_by nts (ffirst F') S gamma lhs p la.
Proof. intros (l & Hl & Hv). exists l. split; auto. apply valid_mono; auto. Qed.
Lemma shifts_mono S gamma la : kshifts_by nts (ffirst F) S gamma la -> kshifts_by nts (ffirst F') S gamma la.
Proof. intros (t & -> & lhs & p & k & la0 & l & Hv & H). exists t. split; auto. exists lhs, p, k, la0, l. split; auto. apply valid_mono; auto. Qed.
End Mono.

Section SameRules.
Context {A : Type}.
Variable nts : list (ast_non_terminal A).
Variables F F' : fsets.
Hypothesis HFF : fsets_same F F'.
Variable S : string.
Notation f := (ffirst F). Notation f' := (ffirst F').
Lemma m_reduces gamma lhs p la : ureduces_by nts f S gamma lhs p la <-> ureduces_by nts f' S gamma lhs p la.
Proof. split; apply reduces_mono; auto using fsets_sym. Qed.
Lemma m_shifts gamma la : kshifts_by nts f S gamma la <-> kshifts_by nts f' S gamma la.
Proof. split; apply shifts_mono; auto using fsets_sym. Qed.
Lemma m_accepts gamma la : kaccepts_by nts f S gamma la <-> kaccepts_by nts f' S gamma la.
Proof. apply m_reduces. Qed.
Lemma m_kreduces gamma la n p : kreduces_by nts f S gamma la n p <-> kreduces_by nts f' S gamma la n p.
Proof. unfold kreduces_by. rewrite m_reduces, m_shifts, m_accepts. tauto. Qed.
Lemma m_blocked gamma la : kblocked_by nts f S gamma la <-> kblocked_by nts f' S gamma la.
Proof.
  unfold kblocked_by. rewrite m_shifts, m_accepts.
  assert (H : (forall n p, ~ ureduces_by nts f S gamma (Some n) p la) <-> (forall n p, ~ ureduces_by nts f' S gamma (Some n) p la)); [|tauto].
  split; intros H n p; [rewrite <- m_reduces|rewrite m_reduces]; apply H.
Qed.
Lemma m_listed gamma listed : klisted_by nts f S gamma listed <-> klisted_by nts f' S gamma listed.
Proof. unfold klisted_by. split; intros H t; [rewrite <- m_blocked|rewrite m_blocked]; apply H. Qed.

Context {Tok E V W I : Type}.
Variables entries entries' : list string.
Variables class class' : Tok -> option string.
Variables fields fields' : Tok -> list V.
Variable sem : A -> list (string * bval V) -> W -> option (V * W).
Variable next : I -> option (Tok + E) * I.
Definition tok_same (tok : Tok) : Prop := class tok = class' tok /\ fields tok = fields' tok.
Notation kconf := (kconf Tok E V W I).
Definition known (tk : option (Tok + E)) : Prop := forall tok, tk = Some (inl tok) -> tok_same tok.
Definition ahead (it : I) : Prop := forall tok, upcoming next it tok -> tok_same tok.
Definition good (c : kconf) : Prop := known (kc_token c) /\ ahead (kc_iter c).
Lemma known_next it r it' : ahead it -> next it = (r, it') -> known r /\ ahead it'.
Proof. intros Ha H. split; [intros tok ->; apply Ha; eapply up_now; eauto|]. intros tok Ht. apply Ha. eapply up_later; eauto. Qed.
Lemma m_look (tk : option (Tok + E)) la : known tk -> klook class tk la -> klook class' tk la.
Proof. intros Hk H. destruct H as [|tok t H]; constructor. rewrite <- (proj1 (Hk tok eq_refl)). exact H. Qed.

Lemma m_step (c : kconf) evs c' : good c -> kstep_by nts f class fields sem next S c evs c' ->
  kstep_by nts f' class' fields' sem next S c evs c' /\ good c'.
Proof.
  intros Hk H. revert Hk. destruct H as [st tok t it w r it' Hc Hsh Hn|args rest tk it w la n p pr v w' Hl Hr Hp HL Hv]; intros (Hk & Ha); cbn [kc_token kc_iter] in Hk, Ha.
  - destruct (Hk tok eq_refl) as (K1 & K2). split.
    + rewrite K2. constructor; auto; [congruence|]. apply m_shifts. exact Hsh.
    + exact (known_next _ _ _ Ha Hn).
  - split; [|split; auto]. eapply k_reduce; eauto using m_look. apply m_kreduces. exact Hr.
Qed.
Lemma m_steps n (c : kconf) evs c' : ksteps_by nts f class fields sem next S n c evs c' -> good c ->
  ksteps_by nts f' class' fields' sem next S n c evs c' /\ good c'.
Proof.
  induction 1 as [c|n c evs c1 evs' c2 Hs _ IH]; intro Hk; [split; auto; constructor|].
  destruct (m_step _ _ _ Hk Hs) as (H1 & H2). destruct (IH H2) as (H3 & H4). split; auto. econstructor; eauto.
Qed.
Lemma m_runs it w n c evs : ahead it -> kruns_by nts f class fields sem next S it w n c evs ->
  kruns_by nts f' class' fields' sem next S it w n c evs /\ good c.
Proof.
  intros Ha (evs' & H & ->). destruct (m_steps _ _ _ _ H) as (H1 & H2); [exact (known_next _ _ _ Ha (surjective_pairing _))|]. split; auto. exists evs'. auto.
Qed.
Hypothesis HF : first_sets nts F.
Hypothesis Hnd : NoDup entries.
Hypothesis Hnd' : NoDup entries'.
Hypothesis Hent : forall t, mentioned nts t -> In t entries.
Hypothesis Hent' : forall t, mentioned nts t -> In t entries'.
Lemma listed_in gamma listed (l : list string) t : klisted_by nts f S gamma listed -> (forall t, mentioned nts t -> In t l) -> listed t = true -> In t l.
Proof.
  intros Hl Hu Ht. destruct (in_dec String.string_dec t l) as [H|H]; auto. exfalso. apply Hl in Ht. apply Ht.
  apply (unused_blocked nts F HF). auto.
Qed.
Lemma m_stop (c : kconf) evs (o : outcome E V W I) : known (kc_token c) -> kstop_by nts f entries class sem S c evs o ->
  exists o', kstop_by nts f' entries' class' sem S c evs o' /\ same_outcome o o' /\ (same_used_order nts entries entries' -> o = o').
Proof.
  assert (Hrefl : forall o : outcome E V W I, same_outcome o o) by (intro x; split; [|split; [|left]]; reflexivity).
  intros Hkn Hst. revert Hkn. destruct Hst as [v it w Ha|args rest tk it w la n p pr Hk Hr Hp HL Hv|st e it w|st tok it w Hc|st tk it w la listed Hk Hb Hl]; cbn [kc_token]; intro Hkn.
  - eexists. split; [constructor; apply m_accepts; auto|]. auto.
  - eexists. split; [eapply k_action_panics; eauto using m_look; apply m_kreduces; exact Hr|]. auto.
  - eexists. split; [constructor|]. auto.
  - eexists. split; [constructor|]. + rewrite <- (proj1 (Hkn tok eq_refl)). exact Hc. + auto.
  - eexists. split; [eapply k_error; [apply m_look; eauto|apply m_blocked; eauto|apply m_listed; eauto]|]. split.
    + split; [reflexivity|]. split; [reflexivity|]. right. do 3 eexists. split; [reflexivity|]. split; [reflexivity|].
      apply NoDup_Permutation; [apply NoDup_filter; auto|apply NoDup_filter; auto|]. intro t. rewrite !filter_In.
      split; intros (_ & Ht); (split; [|exact Ht]); eapply listed_in; eauto.
    + intros (keep & Hkeep & Hf). do 2 f_equal. f_equal.
      assert (Hfk : forall l, filter listed (filter keep l) = filter listed l).
      { intro l. induction l as [|t l IHl]; cbn; auto. destruct (keep t) eqn:Ek; cbn; [destruct (listed t); congruence|].
        destruct (listed t) eqn:Elt; auto. exfalso. apply Hl in Elt. apply Elt. apply (unused_blocked nts F HF). intro Hu. apply Hkeep in Hu. congruence. }
      rewrite <- (Hfk entries), <- (Hfk entries'), Hf. reflexivity.
Qed.
Lemma m_returns it w o evs : ahead it -> kreturns_by nts f entries class fields sem next S it w o evs ->
  exists o', kreturns_by nts f' entries' class' fields' sem next S it w o' evs /\ same_outcome o o' /\ (same_used_order nts entries entries' -> o = o').
Proof.
  intros Ha (n & c & e1 & e2 & Hr & Hs & ->). destruct (m_runs _ _ _ _ _ Ha Hr) as (H1 & H2 & _). destruct (m_stop _ _ _ H2 Hs) as (o' & H3 & H4).
  exists o'. split; auto. exists n, c, e1, e2. auto.
Qed.
End SameRules.

(** ** Parsers *)
Section Events.
Context {A Tok E V W I : Type}.
Variable nts : list (ast_non_terminal A).
Variable first : list ast_symbol -> option string -> option string -> Prop.
Variable entries : list string.
Variable class : Tok -> option string.
Variable fields : Tok -> list V.
Variable sem : A -> list (string * bval V) -> W -> option (V * W).
Variable next : I -> option (Tok + E) * I.
Variable start : string.
Definition ev_ok (e : kevent Tok E) : Prop := match e with KAction n p => exists pr, uproduction nts n p = Some pr | _ => True end.
Lemma steps_ok n (c : kconf Tok E V W I) evs c' : ksteps_by nts first class fields sem next start n c evs c' -> Forall ev_ok evs.
Proof.
  induction 1 as [|n c evs c1 evs' c2 Hs _ IH]; [constructor|]. apply Forall_app. split; auto.
  destruct Hs; repeat constructor. cbn. eauto.
Qed.
Lemma runs_ok it w n (c : kconf Tok E V W I) evs : kruns_by nts first class fields sem next start it w n c evs -> Forall ev_ok evs.
Proof. intros (evs' & H & ->). constructor; [exact Logic.I|]. eapply steps_ok; eauto. Qed.
Lemma returns_ok it w (o : outcome E V W I) evs : kreturns_by nts first entries class fields sem next start it w o evs -> Forall ev_ok evs.
Proof.
  intros (n & c & e1 & e2 & H1 & H2 & ->). apply Forall_app. split; [eapply runs_ok; eauto|]. destruct H2; repeat constructor. cbn. eauto.
Qed.
Lemma ev_ok_same evs : Forall ev_ok evs -> Forall2 (kev_same nts nts) evs evs.
Proof. induction 1 as [|e l H _ IH]; constructor; auto. destruct e as [r|n p|]; [constructor|destruct H as (pr & H); econstructor; eauto|constructor]. Qed.
End Events.

Section Parsers.
Context {A : Type}.
Variables items items' : list (grammar_item A).
Variables gp gp' : generated (lexpr A).
Variables pr pr' : parser_struct.
Hypothesis Hp : parser_of items gp pr.
Hypothesis Hp' : parser_of items' gp' pr'.
Hypothesis Hnts : declared_nts items = declared_nts items'.
Hypothesis Hnm : pr_name pr = pr_name pr'.
Context {E V W I : Type}.
Variable inj : rval -> V.
Variable usem : A -> list (string * bval V) -> W -> option (V * W).
Variable next : I -> option (rval + E) * I.
Variable it : I.
Hypothesis Hnext : forall tok, upcoming next it tok -> first_match (token_entries items) tok = first_match (token_entries items') tok.
Variable w : W.

Lemma expands_supported (its : list (grammar_item A)) g : expands its g -> supported (declared_nts its) (token_entries its).
Proof.
  intro H. destruct (expands_expansion its g H) as (g0 & tbl & states & entries & He). apply lower_ok_iff.
  destruct He as (ho & fl & _ & _ & Hl & _). eauto.
Qed.
Lemma next_classes tok : upcoming next it tok -> class items tok = class items' tok /\ fields items inj tok = fields items' inj tok.
Proof.
  intro H. pose proof (Hnext _ H) as E1. unfold token_class, token_fields. rewrite E1. auto.
Qed.

Lemma entry_returns o evs : returns_with gp inj usem next pr it w o evs ->
  exists o' evs', returns_with gp' inj usem next pr' it w o' evs' /\ map (called gp) evs = map (called gp') evs' /\ same_outcome o o' /\
    (same_used_order (declared_nts items) (map cv_from (token_entries items)) (map cv_from (token_entries items')) -> o = o').
Proof.
  intro Hr. pose proof Hp as (Hn & Hpl & He & Hi). pose proof Hp' as (Hn' & Hpl' & He' & Hi').
  destruct (c59_machine items gp Hn Hpl He) as (nn & no & va & Hnum & K). destruct (c59_machine items' gp' Hn' Hpl' He') as (nn' & no' & va' & Hnum' & K').
  specialize (K pr Hi E V W I inj usem next it w). specialize (K' pr' Hi' E V W I inj usem next it w).
  apply (proj1 K) in Hr. destruct Hr as (kevs & Hk & ->).
  pose proof (expands_supported _ _ He) as Hs. pose proof (expands_supported _ _ He') as Hs'.
  pose proof (computed_same items items' Hnts Hn Hs Hs') as Hsame. pose proof (c59_sets items Hn Hs) as HF.
  assert (Hent : forall t, mentioned (declared_nts items) t -> In t (map cv_from (token_entries items))) by (intro; apply supported_used; auto).
  assert (Hent' : forall t, mentioned (declared_nts items) t -> In t (map cv_from (token_entries items'))) by (rewrite Hnts; intro; apply supported_used; auto).
  destruct (m_returns _ _ _ Hsame _ _ (map cv_from (token_entries items')) _ (class items') _ (fields items' inj) usem next HF (proj1 Hs) (proj1 Hs') Hent Hent' it w o kevs next_classes Hk)
    as (o' & Hk' & Ho & Heq).
  exists o', (map (rendered no' pr') kevs). split; [apply (proj1 K'); exists kevs; split; auto; rewrite <- Hnts, <- Hnm; exact Hk'|]. split; [|auto].
  apply (same_calls items items' gp gp' pr pr' Hp Hp' _ _ _ _ _ _ _ _ Hnum Hnum'). rewrite <- Hnts. apply ev_ok_same. eapply returns_ok; eauto.
Qed.
Lemma entry_running n it1 w1 evs : running gp inj usem next pr it w n it1 w1 evs ->
  exists evs', running gp' inj usem next pr' it w n it1 w1 evs' /\ map (called gp) evs = map (called gp') evs'.
Proof.
  intro Hr. pose proof Hp as (Hn & Hpl & He & Hi). pose proof Hp' as (Hn' & Hpl' & He' & Hi').
  destruct (c59_machine items gp Hn Hpl He) as (nn & no & va & Hnum & K). destruct (c59_machine items' gp' Hn' Hpl' He') as (nn' & no' & va' & Hnum' & K').
  specialize (K pr Hi E V W I inj usem next it w). specialize (K' pr' Hi' E V W I inj usem next it w).
  apply (proj2 K) in Hr. destruct Hr as (c & kevs & Hk & Hc1 & Hc2 & ->).
  pose proof (computed_same items items' Hnts Hn (expands_supported _ _ He) (expands_supported _ _ He')) as Hsame.
  destruct (m_runs _ _ _ Hsame _ _ (class items') _ (fields items' inj) usem next it w n c kevs next_classes Hk) as (Hk' & _).
  exists (map (rendered no' pr') kevs). split; [apply (proj2 K'); exists c, kevs; rewrite <- Hnts, <- Hnm; auto|].
  apply (same_calls items items' gp gp' pr pr' Hp Hp' _ _ _ _ _ _ _ _ Hnum Hnum'). rewrite <- Hnts. apply ev_ok_same. eapply runs_ok; eauto.
Qed.
End Parsers.

(** ** Conflicts *)
Lemma no_conflict_same {A} (nts : list (ast_non_terminal A)) F F' : fsets_same F F' ->
  no_reported_conflict_by nts (ffirst F) -> no_reported_conflict_by nts (ffirst F').
Proof.
  intros HFF H N gamma HN Hpub Hc. apply (H N gamma HN Hpub). pose proof (fsets_sym _ _ HFF) as HFF'.
  destruct Hc as [(a & p & b & q & la & H1 & H2 & H3)|[(a & p & b & q & k & la & l & t & H1 & H2 & H3)|(a & p & H1 & H2 & H3)]].
  - left. exists a, p, b, q, la. eauto using reduces_mono.
  - right. left. exists a, p, b, q, k, la, l, t. split; [eauto using reduces_mono|]. split; [eauto using valid_mono|exact H3].
  - right. right. exists a, p. eauto using reduces_mono.
Qed.

(** ** Classification *)
Lemma first_match_in (cs : list conversion) v r : first_match cs v = Some r -> exists c, In c cs /\ pmatch (cv_to c) v = Some (snd r) /\ cv_from c = fst r.
Proof.
  induction cs as [|c cs IH]; cbn; [discriminate|]. destruct (pmatch (cv_to c) v) as [fs|] eqn:E.
  - intro H; injection H as <-. exists c. auto.
  - intro H. destruct (IH H) as (c' & H1 & H2). eauto.
Qed.
Lemma first_match_none (cs : list conversion) v : first_match cs v = None -> forall c, In c cs -> pmatch (cv_to c) v = None.
Proof.
  induction cs as [|c cs IH]; cbn; [tauto|]. destruct (pmatch (cv_to c) v) as [fs|] eqn:E; [discriminate|]. intros H c' [<-|Hc]; auto.
Qed.
Lemma disjoint_match cs cs' v : disjoint_patterns cs' -> (forall c, In c cs -> In c cs') -> first_match cs v <> None -> first_match cs v = first_match cs' v.
Proof.
  intros Hx Hin Hne. destruct (first_match cs v) as [[s fs]|] eqn:E; [|congruence]. destruct (first_match_in _ _ _ E) as (c & Hc & Hm & Hf).
  destruct (first_match cs' v) as [[s' fs']|] eqn:E'.
  - destruct (first_match_in _ _ _ E') as (c' & Hc' & Hm' & Hf'). cbn in *. assert (c = c') by (apply (Hx v); auto; congruence). subst c'. congruence.
  - pose proof (first_match_none _ _ E' c (Hin c Hc)). cbn in *. congruence.
Qed.
