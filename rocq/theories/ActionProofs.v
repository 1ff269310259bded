(** * ActionProofs: numbering of non-terminals, actions and variants in the generated module *)
From Verif Require Export StageProofs.
From Coq Require Import NArith.

(** ** Lowered grammar *)
Lemma array_at_In {X} (a : list (list X)) i j x : array_at a i j = Some x ->
  exists row, nth_error a i = Some row /\ nth_error row j = Some x /\ In row a /\ In x row.
Proof.
  unfold array_at. destruct (nth_error a i) as [row|] eqn:E; [|discriminate]. intro H. exists row.
  repeat split; eauto using nth_error_In.
Qed.

Definition act_no (g' : grammar nat) (n p : nat) : nat := match get_production g' n p with Some q => p_action q | None => 0 end.

Lemma action_numbers {A} (ho : hash_order) (Hho : hash_order_ok ho) fuel (g : grammar A) te gp :
  wf_grammar g -> generate_lr1_parser ho fuel g te = Ok gp ->
  exists no : nat -> nat -> nat,
    (forall n p pr, get_production g n p = Some pr -> exists f, nth_error (gp_sem_actions gp) (no n p) = Some f /\ fn_for (variant_names g) n pr f) /\
    (forall n p pr n' p' pr', get_production g n p = Some pr -> get_production g n' p' = Some pr' -> no n p = no n' p' -> n = n' /\ p = p') /\
    (forall s t nt k idx, array_at (gp_action gp) s t = Some (Some (RReduce nt k idx)) ->
       exists p pr, get_production g nt p = Some pr /\ is_private g nt /\ k = List.length (rhs pr) /\ idx = no nt p) /\
    (forall pr, In pr (gp_parsers gp) -> exists nt N, get_non_terminal g nt = Some N /\ pr_name pr = nt_name N /\ pr_action_idx pr = no nt 0) /\
    (forall tbl states entries, generate_first_table ho fuel g = Ok tbl -> generate_lr1_automaton ho fuel g tbl = Ok (states, entries) ->
       forall s la st nt k idx, nth_error states s = Some st -> la_in_range (n_terminals g) la ->
       index2 (gp_action gp) s (la_col (n_terminals g) la) = Some (Some (RReduce nt k idx)) ->
       exists it, In it (st_items st) /\ red_item g it /\ it_nt it = nt /\ it_la it = la /\ idx = no nt (it_prod it)).
Proof.
  intros Hwf H. destruct (generate_steps ho _ _ _ _ H) as
    (tbl & states & entries & fns & g' & tb & gv & H1 & H2 & H3 & H4 & H5 & H6 & H7 & H8 & E1 & E2 & E3 & E4 & E5).
  pose proof (generate_lr1_automaton_ok g tbl ho Hho Hwf _ _ _ H2) as Haut.
  pose proof (generate_semantic_action_table_spec _ _ _ _ H3) as Hgo.
  pose proof (automaton_states_ok _ _ _ _ _ _ _ Hwf Hgo Haut) as Hso.
  destruct (build_lr1_table_spec g' ho Hho states Hso) as (B1 & _ & _).
  destruct (B1 _ H4) as (_ & Htab). clear B1. pose proof (to_n _ _ _ Htab) as Hns.
  assert (Hnt' : n_terminals g' = n_terminals g) by (unfold n_terminals; rewrite (go_terminals _ _ _ _ Hgo); auto).
  exists (act_no g'). rewrite E1. unfold act_no. split; [|split; [|split; [|split]]].
  - intros n p pr Hp. destruct (go_prod _ _ _ _ Hgo _ _ _ Hp) as (pr' & f & G1 & G2 & G3 & G4). rewrite G1. exists f. auto.
  - intros n p pr n' p' pr' Hp Hp' Heq.
    destruct (go_prod _ _ _ _ Hgo _ _ _ Hp) as (q & f & G1 & _). destruct (go_prod _ _ _ _ Hgo _ _ _ Hp') as (q' & f' & G1' & _).
    rewrite G1, G1' in Heq. eapply (go_inj _ _ _ _ Hgo); eauto.
  - intros s t nt k idx Ha. destruct (array_at_In _ _ _ _ Ha) as (row & _ & _ & Hr & Hin).
    unfold generate_action_array in H5.
    destruct (Nat.eqb (List.length (action_table_vec g' tb)) (tb_n_states tb)) eqn:El; [|discriminate].
    destruct (mapM_In _ _ _ _ H5 Hr) as (row0 & Hin0 & Hm).
    destruct (Nat.eqb (List.length row0) (n_terminals g + 1)) eqn:Er; [|discriminate].
    unfold action_table_vec in Hin0. apply in_map_iff in Hin0. destruct Hin0 as (s0 & <- & Hs0). apply in_seq in Hs0.
    destruct (mapM_In _ _ _ _ Hm Hin) as (a & Hina & He). unfold emit_action in He. destruct a as [[n|n p a|]|].
    + apply bind_Ok in He. destruct He as (n' & Hn & He). discriminate.
    + destruct (get_production g' n p) as [pr'|] eqn:Ep; [|discriminate].
      apply bind_Ok in He. destruct He as (k' & Hk & He). apply u16_spec in Hk. destruct Hk as [-> _].
      apply bind_Ok in He. destruct He as (n' & Hn & He). apply u16_spec in Hn. destruct Hn as [-> _].
      injection He as <- <- <-.
      assert (Hga : exists la, get_action tb s0 la = Some (Reduce n p a)).
      { apply in_app_iff in Hina. destruct Hina as [Hina|[Hina|[]]]; [|eauto].
        apply in_map_iff in Hina. destruct Hina as (t' & Ht' & _). eauto. }
      destruct Hga as (la & Hga). destruct (nth_error states s0) as [st|] eqn:Es; [|apply nth_error_None in Es; lia].
      destruct (tv_inv _ _ _ _ _ (to_act _ _ _ Htab _ _ Es) _ _ Hga) as (it & pr2 & _ & Hw & Hnt & _ & Hp2 & ->).
      destruct (go_prod_inv _ _ _ _ Hgo _ _ _ Hp2) as (pr & Hpr & Hsy). exists p, pr. split; auto.
      assert (pr' = pr2) by congruence; subst pr'. split.
      * destruct Hw as (_ & Hpv & _). rewrite Hnt in Hpv. apply (tr_private _ _ _ _ Hgo). exact Hpv.
      * rewrite Hp2. split; auto. unfold rhs. rewrite map_length, Hsy. reflexivity.
    + discriminate.
    + discriminate.
  - intros pr Hpr. destruct (mapM_In _ _ _ _ H8 Hpr) as ((nt & e) & _ & Hg). simpl in Hg.
    apply bind_Ok in Hg. destruct Hg as (st & Hst & Hg).
    destruct (get_non_terminal g' nt) as [N'|] eqn:EN; [|discriminate].
    destruct (is_raw (nt_name N')); [discriminate|].
    destruct (get_production g' nt 0) as [q'|] eqn:Eq; [|discriminate].
    destruct (variant_of (variant_names g) nt) as [v|] eqn:Ev; [|discriminate].
    inversion Hg; subst pr; simpl. destruct (go_nt_inv _ _ _ _ Hgo _ _ EN) as (N & HN & (S1 & _)).
    exists nt, N. rewrite Eq. auto.
  - intros tbl' states' entries' H1' H2' s la st nt k idx Hst Hla Hi.
    assert (tbl' = tbl) by congruence; subst tbl'. assert (states' = states) by congruence; subst states'. clear H1' H2'.
    assert (Hs : s < List.length states) by (apply nth_error_Some; congruence).
    unfold generate_action_array in H5.
    destruct (Nat.eqb (List.length (action_table_vec g' tb)) (tb_n_states tb)); [|discriminate].
    destruct (action_table_vec_get g' tb s la) as (row & R1 & R2 & R3); [lia|rewrite Hnt'; auto|].
    destruct (nth_error_mapM _ _ _ _ _ H5 R1) as (row' & R4 & R5).
    destruct (Nat.eqb (List.length row) (n_terminals g + 1)); [|discriminate].
    destruct (nth_error_mapM _ _ _ _ _ R5 R3) as (r & R6 & R7).
    unfold index2 in Hi. rewrite R4, <- Hnt', R6 in Hi. injection Hi as ->.
    unfold emit_action in R7. destruct (get_action tb s la) as [[n|n p a|]|] eqn:Ea.
    + apply bind_Ok in R7. destruct R7 as (n' & _ & R7). discriminate.
    + destruct (get_production g' n p) as [pr'|] eqn:Ep; [|discriminate].
      apply bind_Ok in R7. destruct R7 as (k' & _ & R7).
      apply bind_Ok in R7. destruct R7 as (n' & Hn & R7). apply u16_spec in Hn. destruct Hn as [-> _].
      injection R7 as <- <- <-.
      destruct (tv_inv _ _ _ _ _ (to_act _ _ _ Htab _ _ Hst) _ _ Ea) as (it & pr2 & Hit & Hw & Hnt & Hpr & Hp2 & ->).
      exists it. split; auto. destruct Hw as (Hc & Hpv & Hla'). split; [split|].
      * rewrite <- (tr_is_complete _ _ _ _ Hgo). exact Hc.
      * apply (tr_private _ _ _ _ Hgo). exact Hpv.
      * split; auto. split; auto. rewrite Hpr, Hp2. reflexivity.
    + discriminate.
    + discriminate.
Qed.

(** ** User level *)
Section UserLevel.
Context {A : Type}.
Variable items : list (grammar_item A).
Notation nts := (declared_nts items).
Notation cs := (token_entries items).
Notation ni := (nt_indices_of nts).
Hypothesis Hnames : distinct_names items.

Definition number (n : string) : nat := match map_get String.eqb n ni with Some i => i | None => 0 end.
Definition variant_no (g : grammar (lexpr A)) (n : string) : nat :=
  match variant_of (variant_names g) (number n) with Some v => v | None => 0 end.

Lemma slot_body_nt (ti : list (string * nat)) (g : grammar (lexpr A)) (Hlow : lowered nts cs ti g) N i : In (N, i) (slots 0 nts) ->
  exists M, get_non_terminal g i = Some M /\ nt_return_ty M = an_type N.
Proof.
  intro H. unfold get_non_terminal. rewrite (lo_nts _ _ _ _ Hlow). destruct (slot_skeleton nts _ _ H) as [-> _].
  cbn. eexists; split; reflexivity.
Qed.

Lemma uproduction_In n p pr : uproduction nts n p = Some pr -> exists N i, In (N, i) (slots 0 nts) /\ an_name N = n /\ map_get String.eqb n ni = Some i.
Proof.
  unfold uproduction. destruct (find _ _) as [N|] eqn:E; [|discriminate]. intros _. apply find_some in E. destruct E as (E1 & E2).
  apply String.eqb_eq in E2. destruct (slot_exists nts N E1) as (i & Hi). exists N, i. split; auto. split; auto.
  rewrite <- E2. apply (slot_index nts Hnames); auto.
Qed.

Lemma stack_entries_vals {V} (ti : list (string * nat)) (g : grammar (lexpr A)) (Hlow : lowered nts cs ti g) ss Xs (bs : list (bval V)) vs :
  Forall2 (sym_rel nts cs) ss Xs -> stack_entries items (variant_no g) ss bs vs -> vals_for (variant_names g) Xs bs vs.
Proof.
  intro H. revert bs vs. induction H as [|s X ss Xs Hs Hss IH]; intros bs vs Hv; inversion Hv; subst; constructor; auto.
  clear IH Hv. match goal with H : stack_entry _ _ s b v |- _ => revert X Hs; induction H as [x s b v He IHe|t i fs Ht|n x]; intros X Hs end.
  - apply IHe. exact Hs.
  - unfold LowerTrees.sym_rel in Hs. cbn in Hs. destruct Hs as (j & Hj & ->).
    assert (j = i) by (eapply (terminal_unique nts cs ti g Hlow); eauto). subst. constructor.
  - unfold LowerTrees.sym_rel in Hs. cbn in Hs. destruct Hs as (i & Hi & ->).
    destruct (nt_indices_inv _ _ _ Hi) as (N & HN & _). destruct (slot_body_nt ti g Hlow N i HN) as (M & HM & _).
    destruct (variant_total _ _ _ HM) as (k & Hk).
    replace (variant_no g n) with k; [constructor; auto|]. unfold variant_no, number. rewrite Hi, Hk. reflexivity.
Qed.

Lemma vals_for_rev {V} variants Xs (bs : list (bval V)) vs : vals_for variants Xs bs vs -> vals_for variants (rev Xs) (rev bs) (rev vs).
Proof.
  induction 1 as [|X Xs b bs v vs Hv Hvs IH]; cbn; [constructor|].
  revert Hv IH. generalize (rev Xs) (rev bs) (rev vs). clear. intros Xs bs vs Hv IH.
  induction IH; cbn; repeat constructor; auto.
Qed.

Lemma numbering_intro gp ti (g : grammar (lexpr A)) (no : nat -> nat -> nat) : lowered nts cs ti g ->
  (forall n p pr, get_production g n p = Some pr -> exists f, nth_error (gp_sem_actions gp) (no n p) = Some f /\ fn_for (variant_names g) n pr f) ->
  (forall n p pr n' p' pr', get_production g n p = Some pr -> get_production g n' p' = Some pr' -> no n p = no n' p' -> n = n' /\ p = p') ->
  (forall s t nt k idx, array_at (gp_action gp) s t = Some (Some (RReduce nt k idx)) ->
       exists p pr, get_production g nt p = Some pr /\ is_private g nt /\ k = List.length (rhs pr) /\ idx = no nt p) ->
  numbering items gp number (fun n p => no (number n) p) (variant_no g).
Proof.
  intros Hlow N1 N2 N3.
  destruct (variant_names_spec g) as (V1 & V2 & k & V3 & V4).
  assert (Hvar : forall N i, In (N, i) (slots 0 nts) -> number (an_name N) = i /\ variant_of (variant_names g) i = Some (variant_no g (an_name N))).
  { intros N i Hi. assert (Hn : number (an_name N) = i) by (unfold number; rewrite (slot_index nts Hnames N i Hi); reflexivity).
    split; auto. destruct (slot_body_nt ti g Hlow N i Hi) as (M & HM & _). destruct (variant_total _ _ _ HM) as (v & Hv).
    unfold variant_no. rewrite Hn, Hv. reflexivity. }
  constructor.
  - intros n p pr Hp. destruct (uproduction_In n p pr Hp) as (N & i & Hs & <- & Hi).
    destruct (production_down nts cs ti g Hlow Hnames _ _ _ _ Hi Hp) as (q & Hq & Hl).
    destruct (lprod_rhs nts cs ti g Hlow _ _ Hl) as (_ & Hact & Hsyms).
    destruct (N1 _ _ _ Hq) as (f & Hf1 & Hf2). destruct (Hvar N i Hs) as (Hn & Hv). rewrite Hn. exists f. split; auto.
    split; [destruct Hf2 as (E & _); congruence|].
    intros Tok E V W I env bs vs rest w Hse.
    pose proof (stack_entries_vals ti g Hlow _ _ _ _ (Forall2_rhs nts cs _ _ Hsyms) Hse) as Hvf.
    apply vals_for_rev in Hvf. rewrite (run_sem_fn_spec env (variant_names g) i q f bs (rev vs) rest w Hf2 Hvf).
    rewrite Hact, (bindings_ub nts cs _ _ Hsyms). destruct (e_sem env _ _ w) as [[x w']|]; auto.
    destruct Hf2 as (_ & E2 & _). rewrite Hv in E2. injection E2 as ->. reflexivity.
  - intros n p pr n' p' pr' Hp Hp' Heq.
    destruct (uproduction_In n p pr Hp) as (N & i & Hs & Hn & Hi). destruct (uproduction_In n' p' pr' Hp') as (N' & i' & Hs' & Hn' & Hi').
    destruct (production_down nts cs ti g Hlow Hnames _ _ _ _ Hi Hp) as (q & Hq & _).
    destruct (production_down nts cs ti g Hlow Hnames _ _ _ _ Hi' Hp') as (q' & Hq' & _).
    unfold number in Heq. rewrite Hi, Hi' in Heq. destruct (N2 _ _ _ _ _ _ Hq Hq' Heq) as (-> & ->). split; auto.
    rewrite <- Hn, <- Hn'. f_equal. eapply slots_inj; eauto.
  - intros N M HN HM Heq. destruct (slot_exists nts N HN) as (i & Hi). destruct (slot_exists nts M HM) as (j & Hj).
    destruct (Hvar N i Hi) as (E1 & _). destruct (Hvar M j Hj) as (E2 & _). assert (Hij : i = j) by congruence. rewrite Hij in Hi. eapply slots_inj; eauto.
  - intros s t nt k' idx Hr. destruct (N3 _ _ _ _ _ Hr) as (p & q & Hq & (M & HM & Hpv) & -> & ->).
    destruct (get_production_inv nts cs ti g Hlow _ _ _ Hq) as [(N & i & HN & HNp & -> & -> & _)|(N & i & HN & -> & _)].
    + exfalso. rewrite (entry_nt nts cs ti g Hlow N i HN HNp) in HM. injection HM as <-. discriminate.
    + pose proof (slot_index nts Hnames N i HN) as Hi.
      destruct (production_up nts cs ti g Hlow Hnames _ _ _ _ Hi Hq) as (pr & Hpr & Hl).
      destruct (lprod_rhs nts cs ti g Hlow _ _ Hl) as (_ & _ & Hsyms). destruct (Hvar N i HN) as (Hn & _).
      exists (an_name N), p, pr. rewrite Hn. split; auto. split; auto. split; auto. unfold rhs. rewrite map_length. symmetry. eapply Forall2_length_; eauto.
  - intros N M HN HM. destruct (slot_exists nts N HN) as (i & Hi). destruct (slot_exists nts M HM) as (j & Hj).
    destruct (slot_body_nt ti g Hlow N i Hi) as (N' & HN' & <-). destruct (slot_body_nt ti g Hlow M j Hj) as (M' & HM' & <-).
    eapply V2; eauto; apply Hvar; auto.
  - exists k. split.
    + intros N HN. destruct (slot_exists nts N HN) as (i & Hi). apply (V3 i). apply Hvar; auto.
    + intros v Hv. destruct (V4 v Hv) as (n & Hn).
      assert (Hlt : n < n_non_terminals g) by (rewrite <- V1; apply nth_error_Some; unfold variant_of in Hn; congruence).
      destruct (nth_error (g_nts g) n) as [M|] eqn:EM; [|apply nth_error_None in EM; unfold n_non_terminals in Hlt; lia].
      assert (Hx : exists N i, In (N, i) (slots 0 nts) /\ nt_return_ty M = an_type N).
      { rewrite (lo_nts _ _ _ _ Hlow) in EM. destruct (nth_error (skeleton 0 nts) n) as [x|] eqn:Ex; [|discriminate].
        destruct (skeleton_inv nts _ _ Ex) as (N & i & Hs & [(_ & ->)|(_ & _ & ->)]); injection EM as <-; exists N, i; auto. }
      destruct Hx as (N & i & Hi & Hty). exists N. split; [eapply slots_In; eauto|].
      destruct (slot_body_nt ti g Hlow N i Hi) as (N' & HN' & Hty'). destruct (Hvar N i Hi) as (_ & Hvi).
      assert (Hv' : variant_no g (an_name N) = v) by (eapply V2; [exact HN'|exact EM|exact Hvi|exact Hn|congruence]). exact Hv'.
Qed.

Theorem numbering_exists gp : expands items gp -> exists a b c, numbering items gp a b c.
Proof.
  intro He. destruct (expands_expansion items gp He) as (g & tbl & states & entries & He').
  destruct (expansion_data items _ _ _ _ _ He') as (ti & act & Hlow & Hwf & Hgen & Hnd & Hsh & ho & fuel & Hho & Hg & Hf & Ha).
  destruct (action_numbers ho Hho fuel g (the_tokens items) gp Hwf Hg) as (no & N1 & N2 & N3 & _).
  do 3 eexists. eapply numbering_intro; eauto.
Qed.
End UserLevel.

(** ** Number of semantic action functions *)

Section Count.
Context {A : Type}.
Lemma gen_productions_count variants nt : forall ps fns fns2 (ps' : list (production nat)),
  gen_productions (A := A) variants nt fns ps = Ok (fns2, ps') ->
  List.length fns2 = List.length fns + List.length ps /\ ((N.of_nat (List.length fns) <= 65536)%N -> (N.of_nat (List.length fns2) <= 65536)%N).
Proof.
  induction ps as [|p ps IH]; cbn [gen_productions]; intros fns fns2 ps' H.
  - injection H as <- <-. cbn. split; [lia|auto].
  - apply bind_Ok in H. destruct H as ((fns1 & p1) & H1 & H). apply bind_Ok in H. destruct H as ((fns3 & ps2) & H2 & H).
    injection H as <- <-. apply IH in H2. destruct H2 as (L & B).
    unfold gen_production in H1. apply bind_Ok in H1. destruct H1 as (pops & _ & H1).
    destruct (variant_of variants nt); [|discriminate]. apply bind_Ok in H1. destruct H1 as (idx & Hi & H1).
    injection H1 as <- <-. apply u16_spec in Hi. destruct Hi as [-> Hi]. rewrite app_length in L, B. cbn [List.length] in L, B |- *. split; [lia|].
    intros _. apply B. lia.
Qed.
Lemma gen_non_terminals_count variants : forall nts nt fns fns2 nts',
  gen_non_terminals (A := A) variants nt fns nts = Ok (fns2, nts') ->
  List.length fns2 = List.length fns + count nts /\ ((N.of_nat (List.length fns) <= 65536)%N -> (N.of_nat (List.length fns2) <= 65536)%N).
Proof.
  unfold count. induction nts as [|N nts IH]; cbn [gen_non_terminals map list_sum fold_right]; intros nt fns fns2 nts' H.
  - injection H as <- <-. split; [lia|auto].
  - apply bind_Ok in H. destruct H as ((fns1 & ps) & H1 & H). apply bind_Ok in H. destruct H as ((fns3 & nts2) & H2 & H).
    injection H as <- <-. apply gen_productions_count in H1. apply IH in H2. destruct H1 as (L1 & B1), H2 as (L2 & B2).
    split; [|auto]. unfold list_sum in L2. lia.
Qed.
Lemma sem_actions_count ho fuel (g : grammar A) te gp : generate_lr1_parser ho fuel g te = Ok gp ->
  List.length (gp_sem_actions gp) = count (g_nts g) /\ (N.of_nat (List.length (gp_sem_actions gp)) <= 65536)%N.
Proof.
  intro H. destruct (generate_steps ho _ _ _ _ H) as
    (tbl & states & entries & fns & g' & tb & gv & H1 & H2 & H3 & H4 & H5 & H6 & H7 & H8 & E1 & _).
  unfold generate_semantic_action_table in H3. apply bind_Ok in H3. destruct H3 as ((fns0 & nts') & H3 & Hx). injection Hx as <- <-.
  apply gen_non_terminals_count in H3. rewrite E1. cbn [List.length] in H3. destruct H3 as (L & B). split; [exact L|apply B; lia].
Qed.

Lemma count_update i qs : forall (l : list (non_terminal (lexpr A))), i < List.length l ->
  count (update_nth i (with_prods qs) l) = count l + List.length qs.
Proof.
  unfold count. induction i as [|i IH]; intros [|N l] Hi; cbn [List.length] in Hi; try lia; cbn [update_nth map list_sum fold_right].
  - unfold with_prods, nt_of. cbn [nt_productions]. rewrite app_length. lia.
  - specialize (IH l ltac:(lia)). unfold list_sum in IH. lia.
Qed.
Lemma update_nth_length {X} (f : X -> X) i : forall l, List.length (update_nth i f l) = List.length l.
Proof. induction i; intros [|x l]; cbn; auto. Qed.
Lemma count_app (a b : list (non_terminal (lexpr A))) : count (a ++ b) = count a + count b.
Proof. unfold count. rewrite map_app, list_sum_app. reflexivity. Qed.

Lemma fold_count ni ti (nts : list (ast_non_terminal A)) : forall (g g' : grammar (lexpr A)),
  (forall N, In N nts -> exists i, map_get String.eqb (an_name N) ni = Some i /\ i < List.length (g_nts g)) ->
  foldM (lower_productions ni ti) nts g = Ok g' ->
  count (g_nts g') = count (g_nts g) + list_sum (map (fun N => List.length (an_productions N)) nts).
Proof.
  induction nts as [|N nts IH]; intros g g' Hn H; cbn [foldM] in H.
  - injection H as <-. cbn. lia.
  - apply bind_Ok in H. destruct H as (g1 & H1 & H). destruct (Hn N (or_introl eq_refl)) as (i & Hi & Hlt).
    unfold lower_productions in H1. rewrite (fold_prods ni ti _ _ Hi) in H1. apply bind_Ok in H1. destruct H1 as (qs & Hq & H1).
    injection H1 as <-. apply IH in H; cbn [g_nts] in H |- *.
    + rewrite H, (count_update i qs _ Hlt), (mapM_length_ _ _ _ Hq). cbn [map list_sum fold_right]. unfold list_sum. lia.
    + intros M HM. rewrite update_nth_length. apply Hn. right; auto.
Qed.

Lemma lower_count (nts : list (ast_non_terminal A)) cs g : lower nts cs = Ok g ->
  count (g_nts g) = list_sum (map (fun N => List.length (an_productions N) + (if an_pub N then 1 else 0)) nts).
Proof.
  unfold lower. intro H. apply bind_Ok in H. destruct H as ((g0 & ti) & H0 & H).
  pose proof (terms_spec (A := A) cs [] _ _ terms_start) as Ht. cbn [app] in Ht. rewrite H0 in Ht. rewrite nts_fold in H.
  rewrite (ti_nts _ _ _ Ht) in H. cbn [app List.length] in H. fold (nt_indices_of nts) in H.
  apply fold_count in H; cbn [g_nts] in *.
  - rewrite H. assert (Hs : forall l k, count (skeleton (A := A) k l) = list_sum (map (fun N : ast_non_terminal A => if an_pub N then 1 else 0) l)).
    { induction l as [|N l IHl]; intro k; [reflexivity|]. unfold skeleton in *. cbn [slots flat_map fst snd].
      rewrite count_app, IHl. cbn [map list_sum fold_right]. unfold block. destruct (an_pub N); reflexivity. }
    rewrite Hs. clear. induction nts as [|N l IH]; [reflexivity|]. cbn [map list_sum fold_right]. unfold list_sum in IH. lia.
  - intros N HN. destruct (nt_indices_some nts (an_name N) (in_map _ _ _ HN)) as (M & i & Hs & _ & Hg). exists i. split; auto.
    apply nth_error_Some. destruct (slot_skeleton nts _ _ Hs) as (-> & _). discriminate.
Qed.
End Count.
