(** * GenShape: dimensions of the emitted arrays, ranges of the emitted numbers, list of parsers *)
From Verif Require Export GenProofs.
From Coq Require Import NArith.

Lemma mapM_In {X Y} (f : X -> res Y) l l' y : mapM f l = Ok l' -> In y l' -> exists x, In x l /\ f x = Ok y.
Proof.
  intros H Hy. apply In_nth_error in Hy. destruct Hy as (i & Hi).
  destruct (nth_error_mapM_inv _ _ _ _ _ H Hi) as (x & Hx & Hf). exists x. split; auto. eapply nth_error_In; eauto.
Qed.

Section Bounds.
Context {A : Type}.

Lemma gen_productions_bound variants nt : forall ps fns fns2 (ps' : list (production nat)),
  gen_productions (A := A) variants nt fns ps = Ok (fns2, ps') -> forall p', In p' ps' -> (N.of_nat (p_action p') < 65536)%N.
Proof.
  induction ps as [|p ps IH]; simpl; intros fns fns2 ps' H p' Hp.
  - inversion H; subst. contradiction.
  - apply bind_Ok in H. destruct H as ((fns1 & p1) & H1 & H). apply bind_Ok in H.
    destruct H as ((fns3 & ps2) & H2 & H). inversion H; subst; clear H.
    destruct Hp as [<-|Hp]; [|eapply IH; eauto].
    unfold gen_production in H1. apply bind_Ok in H1. destruct H1 as (pops & _ & H1).
    destruct (variant_of variants nt); [|discriminate]. apply bind_Ok in H1. destruct H1 as (idx & Hi & H1).
    inversion H1; subst. apply u16_spec in Hi. destruct Hi as [-> Hi]. simpl. exact Hi.
Qed.

Lemma gen_non_terminals_bound variants : forall nts nt fns fns2 nts',
  gen_non_terminals (A := A) variants nt fns nts = Ok (fns2, nts') ->
  forall N' p', In N' nts' -> In p' (nt_productions N') -> (N.of_nat (p_action p') < 65536)%N.
Proof.
  induction nts as [|N nts IH]; simpl; intros nt fns fns2 nts' H N' p' HN Hp.
  - inversion H; subst. contradiction.
  - apply bind_Ok in H. destruct H as ((fns1 & ps) & H1 & H). apply bind_Ok in H.
    destruct H as ((fns3 & nts2) & H2 & H). inversion H; subst; clear H.
    destruct HN as [<-|HN]; [|eapply IH; eauto]. simpl in Hp. eapply gen_productions_bound; eauto.
Qed.

Lemma action_index_bound (g : grammar A) variants fns g' n p pr' :
  generate_semantic_action_table g variants = Ok (fns, g') -> get_production g' n p = Some pr' ->
  (N.of_nat (p_action pr') < 65536)%N.
Proof.
  unfold generate_semantic_action_table. intros H Hp. apply bind_Ok in H. destruct H as ((fns0 & nts) & H1 & H).
  inversion H; subst; clear H. apply get_production_nt in Hp. destruct Hp as (N & HN & Hp).
  unfold get_non_terminal in HN. simpl in HN. eapply gen_non_terminals_bound; eauto using nth_error_In.
Qed.
End Bounds.

Definition entry_bound (r : option rt_action) : Prop :=
  match r with
  | None | Some RAccept => True
  | Some (RShift n) => (N.of_nat n < 4294967296)%N
  | Some (RReduce nt k a) => (N.of_nat nt < 65536 /\ N.of_nat k < 65536 /\ N.of_nat a < 65536)%N
  end.

Record shape_ok {A} (g : grammar A) (states : list lr1_state) (entries : list (nat * nat)) (gp : generated A) : Prop := {
  sh_action_len : List.length (gp_action gp) = List.length states;
  sh_action_row : forall row, In row (gp_action gp) -> List.length row = n_terminals g + 1;
  sh_goto_len : List.length (gp_goto gp) = List.length states;
  sh_goto_row : forall row, In row (gp_goto gp) -> List.length row = n_non_terminals g;
  sh_expected_len : List.length (gp_expected gp) = List.length states;
  sh_action_bound : forall row r, In row (gp_action gp) -> In r row -> entry_bound r;
  sh_goto_bound : forall row s, In row (gp_goto gp) -> In (Some s) row -> (N.of_nat s < 4294967296)%N;
  sh_parser_bound : forall pr, In pr (gp_parsers gp) ->
    (N.of_nat (pr_init_state pr) < 4294967296 /\ N.of_nat (pr_action_idx pr) < 65536)%N;
  sh_parsers : exists l, Permutation l entries /\
    Forall2 (fun pr x => parser_for g (gp_sem_actions gp) entries pr (fst x) (snd x)) (gp_parsers gp) l
}.

Theorem generate_lr1_parser_shape {A} (ho : hash_order) (Hho : hash_order_ok ho) fuel (g : grammar A) te gp tbl states entries :
  wf_grammar g -> generate_lr1_parser ho fuel g te = Ok gp ->
  generate_first_table ho fuel g = Ok tbl -> generate_lr1_automaton ho fuel g tbl = Ok (states, entries) ->
  shape_ok g states entries gp.
Proof.
  intros Hwf H Ht Ha. destruct (generate_steps ho _ _ _ _ H) as
    (tbl' & states' & entries' & fns & g' & tb & gv & H1 & H2 & H3 & H4 & H5 & H6 & H7 & H8 & E1 & E2 & E3 & E4 & E5).
  rewrite Ht in H1; inversion H1; subst tbl'; clear H1. rewrite Ha in H2; inversion H2; subst states' entries'; clear H2.
  pose proof (generate_lr1_automaton_ok g tbl ho Hho Hwf _ _ _ Ha) as Haut.
  pose proof (generate_semantic_action_table_spec _ _ _ _ H3) as Hgo.
  pose proof (automaton_states_ok _ _ _ _ _ _ _ Hwf Hgo Haut) as Hso.
  destruct (build_lr1_table_spec g' ho Hho states Hso) as (B1 & _ & _).
  destruct (B1 _ H4) as (_ & Htab). clear B1. pose proof (to_n _ _ _ Htab) as Hns.
  unfold generate_action_array in H5.
  destruct (Nat.eqb (List.length (action_table_vec g' tb)) (tb_n_states tb)) eqn:El; [|discriminate]. apply Nat.eqb_eq in El.
  assert (Hact_row : forall row, In row (gp_action gp) -> exists row0 s, s < List.length states /\
            row0 = map (fun t => get_action tb s (Some t)) (terminal_indices g') ++ [get_action tb s None] /\
            mapM (emit_action g') row0 = Ok row /\ List.length row0 = n_terminals g + 1).
  { intros row Hr. destruct (mapM_In _ _ _ _ H5 Hr) as (row0 & Hin & Hm).
    destruct (Nat.eqb (List.length row0) (n_terminals g + 1)) eqn:Er; [|discriminate]. apply Nat.eqb_eq in Er.
    unfold action_table_vec in Hin. apply in_map_iff in Hin. destruct Hin as (s & <- & Hs). apply in_seq in Hs.
    eexists _, s. split; [lia|]. split; [reflexivity|]. auto. }
  constructor.
  - rewrite (mapM_length_ _ _ _ H5). lia.
  - intros row Hr. destruct (Hact_row _ Hr) as (row0 & s & _ & _ & Hm & Hl). rewrite (mapM_length_ _ _ _ Hm). auto.
  - unfold generate_goto_array in H7. unfold generate_goto_vec in H6.
    rewrite (mapM_length_ _ _ _ H7), (mapM_length_ _ _ _ H6), seq_length. auto.
  - intros row Hr. unfold generate_goto_array in H7. destruct (mapM_In _ _ _ _ H7 Hr) as (row0 & Hin & Hm).
    unfold generate_goto_vec in H6. destruct (mapM_In _ _ _ _ H6 Hin) as (s & _ & Hm').
    rewrite (mapM_length_ _ _ _ Hm), (mapM_length_ _ _ _ Hm'), seq_length. apply (go_len _ _ _ _ Hgo).
  - rewrite E2. unfold expected_state_tokens. rewrite map_length, seq_length. auto.
  - intros row r Hr Hin. destruct (Hact_row _ Hr) as (row0 & s & Hs & -> & Hm & _).
    destruct (mapM_In _ _ _ _ Hm Hin) as (a & Hina & He). unfold emit_action in He. destruct a as [[n|n p a|]|].
    + apply bind_Ok in He. destruct He as (n' & Hn & He). apply u32_spec in Hn. destruct Hn as [-> Hn].
      inversion He; subst. exact Hn.
    + destruct (get_production g' n p) as [pr'|] eqn:Ep; [|discriminate].
      apply bind_Ok in He. destruct He as (k & Hk & He). apply u16_spec in Hk. destruct Hk as [-> Hk].
      apply bind_Ok in He. destruct He as (n' & Hn & He). apply u16_spec in Hn. destruct Hn as [-> Hn].
      inversion He; subst. simpl. repeat (split; [assumption|]).
      assert (Hga : exists la, get_action tb s la = Some (Reduce n p a)).
      { apply in_app_iff in Hina. destruct Hina as [Hina|[Hina|[]]]; [|eauto].
        apply in_map_iff in Hina. destruct Hina as (t & Ht' & _). eauto. }
      destruct Hga as (la & Hga). destruct (nth_error states s) as [st|] eqn:Es; [|apply nth_error_None in Es; lia].
      destruct (tv_inv _ _ _ _ _ (to_act _ _ _ Htab _ _ Es) _ _ Hga) as (it & pr2 & _ & _ & _ & _ & Hp2 & ->).
      eapply action_index_bound; eauto.
    + inversion He; subst. exact I.
    + inversion He; subst. exact I.
  - intros row s Hr Hin. unfold generate_goto_array in H7. destruct (mapM_In _ _ _ _ H7 Hr) as (row0 & _ & Hm).
    destruct (mapM_In _ _ _ _ Hm Hin) as (x & _ & Hx). destruct x as [j|]; [|discriminate].
    apply bind_Ok in Hx. destruct Hx as (j' & Hj & Hx). apply u32_spec in Hj. destruct Hj as [-> Hj].
    inversion Hx; subst. exact Hj.
  - intros pr Hpr. destruct (mapM_In _ _ _ _ H8 Hpr) as ((nt & e) & _ & Hg). simpl in Hg.
    apply bind_Ok in Hg. destruct Hg as (st & Hst & Hg). apply u32_spec in Hst. destruct Hst as [-> Hst].
    destruct (get_non_terminal g' nt) as [N'|] eqn:EN; [|discriminate].
    destruct (is_raw (nt_name N')); [discriminate|].
    destruct (get_production g' nt 0) as [q'|] eqn:Eq; [|discriminate].
    destruct (variant_of (variant_names g) nt) as [v|] eqn:Ev; [|discriminate].
    inversion Hg; subst pr; simpl. split; auto. eapply action_index_bound; eauto.
  - exists (ho_entries ho entries). split; [apply hok_entries; auto|].
    assert (Hsub : forall x, In x (ho_entries ho entries) -> In x entries).
    { intro x. apply Permutation_in, hok_entries; auto. }
    apply mapM_Forall2 in H8. revert Hsub. induction H8 as [|[nt e] pr l l' Hg HF IH]; intro Hsub; constructor; auto.
    + simpl. simpl in Hg. apply bind_Ok in Hg. destruct Hg as (st & Hst & Hg).
      apply u32_spec in Hst. destruct Hst as [-> _].
      destruct (get_non_terminal g' nt) as [N'|] eqn:EN; [|discriminate].
      destruct (is_raw (nt_name N')); [discriminate|].
    destruct (get_production g' nt 0) as [q'|] eqn:Eq; [|discriminate].
      destruct (variant_of (variant_names g) nt) as [v|] eqn:Ev; [|discriminate].
      inversion Hg; subst pr; simpl. 
      destruct (go_nt_inv _ _ _ _ Hgo _ _ EN) as (N & HN & (S1 & S2 & S3 & S4)).
      destruct (go_prod_inv _ _ _ _ Hgo _ _ _ Eq) as (q & Hq & _).
      destruct (go_prod _ _ _ _ Hgo _ _ _ Hq) as (q2 & f & G1 & G2 & G3 & G4).
      rewrite Eq in G1; inversion G1; subst q2. rewrite E1. exists N, f, q. split; [apply Hsub; left; auto|].
      repeat (split; auto).
    + apply IH. intros x Hx. apply Hsub. right; auto.
Qed.
