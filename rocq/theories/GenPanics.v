(** * GenPanics: which panics code generation can raise *)
From Coq Require Import NArith.
From Verif Require Export GenProofs GenShape Termination.

Definition is_conflict (p : panic) : Prop :=
  match p with PShiftReduce _ _ _ _ _ | PReduceReduce _ _ _ _ _ _ | PAcceptReduce _ _ _ _ => True | _ => False end.

(** All panics of [r] satisfy [P]. *)
Definition panics {X} (P : panic -> Prop) (r : res X) : Prop := forall p, r = Panic p -> P p.

Lemma panics_bind {X Y} P (r : res X) (f : X -> res Y) : panics P r -> (forall x, r = Ok x -> panics P (f x)) -> panics P (bind r f).
Proof. intros H1 H2 p. destruct r as [x|q|]; cbn; [apply H2; auto|intro E; apply H1; congruence|discriminate]. Qed.
Lemma panics_Ok {X} P (x : X) : panics P (Ok x).
Proof. intros p H; discriminate. Qed.
Lemma panics_Panic {X} (P : panic -> Prop) p : P p -> panics P (Panic (X := X) p).
Proof. intros H q E. inversion E; subst; auto. Qed.
Lemma panics_mapM {X Y} P (f : X -> res Y) l : (forall x, In x l -> panics P (f x)) -> panics P (mapM f l).
Proof. intros H p E. apply mapM_panic in E. destruct E as (x & Hx & E). eapply H; eauto. Qed.
Lemma panics_foldM {X B} P (Q : B -> Prop) (f : B -> X -> res B) l : forall b, Q b ->
  (forall b x, Q b -> In x l -> panics P (f b x) /\ forall b', f b x = Ok b' -> Q b') -> panics P (foldM f l b).
Proof.
  induction l as [|x l IH]; intros b Hb H; cbn; [apply panics_Ok|].
  destruct (H b x Hb (or_introl eq_refl)) as [H1 H2]. apply panics_bind; auto. intros b' E. apply IH; [auto|].
  intros b2 x2 Hb2 Hx2. apply H; [auto|right; auto].
Qed.
Lemma panics_weaken {X} (P Q : panic -> Prop) (r : res X) : (forall p, P p -> Q p) -> panics P r -> panics Q r.
Proof. intros H1 H2 p E. auto. Qed.
Lemma panics_u16 n : panics (fun p => p = PTryFrom /\ (65536 <= N.of_nat n)%N) (u16_try_from n).
Proof. unfold u16_try_from. intros p. destruct (N.ltb_spec (N.of_nat n) 65536); [discriminate|]. intro H0. injection H0 as <-. auto. Qed.
Lemma panics_u32 n : panics (fun p => p = PTryFrom /\ (4294967296 <= N.of_nat n)%N) (u32_try_from n).
Proof. unfold u32_try_from. intros p. destruct (N.ltb_spec (N.of_nat n) 4294967296); [discriminate|]. intro H0. injection H0 as <-. auto. Qed.

(** Number of productions. *)
Definition count {A} (nts : list (non_terminal A)) : nat := list_sum (map (fun N => List.length (nt_productions N)) nts).

Section Panics.
Context {A : Type}.
Variable ho : hash_order.
Hypothesis Hho : hash_order_ok ho.
Notation never := (panics (fun _ => False)).

(** FIRST sets, closures and the automaton never panic (given one production per entry point). *)
Lemma first_never fuel (g : grammar A) : never (generate_first_table ho fuel g).
Proof.
  unfold generate_first_table. generalize (first_table_new (n_non_terminals g)).
  induction fuel as [|f IH]; intros tbl; cbn; [intros p H; discriminate|].
  destruct (first_pass ho g tbl) as [tbl' [|]]; [apply IH|apply panics_Ok].
Qed.
Lemma closure_never fuel (g : grammar A) tbl l : never (compute_lr1_closure ho fuel g tbl l).
Proof.
  apply panics_bind; [|intros; apply panics_Ok]. generalize (rev (ho_items ho l)). generalize l at 1.
  induction fuel as [|f IH]; intros cl [|it wl]; cbn; try apply panics_Ok; [intros p H; discriminate|].
  destruct (closure_step ho g tbl it (cl, wl)) as [cl' wl']. apply IH.
Qed.
Lemma automaton_never fuel (g : grammar A) tbl : wf_grammar g -> never (generate_lr1_automaton ho fuel g tbl).
Proof.
  intro Hwf. apply panics_bind.
  - apply panics_foldM with (Q := fun _ => True); auto. intros acc [nt n] _ Hin. split; auto.
    unfold add_entry. destruct (nt_public n) eqn:Ep; [|apply panics_Ok].
    apply enumerate_nth_error in Hin. change (get_non_terminal g nt = Some n) in Hin. destruct (wfg_pub g Hwf _ _ Hin Ep) as (q & m & Hq & _). rewrite Hq. cbn.
    apply panics_bind; [apply closure_never|intros; apply panics_Ok].
  - intros e _. apply panics_bind; [|intros; apply panics_Ok].
    assert (Hl : forall n sts ix, never (automaton_loop ho n fuel g tbl sts ix)).
    { induction n as [|n IH]; intros sts ix; cbn; [intros p H; discriminate|].
      apply panics_bind.
      - apply panics_bind.
        + apply panics_foldM with (Q := fun _ => True); auto. intros acc x _ _. split; auto.
          apply panics_foldM with (Q := fun _ => True); auto. intros acc' X _ _. split; auto.
          apply panics_bind; [apply closure_never|]. intros gt _. destruct gt; [apply panics_Ok|].
          match goal with |- context [map_get ?a ?b ?c] => destruct (map_get a b c) end; apply panics_Ok.
        + intros r _. cbv zeta. match goal with |- context [apply_gotos ?a ?b ?c] => destruct (apply_gotos a b c) end. apply panics_Ok.
      - intros [[sts' ix'] [|]] _; [apply IH|apply panics_Ok]. }
    apply Hl.
Qed.

(** Semantic actions: only too many productions. *)
Lemma variant_total (g : grammar A) n N : get_non_terminal g n = Some N -> exists v, variant_of (variant_names g) n = Some v.
Proof. apply variant_defined. Qed.

Lemma gen_productions_length variants nt : forall (ps : list (production A)) fns fns2 ps',
  gen_productions variants nt fns ps = Ok (fns2, ps') -> List.length fns2 = List.length fns + List.length ps.
Proof.
  induction ps as [|p ps IH]; cbn [gen_productions]; intros fns fns2 ps' H; [injection H as <- <-; cbn; lia|].
  apply bind_Ok in H. destruct H as ((fns1 & p1) & H1 & H). apply bind_Ok in H. destruct H as ((fns3 & ps2) & H2 & H).
  injection H as <- <-. apply IH in H2. unfold gen_production in H1. apply bind_Ok in H1. destruct H1 as (pops & _ & H1).
  destruct (variant_of variants nt); [|discriminate]. apply bind_Ok in H1. destruct H1 as (idx & Hi & H1).
  injection H1 as <- <-. rewrite app_length in H2. cbn [List.length] in H2 |- *. lia.
Qed.

Lemma semantic_actions_oversize (g : grammar A) : wf_grammar g ->
  panics (fun p => p = PTryFrom /\ (65536 < N.of_nat (count (g_nts g)))%N) (generate_semantic_action_table g (variant_names g)).
Proof.
  intro Hwf. apply panics_bind; [|intros [] _; apply panics_Ok].
  assert (Hprods : forall nt N ps fns, get_non_terminal g nt = Some N -> (forall pr, In pr ps -> In pr (nt_productions N)) ->
            panics (fun p => p = PTryFrom /\ (65536 < N.of_nat (List.length fns + List.length ps))%N) (gen_productions (variant_names g) nt fns ps)).
  { intros nt N ps. induction ps as [|p ps IH]; intros fns HN Hin; cbn; [apply panics_Ok|].
    apply panics_bind.
    - apply panics_bind.
      + apply panics_mapM. intros bs Hbs. unfold pop_code. destruct (bs_binder bs); [|apply panics_Ok].
        destruct (bs_symbol bs) as [m|t] eqn:Es; [|apply panics_Ok].
        assert (Hm : exists M, get_non_terminal g m = Some M).
        { destruct (In_nth_error _ _ (Hin p (or_introl eq_refl))) as (k & Hk).
          destruct (wfg_nt g Hwf nt k p m) as (M & HM & _); [unfold get_production; rewrite HN; auto| |eauto].
          unfold rhs. rewrite <- Es. apply in_map. apply in_rev. exact Hbs. }
        destruct Hm as (M & HM). destruct (variant_total _ _ _ HM) as (v & ->). apply panics_Ok.
      + intros pops _. destruct (variant_total _ _ _ HN) as (v & ->).
        apply panics_bind; [eapply panics_weaken; [|apply panics_u16]; cbn beta; intros q (-> & Hq); split; [auto|lia]|intros; apply panics_Ok].
    - intros [fns1 p'] H1. apply panics_bind; [|intros [] _; apply panics_Ok]. eapply panics_weaken; [|apply IH; auto; intros; apply Hin; right; auto].
      cbn beta. intros q (-> & Hq). split; auto. unfold gen_production in H1. apply bind_Ok in H1. destruct H1 as (pops & _ & H1).
      destruct (variant_of (variant_names g) nt); [|discriminate]. apply bind_Ok in H1. destruct H1 as (idx & Hi & H1).
      injection H1 as <- <-. rewrite app_length in Hq. cbn [List.length] in Hq. lia. }
  assert (Hnts : forall l k fns, (forall i N, nth_error l i = Some N -> get_non_terminal g (k + i) = Some N) ->
            panics (fun p => p = PTryFrom /\ (65536 < N.of_nat (List.length fns + count l))%N) (gen_non_terminals (variant_names g) k fns l)).
  { induction l as [|N l IH]; intros k fns H; cbn [gen_non_terminals]; [apply panics_Ok|].
    assert (Hc : count (N :: l) = List.length (nt_productions N) + count l) by reflexivity. rewrite Hc.
    apply panics_bind.
    - eapply panics_weaken; [|apply (Hprods k N); auto; specialize (H 0 N eq_refl); rewrite Nat.add_0_r in H; exact H].
      cbn beta. intros q (-> & Hq). split; auto. lia.
    - intros [fns1 ps] H1. apply gen_productions_length in H1. apply panics_bind; [|intros [] _; apply panics_Ok].
      eapply panics_weaken; [|apply IH; intros i M Hi; specialize (H (S i) M Hi); rewrite Nat.add_succ_r in H; exact H].
      cbn beta. intros q (-> & Hq). split; auto. lia. }
  eapply panics_weaken; [|apply (Hnts _ 0 []); intros i N Hi; exact Hi]. cbn beta. intros q Hq. exact Hq.
Qed.
End Panics.

Section TablePanics.
Context {A : Type}.
Variable ho : hash_order.
Variable g : grammar A.
Variable states : list lr1_state.

(** Accepts are on end of input only; shifts agree with the automaton. *)
Definition winv (tb : lr_table A) : Prop :=
  forall s t, get_action tb s (Some t) <> Some Accept /\
    forall n, get_action tb s (Some t) = Some (Shift n) ->
      exists st, nth_error states s = Some st /\ map_get symbol_eqb (T t) (st_goto st) = Some n.

Lemma winv_insert tb s la a : winv tb ->
  match a, la with
  | Accept, Some _ => False
  | Shift n, Some t => exists st, nth_error states s = Some st /\ map_get symbol_eqb (T t) (st_goto st) = Some n
  | _, _ => True
  end -> winv (insert_action tb s la a).
Proof.
  intros Hw Ha s' t'. rewrite get_action_insert. destruct (akey_eqb (s', Some t') (s, la)) eqn:E; [|apply Hw].
  apply akey_eqb_spec in E. inversion E; subst. split.
  - intro H. inversion H; subst. exact Ha.
  - intros n H. inversion H; subst. exact Ha.
Qed.

Lemma table_item_conflict s st tb it : nth_error states s = Some st -> TableProofs.item_ok g it -> winv tb ->
  panics is_conflict (table_item ho g s st tb it) /\ forall tb', table_item ho g s st tb it = Ok tb' -> winv tb'.
Proof.
  intros Hst (N & pr & HN & Hpr & Hone) Hw. unfold table_item.
  set (r1 := match next_terminal g it with Some t => _ | None => _ end).
  assert (H1 : panics is_conflict r1 /\ forall tb', r1 = Ok tb' -> winv tb').
  { subst r1. destruct (next_terminal g it) as [t|]; [|split; [apply panics_Ok|intros tb' H; inversion H; subst; auto]].
    destruct (map_get symbol_eqb (T t) (st_goto st)) as [nx|] eqn:En; [|split; [apply panics_Ok|intros tb' H; inversion H; subst; auto]].
    assert (Hi : winv (insert_action tb s (Some t) (Shift nx))) by (apply winv_insert; eauto).
    unfold add_shift. destruct (Hw s t) as [Hna Hsh]. destruct (get_action tb s (Some t)) as [[s'|? ? ?|]|] eqn:Eg.
    - destruct (Hsh _ eq_refl) as (st' & Hst' & Hg). assert (st' = st) by congruence. subst st'.
      assert (s' = nx) by congruence. subst. rewrite Nat.eqb_refl. split; [apply panics_Ok|intros tb' H; inversion H; subst; auto].
    - split; [apply panics_Ok|intros tb' H; inversion H; subst; auto].
    - congruence.
    - split; [apply panics_Ok|intros tb' H; inversion H; subst; auto]. }
  destruct H1 as [P1 W1]. destruct r1 as [tb1|p1|] eqn:E1; cbn [bind].
  2:{ split; [exact P1|discriminate]. } 2:{ split; [exact P1|discriminate]. }
  specialize (W1 _ eq_refl). rewrite HN, Hpr. clear E1 r1 P1.
  set (r2 := if is_complete g it && negb (nt_public N) then _ else _).
  assert (H2 : panics is_conflict r2 /\ forall tb', r2 = Ok tb' -> winv tb').
  { subst r2. destruct (is_complete g it && negb (nt_public N)); [|split; [apply panics_Ok|intros tb' H; inversion H; subst; auto]].
    unfold add_reduce. destruct (get_action tb1 s (it_la it)) as [[]|].
    - split; [apply panics_Panic; exact Logic.I|discriminate].
    - split; [apply panics_Panic; exact Logic.I|discriminate].
    - split; [apply panics_Panic; exact Logic.I|discriminate].
    - split; [apply panics_Ok|]. intros tb' H; inversion H; subst. apply winv_insert; auto. }
  destruct H2 as [P2 W2]. destruct r2 as [tb2|p2|] eqn:E2; cbn [bind].
  2:{ split; [exact P2|discriminate]. } 2:{ split; [exact P2|discriminate]. }
  specialize (W2 _ eq_refl). clear E2 r2 P2.
  assert (Hg : forall tb3, winv tb3 -> winv (add_gotos s (ho_gotos ho (st_goto st)) tb3)).
  { intros tb3 H s' t'. rewrite get_action_add_gotos. apply H. }
  destruct (nt_public N) eqn:Epub; cbn [andb].
  - rewrite (Hone eq_refl). cbn [Nat.eqb].
    destruct (Nat.eqb (it_cursor it) 1 && match it_la it with None => true | Some _ => false end); cbn [bind].
    + split; [apply panics_Ok|]. intros tb' H; inversion H; subst. apply Hg. apply winv_insert; auto.
    + split; [apply panics_Ok|]. intros tb' H; inversion H; subst. apply Hg; auto.
  - cbn [bind]. split; [apply panics_Ok|]. intros tb' H; inversion H; subst. apply Hg; auto.
Qed.

Lemma table_conflict : TableProofs.states_ok g states -> panics is_conflict (build_lr1_table ho g states).
Proof.
  intro Hok. apply panics_foldM with (Q := winv).
  - intros s t. cbn. split; discriminate.
  - intros tb [s st] Hw Hin. apply enumerate_nth_error in Hin. destruct (Hok _ _ Hin) as (_ & Hit & _).
    assert (Hgen : forall l tb, (forall x, In x l -> In x (st_items st)) -> winv tb ->
      panics is_conflict (foldM (table_item ho g s st) l tb) /\ forall b', foldM (table_item ho g s st) l tb = Ok b' -> winv b').
    { induction l as [|it l IH]; intros tb0 Hsub Hw0; cbn.
      - split; [apply panics_Ok|]. intros b' H; inversion H; subst; auto.
      - destruct (table_item_conflict s st tb0 it Hin (Hit _ (Hsub _ (or_introl eq_refl))) Hw0) as [P W].
        destruct (table_item ho g s st tb0 it) as [tb1|p|]; cbn.
        + apply IH; auto. intros; apply Hsub; right; auto.
        + split; [exact P|discriminate].
        + split; [exact P|discriminate]. }
    apply Hgen; auto.
Qed.
End TablePanics.

Section Generate.
Context {A : Type}.
Variable ho : hash_order.
Hypothesis Hho : hash_order_ok ho.

(** A [pub] non-terminal with a raw name. *)
Definition pub_raw (g : grammar A) : Prop :=
  exists nt N, get_non_terminal g nt = Some N /\ nt_public N = true /\ is_raw (nt_name N) = true.

(** A number that does not fit into the integers of the generated code. *)
Definition too_big (fuel : nat) (g : grammar A) : Prop :=
  (65536 < N.of_nat (count (g_nts g)))%N \/
  (exists nt k pr, get_production g nt k = Some pr /\ (65536 <= N.of_nat (List.length (p_symbols pr)))%N) \/
  (65536 < N.of_nat (n_non_terminals g))%N \/
  (exists tbl states entries, generate_first_table ho fuel g = Ok tbl /\
     generate_lr1_automaton ho fuel g tbl = Ok (states, entries) /\ (4294967296 < N.of_nat (List.length states))%N).

(** A raw name for the token type or an entry point. *)
Definition raw_stop (te : token_enum) (g : grammar A) : Prop := is_raw (te_type_name te) = true \/ pub_raw g.

(** ... stops code generation: *)
Lemma generate_not_raw fuel (g : grammar A) te gp : wf_grammar g -> generate_lr1_parser ho fuel g te = Ok gp -> ~ raw_stop te g.
Proof.
  intros Hwf H [Hr|(nt & N & HN & Hp & Hr)].
  { unfold generate_lr1_parser in H. do 7 (apply bind_Ok in H; destruct H as (? & _ & H); try match goal with x : _ * _ |- _ => destruct x end; cbv beta zeta iota in H).
    unfold token_terminal_idx_fn_name in H. rewrite Hr in H. discriminate. }
  destruct (generate_steps _ _ _ _ _ H) as
    (tbl & states & entries & fns & g' & tb & gv & H1 & H2 & H3 & H4 & H5 & H6 & H7 & H8 & _).
  pose proof (generate_lr1_automaton_ok g tbl ho Hho Hwf _ _ _ H2) as Haut.
  pose proof (generate_semantic_action_table_spec _ _ _ _ H3) as Hgo.
  destruct (ao_entries_complete _ _ _ _ Haut nt) as (e & He); [exists N; auto|].
  apply (Permutation_in _ (Permutation_sym (hok_entries _ Hho entries))) in He. apply In_nth_error in He. destruct He as (i & Hi).
  destruct (nth_error_mapM _ _ _ _ _ H8 Hi) as (pr & _ & Hg). cbn in Hg. apply bind_Ok in Hg. destruct Hg as (st & _ & Hg).
  destruct (go_nt _ _ _ _ Hgo _ _ HN) as (N' & HN' & (Hname & _)). rewrite HN', Hname, Hr in Hg. discriminate.
Qed.

Lemma generate_panics_gen (C : panic -> Prop) fuel (g : grammar A) te : wf_grammar g ->
  (forall tbl states entries fns g', generate_first_table ho fuel g = Ok tbl ->
     generate_lr1_automaton ho fuel g tbl = Ok (states, entries) ->
     generate_semantic_action_table g (variant_names g) = Ok (fns, g') ->
     panics C (build_lr1_table ho g' states)) ->
  panics (fun p => p = PTryFrom /\ too_big fuel g \/ p = PRawName /\ raw_stop te g \/ C p) (generate_lr1_parser ho fuel g te).
Proof.
  intros Hwf HC. unfold generate_lr1_parser.
  apply panics_bind; [eapply panics_weaken; [|apply first_never]; cbn; tauto|]. intros tbl Htbl.
  apply panics_bind; [eapply panics_weaken; [|apply automaton_never; auto]; cbn; tauto|]. intros [states entries] Ha.
  apply panics_bind; [eapply panics_weaken; [|apply semantic_actions_oversize; auto]|].
  { cbn beta. intros p (-> & Hp). left. split; [reflexivity|]. left. exact Hp. }
  intros [fns g'] Hs.
  pose proof (generate_lr1_automaton_ok g tbl ho Hho Hwf _ _ _ Ha) as Haut.
  pose proof (generate_semantic_action_table_spec _ _ _ _ Hs) as Hgo.
  pose proof (automaton_states_ok _ _ _ _ _ _ _ Hwf Hgo Haut) as Hso.
  destruct (build_lr1_table_spec g' ho Hho states Hso) as (B1 & _ & _).
  apply panics_bind; [eapply panics_weaken; [|eapply HC; eauto]; auto|]. intros tb Htb.
  destruct (B1 _ Htb) as (_ & Htab). pose proof (to_n _ _ _ Htab) as Hns.
  assert (Hnt : n_terminals g' = n_terminals g) by (unfold n_terminals; rewrite (go_terminals _ _ _ _ Hgo); auto).
  assert (Hsz : forall P : Prop, P -> (P -> too_big fuel g) -> forall p, p = PTryFrom /\ P -> p = PTryFrom /\ too_big fuel g \/ p = PRawName /\ raw_stop te g \/ C p).
  { intros P _ HP p (-> & H). auto. }
  assert (Hst : forall j, j < List.length states -> panics (fun p => p = PTryFrom /\ too_big fuel g \/ p = PRawName /\ raw_stop te g \/ C p) (u32_try_from j)).
  { intros j Hj. eapply panics_weaken; [|apply panics_u32]. cbn beta. intros p (-> & Hp). left. split; auto. do 3 right.
    exists tbl, states, entries. repeat (split; auto). lia. }
  assert (Hgoto : forall s st X j, nth_error states s = Some st -> map_get symbol_eqb X (st_goto st) = Some j -> j < List.length states).
  { intros s st X j H1 H2. destruct (ao_goto _ _ _ _ Haut _ _ _ _ H1 H2) as (s' & H3 & _). apply nth_error_Some. congruence. }
  apply panics_bind.
  { unfold generate_action_array. unfold action_table_vec at 1. rewrite map_length, seq_length, Nat.eqb_refl.
    apply panics_mapM. intros row Hrow. unfold action_table_vec in Hrow. apply in_map_iff in Hrow. destruct Hrow as (s & <- & Hsn).
    rewrite app_length, map_length. unfold terminal_indices. rewrite seq_length, Hnt. cbn [List.length]. rewrite Nat.eqb_refl.
    apply in_seq in Hsn.
    apply panics_mapM. intros a Hin.
    assert (Hla : exists la, a = get_action tb s la).
    { apply in_app_iff in Hin. destruct Hin as [Hin|[<-|[]]]; eauto. apply in_map_iff in Hin. destruct Hin as (t & <- & _). eauto. }
    destruct Hla as (la & ->). unfold emit_action.
    destruct (nth_error states s) as [st|] eqn:Es; [|apply nth_error_None in Es; lia].
    destruct (get_action tb s la) as [[n|n p ac|]|] eqn:Eg; try apply panics_Ok.
    - apply panics_bind; [|intros; apply panics_Ok]. apply Hst.
      destruct (tv_inv _ _ _ _ _ (to_act _ _ _ Htab _ _ Es) _ _ Eg) as (it & _ & (t & _ & _ & Hg)). eapply Hgoto; eauto.
    - destruct (tv_inv _ _ _ _ _ (to_act _ _ _ Htab _ _ Es) _ _ Eg) as (it & pr & _ & _ & _ & _ & Hp & _). rewrite Hp.
      destruct (go_prod_inv _ _ _ _ Hgo _ _ _ Hp) as (q & Hq & Hlen).
      apply panics_bind.
      { eapply panics_weaken; [|apply panics_u16]. cbn beta. intros p0 (-> & H0). left. split; auto. right. left. exists n, p, q.
        rewrite <- Hlen. auto. }
      intros; apply panics_bind; [|intros; apply panics_Ok].
      eapply panics_weaken; [|apply panics_u16]. cbn beta. intros p0 (-> & H0). left. split; auto. right. right. left.
      unfold get_production in Hq. destruct (get_non_terminal g n) eqn:En; [|discriminate]. apply nt_in_range in En. lia. }
  intros ar _. apply panics_bind.
  { apply panics_mapM. intros s _. apply panics_mapM. intros nt Hin. apply in_seq in Hin. apply panics_bind; [|intros; apply panics_Ok].
    eapply panics_weaken; [|apply panics_u32]. cbn beta. intros p0 (-> & H0). left. split; auto. right. right. left.
    rewrite <- (go_len _ _ _ _ Hgo). lia. }
  intros gv Hgv. apply panics_bind.
  { apply panics_mapM. intros row Hrow. apply panics_mapM. intros [o|] Ho; [|apply panics_Ok].
    apply panics_bind; [|intros; apply panics_Ok]. apply Hst.
    unfold generate_goto_vec in Hgv. destruct (mapM_In _ _ _ _ Hgv Hrow) as (s & Hs1 & Hs2). apply in_seq in Hs1.
    destruct (mapM_In _ _ _ _ Hs2 Ho) as (nt & _ & Hn2). apply bind_Ok in Hn2. destruct Hn2 as (nt' & _ & Hn2). injection Hn2 as Hn2.
    destruct (nth_error states s) as [st|] eqn:Es; [|apply nth_error_None in Es; lia].
    rewrite (to_goto _ _ _ Htab _ _ _ Es) in Hn2. eapply Hgoto; eauto. }
  intros gt _. apply panics_bind.
  { unfold token_terminal_idx_fn_name. destruct (is_raw (te_type_name te)) eqn:Er; [|apply panics_Ok].
    intros p E. injection E as <-. right. left. split; auto. left. auto. }
  intros _ _. apply panics_bind; [|intros; apply panics_Ok].
  apply panics_mapM. intros [nt e] Hin. apply (Permutation_in _ (hok_entries _ Hho entries)) in Hin.
  destruct (ao_entry _ _ _ _ Haut _ _ Hin) as ((N & HN & Hp) & s0 & Hs0 & _).
  cbn. apply panics_bind; [apply Hst; apply nth_error_Some; congruence|]. intros st _.
  destruct (wfg_pub g Hwf _ _ HN Hp) as (q & m & Hq & _).
  assert (Hpr : get_production g nt 0 = Some q) by (unfold get_production; rewrite HN, Hq; auto).
  destruct (go_prod _ _ _ _ Hgo _ _ _ Hpr) as (q' & f & Hq' & _).
  destruct (go_nt _ _ _ _ Hgo _ _ HN) as (N' & HN' & (Hname & _)). rewrite HN', Hq'.
  destruct (is_raw (nt_name N')) eqn:Er.
  { intros p0 E0. injection E0 as <-. right. left. split; auto. right. exists nt, N. rewrite <- Hname. auto. }
  destruct (variant_defined g nt N HN) as (v & ->). apply panics_Ok.
Qed.

Lemma generate_panics fuel (g : grammar A) te : wf_grammar g ->
  panics (fun p => p = PTryFrom /\ too_big fuel g \/ p = PRawName /\ raw_stop te g \/ is_conflict p) (generate_lr1_parser ho fuel g te).
Proof.
  intro Hwf. apply generate_panics_gen; auto. intros tbl states entries fns g' _ Ha Hs. apply table_conflict.
  eapply automaton_states_ok; [exact Hwf|eapply generate_semantic_action_table_spec; eauto|].
  eapply generate_lr1_automaton_ok; eauto.
Qed.

(** Without a conflict only the size of the grammar and raw names can stop code generation. *)
Lemma generate_panics_no_conflict fuel (g : grammar A) te : wf_grammar g ->
  (forall tbl states entries, generate_first_table ho fuel g = Ok tbl ->
     generate_lr1_automaton ho fuel g tbl = Ok (states, entries) -> no_detected_conflict g states) ->
  panics (fun p => p = PTryFrom /\ too_big fuel g \/ p = PRawName /\ raw_stop te g) (generate_lr1_parser ho fuel g te).
Proof.
  intros Hwf Hno. eapply panics_weaken; [|apply (generate_panics_gen (fun _ => False)); auto]; [cbn; tauto|].
  intros tbl states entries fns g' Ht Ha Hs p E.
  pose proof (generate_lr1_automaton_ok g tbl ho Hho Hwf _ _ _ Ha) as Haut.
  pose proof (generate_semantic_action_table_spec _ _ _ _ Hs) as Hgo.
  pose proof (automaton_states_ok _ _ _ _ _ _ _ Hwf Hgo Haut) as Hso.
  destruct (build_lr1_table_spec g' ho Hho states Hso) as (B1 & B2 & _).
  destruct B2 as (tb & Htb); [eapply tr_no_detected_conflict; eauto|]. congruence.
Qed.

(** Conversely a conflict panic comes from a conflict in the automaton. *)
Lemma generate_conflict fuel (g : grammar A) te p : wf_grammar g ->
  generate_lr1_parser ho fuel g te = Panic p -> is_conflict p ->
  exists tbl states entries, generate_first_table ho fuel g = Ok tbl /\
    generate_lr1_automaton ho fuel g tbl = Ok (states, entries) /\ ~ no_detected_conflict g states.
Proof.
  intros Hwf E Hc. pose proof E as E0. unfold generate_lr1_parser in E.
  destruct (generate_first_table ho fuel g) as [tbl|q|] eqn:Et; cbn [bind] in E.
  2:{ exfalso. eapply first_never; eauto. } 2:{ discriminate. }
  destruct (generate_lr1_automaton ho fuel g tbl) as [[states entries]|q|] eqn:Ea; cbn [bind] in E.
  2:{ exfalso. eapply automaton_never; eauto. } 2:{ discriminate. }
  exists tbl, states, entries. split; auto. split; auto. intro Hno.
  assert (Hor : p = PTryFrom /\ too_big fuel g \/ p = PRawName /\ raw_stop te g); [|destruct Hor as [[-> _]|[-> _]]; exact Hc].
  eapply (generate_panics_no_conflict fuel g te Hwf); [|exact E0].
  intros tbl' st' en' H1 H2. assert (tbl' = tbl) by congruence. subst tbl'. rewrite Ea in H2. injection H2 as <- <-. exact Hno.
Qed.
End Generate.
