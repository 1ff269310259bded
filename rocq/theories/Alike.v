(** * Alike: grammars of the same shape generate the same tables (C46) *)
From Verif Require Export Shape GenPanics.
From Coq Require Import NArith.

(** Two expansion-time computations end alike: with results related by [R], or with panics related by [P]. *)
Definition alike {X Y} (P : panic -> panic -> Prop) (R : X -> Y -> Prop) (r : res X) (r' : res Y) : Prop :=
  match r, r' with
  | Ok x, Ok y => R x y
  | Panic p, Panic q => P p q
  | OutOfFuel, OutOfFuel => True
  | _, _ => False
  end.
Lemma alike_bind {X Y X' Y'} (P : panic -> panic -> Prop) (R : X -> Y -> Prop) (R' : X' -> Y' -> Prop) r r' k k' :
  alike P R r r' -> (forall x y, r = Ok x -> r' = Ok y -> R x y -> alike P R' (k x) (k' y)) -> alike P R' (bind r k) (bind r' k').
Proof. destruct r, r'; simpl; try tauto. intros H Hk. auto. Qed.
Lemma alike_refl {X} (P : panic -> panic -> Prop) (R : X -> X -> Prop) r r' : (forall p, P p p) -> (forall x, R x x) -> r = r' -> alike P R r r'.
Proof. intros HP HR ->. destruct r'; simpl; auto. Qed.
Lemma alike_weaken {X Y} (P Q : panic -> panic -> Prop) (R S : X -> Y -> Prop) r r' : alike P R r r' ->
  (forall p q, P p q -> Q p q) -> (forall x y, R x y -> S x y) -> alike Q S r r'.
Proof. destruct r, r'; simpl; auto; tauto. Qed.

Lemma Forall2_weaken {X Y} (R S : X -> Y -> Prop) l l' : (forall x y, R x y -> S x y) -> Forall2 R l l' -> Forall2 S l l'.
Proof. intros H. induction 1; constructor; auto. Qed.

(** Right-hand sides mention existing non-terminals only. *)
Definition nts_in_range {A} (g : grammar A) : Prop :=
  forall N p m, In N (g_nts g) -> In p (nt_productions N) -> In (NT m) (rhs p) -> m < List.length (g_nts g).
Lemma wf_nts_in_range {A} (g : grammar A) : wf_grammar g -> nts_in_range g.
Proof.
  intros Hwf N p m HN Hp Hm. apply In_nth_error in HN, Hp. destruct HN as (n & HN). destruct Hp as (k & Hp).
  destruct (wfg_nt g Hwf n k p m) as (M & HM & _); auto.
  - unfold get_production, get_non_terminal. rewrite HN. auto.
  - apply nt_in_range in HM. exact HM.
Qed.

Section Gen.
Context {A B : Type}.
(** How corresponding productions and corresponding generated functions are related. *)
Variable PR : production A -> production B -> Prop.
Variable FR : sem_fn A -> sem_fn B -> Prop.
Variables (vs vs' : list nat).
Hypothesis PR_rhs : forall p q, PR p q -> rhs p = rhs q.
Hypothesis HF : forall nt p q f f', PR p q -> fn_for vs nt p f -> fn_for vs' nt q f' -> FR f f'.
Hypothesis Hlen : List.length vs = List.length vs'.

Lemma pops_total {X} (us : list nat) (p : production X) : (forall m, In (NT m) (rhs p) -> m < List.length us) ->
  exists l, mapM (pop_code us) (rev (p_symbols p)) = Ok l.
Proof.
  intro H. apply LowerProofs.mapM_total. intros bs Hbs. apply in_rev in Hbs. unfold pop_code.
  destruct (bs_binder bs); eauto. destruct (bs_symbol bs) as [m|t] eqn:E; eauto.
  destruct (variant_of us m) as [v|] eqn:Ev; eauto. apply nth_error_None in Ev.
  assert (Hm : m < List.length us); [|lia]. apply H. unfold rhs. rewrite <- E. apply in_map. auto.
Qed.

Notation PE := (@eq panic).
Lemma gen_production_alike nt fns fns' p q : PR p q -> (forall m, In (NT m) (rhs p) -> m < List.length vs) -> nt < List.length vs ->
  Forall2 FR fns fns' ->
  alike PE (fun a b => Forall2 FR (fst a) (fst b) /\ ashape_p (snd a) = ashape_p (snd b)) (gen_production vs nt fns p) (gen_production vs' nt fns' q).
Proof.
  intros Hpq Hm Hnt Hfns. pose proof (PR_rhs _ _ Hpq) as Hr.
  destruct (gen_production vs nt fns p) as [[f1 p1]|e|] eqn:E1; destruct (gen_production vs' nt fns' q) as [[f2 q2]|e'|] eqn:E2; simpl.
  - apply gen_production_spec in E1. apply gen_production_spec in E2.
    destruct E1 as (f & -> & Hf & Hs1 & Ha1). destruct E2 as (f' & -> & Hf' & Hs2 & Ha2). simpl. split.
    + apply Forall2_app; auto. constructor; auto. eapply HF; eauto.
    + unfold ashape_p, rhs. rewrite Hs1, Hs2, Ha1, Ha2. rewrite (Forall2_len _ _ _ Hfns). unfold rhs in Hr. rewrite Hr. auto.
  - exfalso. revert E1 E2. unfold gen_production. destruct (pops_total vs p Hm) as (l & ->).
    destruct (pops_total vs' q) as (l' & ->); [rewrite <- Hr, <- Hlen; auto|]. cbn [bind]. unfold variant_of.
    destruct (nth_error vs nt) eqn:Ev; [|apply nth_error_None in Ev; lia].
    destruct (nth_error vs' nt) eqn:Ev'; [|apply nth_error_None in Ev'; lia].
    rewrite (Forall2_len _ _ _ Hfns). destruct (u16_try_from (List.length fns')); cbn; discriminate.
  - exfalso. revert E1 E2. unfold gen_production. destruct (pops_total vs p Hm) as (l & ->).
    destruct (pops_total vs' q) as (l' & ->); [rewrite <- Hr, <- Hlen; auto|]. cbn [bind]. unfold variant_of.
    destruct (nth_error vs nt) eqn:Ev; [|apply nth_error_None in Ev; lia].
    destruct (nth_error vs' nt) eqn:Ev'; [|apply nth_error_None in Ev'; lia].
    rewrite (Forall2_len _ _ _ Hfns). destruct (u16_try_from (List.length fns')); cbn; discriminate.
  - exfalso. revert E1 E2. unfold gen_production. destruct (pops_total vs p Hm) as (l & ->).
    destruct (pops_total vs' q) as (l' & ->); [rewrite <- Hr, <- Hlen; auto|]. cbn [bind]. unfold variant_of.
    destruct (nth_error vs nt) eqn:Ev; [|apply nth_error_None in Ev; lia].
    destruct (nth_error vs' nt) eqn:Ev'; [|apply nth_error_None in Ev'; lia].
    rewrite (Forall2_len _ _ _ Hfns). destruct (u16_try_from (List.length fns')); cbn; discriminate.
  - revert E1 E2. unfold gen_production. destruct (pops_total vs p Hm) as (l & ->).
    destruct (pops_total vs' q) as (l' & ->); [rewrite <- Hr, <- Hlen; auto|]. cbn [bind]. unfold variant_of.
    destruct (nth_error vs nt) eqn:Ev; [|apply nth_error_None in Ev; lia].
    destruct (nth_error vs' nt) eqn:Ev'; [|apply nth_error_None in Ev'; lia].
    rewrite (Forall2_len _ _ _ Hfns). destruct (u16_try_from (List.length fns')); cbn; congruence.
  - exfalso. revert E2. unfold gen_production. 
    destruct (pops_total vs' q) as (l' & ->); [rewrite <- Hr, <- Hlen; auto|]. cbn [bind]. unfold variant_of.
    destruct (nth_error vs' nt) eqn:Ev'; [|apply nth_error_None in Ev'; lia].
    unfold u16_try_from. destruct (_ <? _)%N; cbn; discriminate.
  - exfalso. revert E1. unfold gen_production. destruct (pops_total vs p Hm) as (l & ->). cbn [bind]. unfold variant_of.
    destruct (nth_error vs nt) eqn:Ev; [|apply nth_error_None in Ev; lia].
    unfold u16_try_from. destruct (_ <? _)%N; cbn; discriminate.
  - exfalso. revert E1. unfold gen_production. destruct (pops_total vs p Hm) as (l & ->). cbn [bind]. unfold variant_of.
    destruct (nth_error vs nt) eqn:Ev; [|apply nth_error_None in Ev; lia].
    unfold u16_try_from. destruct (_ <? _)%N; cbn; discriminate.
  - auto.
Qed.
Lemma gen_productions_alike nt ps qs : Forall2 PR ps qs -> (forall p m, In p ps -> In (NT m) (rhs p) -> m < List.length vs) ->
  nt < List.length vs -> forall fns fns', Forall2 FR fns fns' ->
  alike PE (fun a b => Forall2 FR (fst a) (fst b) /\ map ashape_p (snd a) = map ashape_p (snd b))
    (gen_productions vs nt fns ps) (gen_productions vs' nt fns' qs).
Proof.
  intros H. induction H as [|p q ps qs Hpq Hps IH]; intros Hm Hnt fns fns' Hf; cbn [gen_productions]; [simpl; auto|].
  eapply alike_bind.
  - apply gen_production_alike; eauto. intros m Hi. apply (Hm p m); simpl; auto.
  - intros [f1 p'] [f2 q'] _ _ [H1 H2]. cbn [fst snd] in *. eapply alike_bind.
    + apply IH; auto. intros r m Hr. apply Hm. right; auto.
    + intros [f3 ps'] [f4 qs'] _ _ [H3 H4]. cbn [fst snd] in *. simpl. split; auto. congruence.
Qed.

(** Corresponding non-terminals: the same visibility and productions related one by one. *)
Definition nt_alike (N : non_terminal A) (M : non_terminal B) : Prop :=
  nt_public N = nt_public M /\ Forall2 PR (nt_productions N) (nt_productions M).

Lemma gen_non_terminals_alike ns ms : Forall2 nt_alike ns ms ->
  (forall N p m, In N ns -> In p (nt_productions N) -> In (NT m) (rhs p) -> m < List.length vs) ->
  forall k, k + List.length ns <= List.length vs -> forall fns fns', Forall2 FR fns fns' ->
  alike PE (fun a b => Forall2 FR (fst a) (fst b) /\ map ashape_n (snd a) = map ashape_n (snd b))
    (gen_non_terminals vs k fns ns) (gen_non_terminals vs' k fns' ms).
Proof.
  intro H. induction H as [|N M ns ms [Hpub Hps] Hns IH]; intros Hm k Hk fns fns' Hf; cbn [gen_non_terminals]; [simpl; auto|].
  simpl in Hk. eapply alike_bind.
  - apply gen_productions_alike; eauto; [|lia]. intros p m Hp. apply Hm with (N := N); simpl; auto.
  - intros [f1 p'] [f2 q'] _ _ [H1 H2]. cbn [fst snd] in *. eapply alike_bind.
    + apply IH; auto; [|lia]. intros N' p m HN'. apply Hm. right; auto.
    + intros [f3 ps'] [f4 qs'] _ _ [H3 H4]. cbn [fst snd] in *. simpl. split; auto. unfold ashape_n at 1 3. simpl. congruence.
Qed.
End Gen.

Section Generate.
Context {A B : Type}.
Variable PR : production A -> production B -> Prop.
Variable FR : sem_fn A -> sem_fn B -> Prop.
Hypothesis PR_rhs : forall p q, PR p q -> rhs p = rhs q.
Variables (g : grammar A) (h : grammar B).
Hypothesis Hnts : Forall2 (nt_alike PR) (g_nts g) (g_nts h).
Hypothesis Hterms : List.length (g_terminals g) = List.length (g_terminals h).
Hypothesis Hrange : nts_in_range g.
Hypothesis HF : forall nt p q f f', PR p q -> fn_for (variant_names g) nt p f -> fn_for (variant_names h) nt q f' -> FR f f'.
(** Entry points with raw names correspond. *)
Hypothesis Hraw : forall nt N M, get_non_terminal g nt = Some N -> get_non_terminal h nt = Some M -> nt_public N = true ->
  is_raw (nt_name M) = is_raw (nt_name N).

Lemma alike_shape : shape g = shape h.
Proof.
  unfold shape. rewrite Hterms. f_equal. apply Forall2_map_eq. apply (Forall2_weaken _ _ _ _) with (2 := Hnts).
  intros N M [H1 H2]. unfold nshape. rewrite H1. f_equal. apply Forall2_map_eq. apply (Forall2_weaken _ _ _ _) with (2 := H2). auto.
Qed.
Lemma alike_variants_length : List.length (variant_names g) = List.length (variant_names h).
Proof. rewrite (proj1 (variant_names_spec g)), (proj1 (variant_names_spec h)). apply (sh_n_nts g h alike_shape). Qed.

(** One parser struct of each module, for the same entry point. *)
Definition parser_alike (pr pr' : parser_struct) : Prop :=
  pr_init_state pr = pr_init_state pr' /\ pr_action_idx pr = pr_action_idx pr' /\
  exists nt N M, get_non_terminal g nt = Some N /\ get_non_terminal h nt = Some M /\ nt_public N = true /\
    pr_name pr = nt_name N /\ pr_return_ty pr = nt_return_ty N /\ variant_of (variant_names g) nt = Some (pr_extract_variant pr) /\
    pr_name pr' = nt_name M /\ pr_return_ty pr' = nt_return_ty M /\ variant_of (variant_names h) nt = Some (pr_extract_variant pr').

(** The [expected] strings list the terminals at the same positions. *)
Definition expected_alike (ex ex' : list string) : Prop :=
  exists ls : list (list nat), (forall l t, In l ls -> In t l -> t < n_terminals g) /\
    ex = map (fun l => join (map (fun t => nth t (g_terminals g) ""%string) l)) ls /\
    ex' = map (fun l => join (map (fun t => nth t (g_terminals h) ""%string) l)) ls.

Lemma selected_nth {X} (d : X) (sel : nat -> bool) (l : list X) : forall k pre, List.length pre = k ->
  flat_map (fun '(t, x) => if sel t then [x] else []) (combine (seq k (List.length l)) l) =
  map (fun t => nth t (pre ++ l) d) (filter sel (seq k (List.length l))).
Proof.
  induction l as [|x l IH]; intros k pre Hk; simpl; auto.
  specialize (IH (S k) (pre ++ [x])). rewrite app_length in IH. simpl in IH. rewrite IH by lia. rewrite <- app_assoc. simpl.
  destruct (sel k); simpl; auto. f_equal. rewrite app_nth2 by lia. replace (k - List.length pre) with 0 by lia. auto.
Qed.
Definition some_action {X} (o : option X) : bool := match o with Some _ => true | None => false end.
Lemma expected_spec (g' : grammar nat) (tb : lr_table nat) : expected_state_tokens g' tb =
  map (fun l => join (map (fun t => nth t (g_terminals g') ""%string) l))
    (map (fun s => filter (fun t => some_action (get_action tb s (Some t))) (seq 0 (List.length (g_terminals g')))) (seq 0 (tb_n_states tb))).
Proof.
  unfold expected_state_tokens. rewrite map_map. apply map_ext. intro s. f_equal. unfold enumerate.
  rewrite <- (selected_nth ""%string _ (g_terminals g') 0 []); auto. apply flat_map_ext. intros [t x]. destruct (get_action tb s (Some t)); auto.
Qed.

Record module_alike (cs cs' : list conversion) (gp : generated A) (gp' : generated B) : Prop := {
  ma_action : gp_action gp = gp_action gp';
  ma_goto : gp_goto gp = gp_goto gp';
  ma_fns : Forall2 FR (gp_sem_actions gp) (gp_sem_actions gp');
  ma_expected : expected_alike (gp_expected gp) (gp_expected gp');
  ma_strs : gp_terminal_strs gp = token_to_text g /\ gp_terminal_strs gp' = token_to_text h;
  ma_terms : gp_n_terminals gp = gp_n_terminals gp';
  ma_parsers : Forall2 parser_alike (gp_parsers gp) (gp_parsers gp');
  ma_conv : gp_conversions gp = cs /\ gp_conversions gp' = cs'
}.

Theorem generate_alike ho (Hho : hash_order_ok ho) (Hwf : wf_grammar g) fuel te te' : is_raw (te_type_name te') = is_raw (te_type_name te) ->
  alike eq (module_alike (te_conversions te) (te_conversions te')) (generate_lr1_parser ho fuel g te) (generate_lr1_parser ho fuel h te').
Proof.
  intro Hte. pose proof alike_shape as Hs. unfold generate_lr1_parser, token_terminal_idx_fn_name. rewrite (sh_first_table g h Hs).
  destruct (generate_first_table ho fuel h) as [tbl|p|]; simpl; auto.
  rewrite <- (sh_automaton g h Hs). destruct (generate_lr1_automaton ho fuel g tbl) as [[states entries]|p|] eqn:Ea; simpl; auto.
  pose proof (generate_lr1_automaton_ok g tbl ho Hho Hwf fuel states entries Ea) as Hauto.
  assert (Hsem : alike eq (fun a b => Forall2 FR (fst a) (fst b) /\ gen_ok g (variant_names g) (fst a) (snd a) /\ gen_ok h (variant_names h) (fst b) (snd b) /\ ashape (snd a) = ashape (snd b))
                   (generate_semantic_action_table g (variant_names g)) (generate_semantic_action_table h (variant_names h))).
  { destruct (generate_semantic_action_table g (variant_names g)) as [[fns g']|e|] eqn:E1;
    destruct (generate_semantic_action_table h (variant_names h)) as [[fns' h']|e'|] eqn:E2; 
    pose proof E1 as E1'; pose proof E2 as E2';
    try apply generate_semantic_action_table_spec in E1; try apply generate_semantic_action_table_spec in E2;
    unfold generate_semantic_action_table in E1', E2';
    pose proof (gen_non_terminals_alike PR FR (variant_names g) (variant_names h) PR_rhs HF alike_variants_length _ _ Hnts) as Ha;
    assert (Hr : forall N p m, In N (g_nts g) -> In p (nt_productions N) -> In (NT m) (rhs p) -> m < List.length (variant_names g))
      by (rewrite (proj1 (variant_names_spec g)); exact Hrange);
    specialize (Ha Hr 0 ltac:(rewrite (proj1 (variant_names_spec g)); unfold n_non_terminals; lia) [] [] (Forall2_nil _));
    destruct (gen_non_terminals (variant_names g) 0 [] (g_nts g)) as [[f1 n1]|e1|];
    destruct (gen_non_terminals (variant_names h) 0 [] (g_nts h)) as [[f2 n2]|e2|]; cbn [bind] in *; simpl in Ha; try contradiction; try discriminate.
    - injection E1' as <- <-. injection E2' as <- <-. simpl. destruct Ha as [Ha1 Ha2]. split; auto. split; auto. split; auto.
      unfold ashape. simpl. rewrite Hterms. congruence.
    - simpl. congruence.
    - simpl. auto. }
  eapply alike_bind; [exact Hsem|]. clear Hsem. intros [fns g'] [fns' h'] _ _ (Hfr & Hg & Hh & Has). cbn [fst snd] in *.
  rewrite (ash_table g' h' Has ho). destruct (build_lr1_table ho h' states) as [tb|p|]; simpl; auto.
  rewrite (ash_action_vec g' h' Has), (ash_action_array g' h' Has), (sh_terms g h Hs).
  destruct (generate_action_array h' _ _ _) as [act|p|]; simpl; auto.
  rewrite (sh_n_nts g' h' (ashape_shape _ _ Has)). destruct (generate_goto_vec tb (n_non_terminals h')) as [gv|p|]; simpl; auto.
  destruct (generate_goto_array gv) as [gt|p|]; simpl; auto.
  assert (Hpr : alike eq (Forall2 parser_alike) (mapM (gen_parser g' (variant_names g)) (ho_entries ho entries)) (mapM (gen_parser h' (variant_names h)) (ho_entries ho entries))).
  { assert (Hin : forall nt e, In (nt, e) (ho_entries ho entries) -> is_public g nt).
    { intros nt e Hi. apply (Permutation_in _ (hok_entries ho Hho entries)) in Hi. apply (ao_entry _ _ _ _ Hauto _ _ Hi). }
    clear Hauto. induction (ho_entries ho entries) as [|[nt e] l IH]; cbn [mapM]; [simpl; auto|].
    eapply alike_bind with (R := parser_alike).
    - destruct (Hin nt e (or_introl eq_refl)) as (N & HN & Hpub). unfold gen_parser.
      destruct (u32_try_from e) as [st|p|]; simpl; auto.
      pose proof (sh_nt g h Hs nt) as Hq. rewrite HN in Hq. destruct (get_non_terminal h nt) as [M|] eqn:HM; [|discriminate].
      destruct (go_nt _ _ _ _ Hg _ _ HN) as (N' & HN' & (S1 & S2 & S3 & _)).
      destruct (go_nt _ _ _ _ Hh _ _ HM) as (M' & HM' & (T1 & T2 & T3 & _)). rewrite HN', HM', S1, T1, (Hraw nt N M HN HM Hpub).
      destruct (is_raw (nt_name N)); [reflexivity|]. 
      destruct (variant_defined g nt N HN) as (v & Hv). destruct (variant_defined h nt M HM) as (v' & Hv'). rewrite Hv, Hv'.
      pose proof (ash_prod g' h' Has nt 0) as Hp. destruct (get_production g' nt 0) as [p|], (get_production h' nt 0) as [q|]; try discriminate; simpl; auto.
      injection Hp as _ Hact. split; [auto|]. split; [auto|]. exists nt, N, M. simpl. repeat (split; [solve [auto]|]). auto.
    - intros pr pr' _ _ Hp. eapply alike_bind; [apply IH; intros nt' e' Hi; apply (Hin nt' e'); right; auto|].
      intros l1 l2 _ _ Hl. simpl. constructor; auto. }
  rewrite Hte. destruct (is_raw (te_type_name te)); simpl; auto.
  eapply alike_bind; [exact Hpr|]. intros l1 l2 _ _ Hl. simpl. constructor; simpl; auto.
  - exists (map (fun s => filter (fun t => some_action (get_action tb s (Some t))) (seq 0 (n_terminals g))) (seq 0 (tb_n_states tb))).
    split; [|split].
    + intros l t Hin Ht. apply in_map_iff in Hin. destruct Hin as (s & <- & _). apply filter_In in Ht. destruct Ht as [Ht _]. apply in_seq in Ht. lia.
    + rewrite expected_spec. rewrite (go_terminals _ _ _ _ Hg). reflexivity.
    + rewrite expected_spec. rewrite (go_terminals _ _ _ _ Hh). unfold n_terminals. rewrite Hterms. reflexivity.
  - unfold token_to_text. rewrite (go_terminals _ _ _ _ Hg), (go_terminals _ _ _ _ Hh). auto.
Qed.
End Generate.
