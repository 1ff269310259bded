(** * PropertiesTyped: C67, the emitted module is well-typed *)
From Coq Require Import NArith Ascii.
From Verif Require Import NamesProofs StageProofs ActionProofs LowerTrees GenPanics PropertiesHygiene EmitModule EmitRun EmitProofs EmitBinds PropertiesEmit.
From Verif Require Export EmitNeeds.
Local Open Scope string_scope. Local Open Scope list_scope.

Section WellTyped.
Context {A : Type}.
Variables (items : list (grammar_item A)) (te : token_enum) (g : grammar (lexpr A)) (gp : generated (lexpr A)).
Hypothesis Hnames : distinct_names items.
Hypothesis Hplain : plain_patterns items.
Hypothesis Hex : expands items gp.
Hypothesis Hnamed : named items te g.

Lemma entries_conversions : token_entries items = te_conversions te.
Proof. destruct (hygiene_data items te g gp Hex Hnamed) as (ti & act & tbl & states & entries & ho & fuel & _ & _ & _ & _ & _ & _ & Hcs). exact Hcs. Qed.
Lemma method_of m tys : declared_as (method_name m) (result_methods te g) = [m] -> declared_as (variant_name m) (result_enum te g) = [tys] -> method_type te g m tys.
Proof.
  intros Hm Hd. assert (Hin : In (method_name m, m) (result_methods te g)) by (apply declared_In; rewrite Hm; left; reflexivity).
  unfold result_methods in Hin. apply in_app_or in Hin. destruct m as [v|i]; cbn [method_name variant_name method_type] in *.
  - destruct Hin as [Hin|Hin]; apply in_map_iff in Hin; destruct Hin as (k & E & Hk); [discriminate E|]. injection E as _ ->. apply in_seq in Hk. destruct Hk as [_ Hk].
    split; [exact Hk|]. destruct (variant_single te g v Hk) as (t & H1 & H2). rewrite H1. rewrite Hd in H2. congruence.
  - destruct Hin as [Hin|Hin]; apply in_map_iff in Hin; destruct Hin as (k & E & Hk); [|discriminate E]. injection E as _ ->. apply in_seq in Hk. destruct Hk as [_ Hk]. cbn in Hk.
    destruct (nth_error (te_conversions te) i) as [c|] eqn:Ec; [|apply nth_error_None in Ec; lia]. exists c. split; [reflexivity|].
    destruct (token_variant_declared te g i c Ec) as [D _]. rewrite Hd in D. congruence.
Qed.
Lemma bound_vars_app ss1 ss2 vs1 vs2 : bound_vars items ss1 vs1 -> bound_vars items ss2 vs2 -> bound_vars items (ss1 ++ ss2) (vs1 ++ vs2).
Proof. intros H1 H2. induction H1; cbn; [exact H2|apply bv_skip; auto|eapply bv_bind; eauto]. Qed.
Lemma pops_bound ss pops : Forall2 (pops_symbol items te g) ss pops ->
  (forall m x e, In (PopBind m x e) pops -> is_constant (emit te g gp) x = false /\ x <> "value_stack") ->
  exists vs, pops_vars te g gp pops vs /\ bound_vars items (rev ss) (rev vs).
Proof.
  induction 1 as [|s st ss pops Hs _ IH]; intro Hc.
  - exists []. split; constructor.
  - destruct IH as (vs & H1 & H2); [intros m x e Hin; apply (Hc m x e); right; exact Hin|]. unfold pops_symbol in Hs. cbn [rev]. destruct (binder_of s) as [x|] eqn:Eb.
    + destruct Hs as (m & tys & -> & Hm & Hty & Hd). destruct (Hc _ _ _ (or_introl eq_refl)) as [C1 C2]. exists ((nm_name x, parts_type tys) :: vs).
      split; [apply pv_bind; [apply method_of; assumption|exact C1|exact C2|exact H1]|]. cbn [rev]. apply bound_vars_app; [exact H2|]. eapply bv_bind; eauto. constructor.
    + subst st. exists vs. split; [apply pv_ignore; exact H1|]. rewrite <- (app_nil_r (rev vs)). apply bound_vars_app; [exact H2|]. apply bv_skip; [exact Eb|constructor].
Qed.
Lemma result_written x tys t : In (x, tys) (result_enum te g) -> In t tys -> written_type items t.
Proof.
  destruct (hygiene_data items te g gp Hex Hnamed) as (ti & act & tbl & states & entries & ho & fuel & Hlow & _ & _ & _ & _ & _ & Hcs).
  intros Hin Ht. unfold result_enum in Hin. apply in_app_or in Hin. destruct Hin as [Hin|Hin]; apply in_map_iff in Hin.
  - destruct Hin as ([i c] & E & Hin). injection E as <- <-. apply enumerate_nth_error in Hin. right. exists c. split; [|exact Ht]. rewrite entries_conversions. eapply nth_error_In; eauto.
  - destruct Hin as (v & E & Hin). injection E as <- <-. left. unfold variant_type in Ht. destruct (find _ _) as [[i M]|] eqn:Ef; [|destruct Ht]. destruct Ht as [<-|[]].
    apply find_some in Ef. destruct Ef as [Ef _]. apply enumerate_nth_error in Ef. rewrite (lo_nts _ _ _ _ Hlow) in Ef.
    destruct (nth_error (skeleton 0 (nts items)) i) as [y|] eqn:Ey; [|discriminate]. injection Ef as <-.
    destruct (skeleton_inv (nts items) i y Ey) as (N & k & HN & [[_ ->]|(_ & _ & ->)]); exists N; (split; [eapply slots_In; eauto|reflexivity]).
Qed.
Lemma written_result t : written_type items t -> exists x tys, In (x, tys) (result_enum te g) /\ In t tys.
Proof.
  destruct (hygiene_data items te g gp Hex Hnamed) as (ti & act & tbl & states & entries & ho & fuel & Hlow & _ & _ & _ & _ & _ & Hcs).
  intros [(N & HN & <-)|(c & Hc & Ht)].
  - destruct (slot_exists (nts items) N HN) as (i & Hi). destruct (slot_body_nt items ti g Hlow N i Hi) as (M & HM & <-). destruct (variant_total g i M HM) as (v & Hv).
    destruct (nt_variant_declared te g i M v HM Hv) as [D _]. exists (non_terminal_variant_name v), [nt_return_ty M]. split; [|left; reflexivity]. apply declared_In. rewrite D. left; reflexivity.
  - rewrite entries_conversions in Hc. apply In_nth_error in Hc. destruct Hc as (i & Hi). destruct (token_variant_declared te g i c Hi) as [D _].
    exists (token_variant_name i), (pattern_types (cv_to c)). split; [|exact Ht]. apply declared_In. rewrite D. left; reflexivity.
Qed.

(** Some of the conditions on names are necessary for any module to compile. *)
Theorem c67_names U : module_ok (emit te g gp) (emit_sigs te g gp) U ->
  (forall N, In N (declared_nts items) -> an_pub N = true -> ~ taken te g (an_name N)) /\ bindable (declared_nts items) te.
Proof.
  intro H. split.
  - destruct H as (H1 & H2 & _). rewrite emit_values in H1 by (apply (fns_length items te g gp Hex Hnamed)). rewrite emit_types in H2.
    apply (c52_items items te g gp Hnames Hex). split; assumption.
  - apply (c65_bindings items te g gp Hnames Hex Hnamed). apply (module_binds_ok _ _ _ H).
Qed.

Section Module.
Variable U : user_types A.
Hypothesis Husable : usable_names items te g.
Hypothesis Hfree : free_types items te.
Let Hev : evaluable te g gp := evaluable_of items te g gp Hnames Hex Hnamed Husable.
Lemma outer_free x : In x (te_type_name te :: prelude_types) -> ~ In x (type_items gp).
Proof.
  intros Hx Hin. destruct Hfree as [T1 T2]. unfold type_items in Hin. apply in_app_or in Hin. change ["LRAction"; "ParseError"; "SemanticActionResult"] with own_types in Hin.
  destruct Hin as [Hin|Hin].
  - destruct Hx as [<-|Hx]; [apply T2; apply in_or_app; left; exact Hin|]. cbn in Hx, Hin. intuition (subst; discriminate).
  - apply (entry_name_In items gp Hnames Hex) in Hin. destruct Hin as (N & HN & Hp & <-). destruct (T1 N HN Hp) as [P1 P2]. destruct Hx as [Hx|Hx]; [congruence|auto].
Qed.
Lemma token_free : ~ In (te_type_name te) (prelude_types ++ ["R"; "E"]).
Proof. intro H. apply (ty_token _ _ Hfree). apply in_or_app. right. exact H. Qed.
(** Every production of the source has a function whose binders have the types of their symbols; entry points have one that
    passes its argument on. *)
Lemma action_cases d : In d (fn_decls g gp) ->
  (exists N i, In (N, i) (slots 0 (nts items)) /\ sf_action (snd d) = EVar "x" /\ pops_vars te g gp (sf_pops (snd d)) [("x", user_type (an_type N))] /\
     declared_as (non_terminal_variant_name (sf_variant (snd d))) (result_enum te g) = [[an_type N]]) \/
  (exists N pr vs, In N (nts items) /\ In pr (an_productions N) /\ sf_action (snd d) = EUser (action_expr (ap_action pr)) /\ pops_vars te g gp (sf_pops (snd d)) vs /\
     bound_vars items (ap_symbols pr) (rev vs) /\ declared_as (non_terminal_variant_name (sf_variant (snd d))) (result_enum te g) = [[an_type N]]).
Proof.
  destruct (hygiene_data items te g gp Hex Hnamed) as (ti & act & tbl & states & entries & ho & fuel & Hlow & Hwf & _ & _ & Hg & _ & Hcs).
  intros Hd. destruct d as [name f]. unfold fn_decls in Hd. apply In_nth_error in Hd. destruct Hd as (k & Hd).
  destruct (fn_named ho fuel g te gp Hg) as (L & Hfn & _).
  assert (Hk : nth_error (fn_names g) k = Some name /\ nth_error (gp_sem_actions gp) k = Some f).
  { clear - Hd. revert Hd. generalize (fn_names g) (gp_sem_actions gp). intros l l'. revert l' k. induction l as [|x l IH]; intros [|y l'] [|k] H; try discriminate; cbn in *; [injection H as -> ->; auto|auto]. }
  destruct Hk as [Hk1 Hk2]. destruct (Hfn k name Hk1) as (i & j & q & f' & Hq & _ & Hk' & F1 & F2 & F3). assert (f' = f) by congruence; subst f'. clear Hk'. cbn [fst snd].
  pose proof (nth_error_In _ _ Hk2) as Hf.
  assert (Hbinders : forall m x e, In (PopBind m x e) (sf_pops f) -> is_constant (emit te g gp) x = false /\ x <> "value_stack") by (intros m x e Hpb; split; [exact (ev_binders _ _ _ Hev f m x e Hf Hpb)|exact (ev_value_stack _ _ _ Hev f m x e Hf Hpb)]).
  destruct (get_production_inv _ _ ti g Hlow _ _ _ Hq) as [(N & i0 & HN & HNp & -> & _ & ->)|(N & i0 & HN & -> & _)].
  - left. exists N, i0. destruct (slot_body_nt items ti g Hlow N i0 HN) as (M & HM & HMt). cbn in F3. unfold pop_code in F3. cbn in F3.
    destruct (variant_of (variant_names g) i0) as [v|] eqn:Ev; [|discriminate]. injection F3 as F3. pose proof (entry_nt _ _ ti g Hlow N i0 HN HNp) as He.
    destruct (nt_variant_declared te g i0 M v HM Ev) as [D1 D2]. destruct (nt_variant_declared te g (S i0) _ _ He F2) as [D3 _]. cbn in D3.
    rewrite <- F3 in Hbinders. destruct (Hbinders _ _ _ (or_introl eq_refl)) as [B1 B2].
    split; [exact HN|]. split; [exact F1|]. split; [|exact D3].
    rewrite <- F3. apply (pv_bind te g gp _ _ _ [] [an_type N] []); [|exact B1|exact B2|constructor]. apply method_of; [exact D2|]. cbn [variant_name]. rewrite D1, HMt. reflexivity.
  - right. destruct (production_up _ _ ti g Hlow Hnames _ _ _ _ (slot_index (nts items) Hnames N i0 HN) Hq) as (pr & Hpr & Hl).
    destruct (lprod_rhs _ _ ti g Hlow _ _ Hl) as (_ & Hact & Hsyms). destruct (Decide.uproduction_In (nts items) _ _ _ Hpr) as (N' & HN' & HNn & Hin').
    assert (HNi : In N (nts items)) by (eapply slots_In; eauto). assert (N' = N) by (eapply name_unique; eauto). subst N'.
    assert (Hpops : Forall2 (pops_symbol items te g) (rev (ap_symbols pr)) (sf_pops f)).
    { eapply pops_ok; [exact Hlow|exact Hcs| |exact F3]. apply Forall2_rev_. exact Hsyms. }
    destruct (pops_bound _ _ Hpops Hbinders) as (vs & V1 & V2). rewrite rev_involutive in V2.
    destruct (slot_body_nt items ti g Hlow N i0 HN) as (M & HM & HMt). destruct (nt_variant_declared te g i0 M _ HM F2) as [D _]. rewrite HMt in D.
    exists N, pr, vs. rewrite F1, Hact. auto 10.
Qed.
Lemma fn_name_In d : In d (fn_decls g gp) -> In (fst d) (fn_names g).
Proof. destruct d as [x f]. intro H. apply in_combine_l in H. exact H. Qed.
Lemma ok_actions d : promises items te U -> In d (fn_decls g gp) -> item_ok (emit te g gp) (emit_sigs te g gp) U (e_action_fn d).
Proof.
  intros Hprom Hd. pose proof (fn_name_In d Hd) as Hn. destruct (action_cases d Hd) as [(N & i & HN & Ha & Hpv & D)|(N & pr & vs & HN & Hpr & Ha & Hpv & Hbv & D)]; destruct d as [name f]; cbn [fst snd] in *.
  - eapply (ok_action_fn te g gp U Hev outer_free); [exact Hn|exact Hpv|exact D|]. rewrite Ha. reflexivity.
  - eapply (ok_action_fn te g gp U Hev outer_free); [exact Hn|exact Hpv|exact D|]. rewrite Ha. apply (pm_actions _ _ _ Hprom N pr _ HN Hpr Hbv).
Qed.
Lemma parser_result pr : In pr (gp_parsers gp) -> exists N, In N (declared_nts items) /\ an_pub N = true /\ an_name N = pr_name pr /\ an_type N = pr_return_ty pr.
Proof.
  destruct (hygiene_data items te g gp Hex Hnamed) as (ti & act & tbl & states & entries & ho & fuel & Hlow & Hwf & Hgen & _).
  intro Hpr. destruct (gn_parser _ _ _ _ _ _ _ Hgen pr Hpr) as (nt & e & N & f & q & He & HN & Hname & Hty & _). rewrite Hty.
  destruct (ao_entry _ _ _ _ (gn_aut _ _ _ _ _ _ _ Hgen) nt e He) as [(N' & HN' & Hpub) _]. assert (N' = N) by congruence; subst N'.
  destruct (public_inv _ _ ti g Hlow nt N HN Hpub) as (D & i & HD & HDp & _ & HDn & HDt). exists D. split; [eapply slots_In; eauto|]. split; [exact HDp|]. split; congruence.
Qed.

(** *** C67 *)
Theorem c67_well_typed : typable items te -> promises items te U -> module_ok (emit te g gp) (emit_sigs te g gp) U.
Proof.
  pose proof (ev_len _ _ _ Hev) as Hl. intros [T3 [T4 T5] T6] Hprom. destruct Hprom as [P1 P2 P3 P4].
  pose proof entries_conversions as Hcs.
  split; [rewrite emit_values by exact Hl; exact (ev_values _ _ _ Hev)|]. split; [rewrite emit_types; exact (ev_types _ _ _ Hev)|].
  unfold emit. repeat (apply Forall_app; split).
  - constructor; [apply (ok_lr_action te g gp U outer_free)|]. constructor; [apply (ok_action_array te g gp U Hev outer_free)|].
    constructor; [apply (ok_goto_array te g gp U Hev outer_free)|]. constructor; [apply (ok_parse_error te g gp U outer_free)|].
    constructor; [apply (ok_token_terminal_idx te g gp U Hev outer_free token_free); rewrite <- Hcs; assumption|].
    constructor; [apply (ok_token_value te g gp U Hev outer_free token_free); rewrite <- Hcs; [|assumption|assumption]|].
    { unfold plain_patterns in Hplain. rewrite forallb_forall in Hplain. exact Hplain. }
    constructor; [apply (ok_result_type te g gp U outer_free); [exact T4| |]|].
    { intros a Ha. destruct (T5 a Ha) as (t & Hw & Hm). destruct (written_result t Hw) as (x & tys & H1 & H2). exists x, tys, t. auto. }
    { intros x tys t H1 H2. apply P4. eapply result_written; eauto. }
    constructor; [apply (ok_result_impl te g gp U Hev outer_free)|constructor].
  - apply Forall_forall. intros i Hi. apply in_map_iff in Hi. destruct Hi as (d & <- & Hd). apply ok_actions; [constructor; assumption|exact Hd].
  - constructor; [apply (ok_semantic_actions te g gp U Hev outer_free)|]. constructor; [apply (ok_expected te g gp U Hev outer_free)|].
    constructor; [apply (ok_terminal_strs te g gp U Hev outer_free)|]. constructor; [apply (ok_parse_generic te g gp U Hev outer_free token_free)|constructor].
  - apply Forall_forall. intros i Hi. apply in_flat_map in Hi. destruct Hi as (pr & Hpr & Hi). destruct (parser_result pr Hpr) as (N & HN & Hp & _ & Hty).
    apply (ok_parser te g gp U Hev outer_free token_free pr); [exact Hpr|rewrite <- Hty; apply T3; assumption| |exact Hi].
    apply (c52_parsers items te g gp Hex Hnamed pr Hpr).
Qed.

(** Binders have one type each. *)
Lemma symbol_types_fun s t1 t2 : symbol_types items s t1 -> symbol_types items s t2 -> t1 = t2.
Proof.
  unfold symbol_types. destruct (unnamed s); intros H1 H2; try contradiction.
  - destruct H1 as (c1 & I1 & E1 & ->), H2 as (c2 & I2 & E2 & ->).
    destruct (hygiene_data items te g gp Hex Hnamed) as (ti & _ & _ & _ & _ & _ & _ & Hlow & _).
    assert (Hnd : NoDup (map cv_from (token_entries items))) by (apply (ti_dup _ _ _ (lo_ti _ _ _ _ Hlow))).
    assert (c1 = c2); [|congruence]. clear - I1 I2 E1 E2 Hnd. induction (token_entries items) as [|c l IH]; [destruct I1|]. cbn in Hnd. inversion Hnd as [|? ? H3 H4]; subst.
    destruct I1 as [->|I1], I2 as [->|I2]; auto; [exfalso; apply H3; rewrite <- E2; apply in_map; exact I2|exfalso; apply H3; rewrite E2; apply in_map; exact I1].
  - destruct H1 as (N1 & I1 & E1 & ->), H2 as (N2 & I2 & E2 & ->). assert (N1 = N2) by (eapply name_unique; eauto; congruence). congruence.
Qed.
Lemma bound_vars_fun ss v1 : bound_vars items ss v1 -> forall v2, bound_vars items ss v2 -> v1 = v2.
Proof.
  induction 1 as [|s ss vs Hb _ IH|s ss x tys vs Hb Hs _ IH]; intros v2 H2; inversion H2; subst; try congruence; [apply IH; assumption|].
  assert (x = x0) by congruence. subst x0. f_equal; [|apply IH; assumption]. f_equal. f_equal. eapply symbol_types_fun; eauto.
Qed.
(** Every production is the source of a function. *)
Lemma action_of N pr : In N (nts items) -> In pr (an_productions N) -> exists d vs, In d (fn_decls g gp) /\ sf_action (snd d) = EUser (action_expr (ap_action pr)) /\
  pops_vars te g gp (sf_pops (snd d)) vs /\ bound_vars items (ap_symbols pr) (rev vs) /\ declared_as (non_terminal_variant_name (sf_variant (snd d))) (result_enum te g) = [[an_type N]].
Proof.
  intros HN Hpr. apply In_nth_error in Hpr. destruct Hpr as (p & Hp). assert (Hu : uproduction (nts items) (an_name N) p = Some pr) by (eapply uproduction_of; eauto).
  destruct (c52_typed items te g gp Hnames Hex Hnamed _ _ _ N Hu HN eq_refl) as (k & name & f & _ & Hf & Hdecl & Ha & Hpops & D).
  destruct (pops_bound _ _ Hpops) as (vs & V1 & V2); [intros m x e Hpb; split; [exact (ev_binders _ _ _ Hev f m x e (nth_error_In _ _ Hf) Hpb)|exact (ev_value_stack _ _ _ Hev f m x e (nth_error_In _ _ Hf) Hpb)]|]. rewrite rev_involutive in V2.
  exists (name, f), vs. split; [apply declared_In; rewrite Hdecl; left; reflexivity|auto].
Qed.
Theorem c67_needs : module_ok (emit te g gp) (emit_sigs te g gp) U -> typable items te /\ promises items te U.
Proof.
  intros (_ & _ & Hall). rewrite Forall_forall in Hall. pose proof entries_conversions as Hcs.
  assert (Hall' : forall i, In i (emit te g gp) -> item_ok (emit te g gp) (emit_sigs te g gp) U i) by exact Hall. clear Hall.
  destruct (result_inv te g gp U outer_free) as (R1 & R2 & R3); [apply Hall'; cbn; tauto|].
  destruct (token_value_inv te g gp U Hev outer_free token_free) as (P1 & P2); [|apply Hall'; cbn; tauto|].
  { rewrite <- Hcs. unfold plain_patterns in Hplain. rewrite forallb_forall in Hplain. exact Hplain. }
  split; constructor.
  - intros N HN Hp. assert (Hin : In (an_name N) (map pr_name (gp_parsers gp))) by (apply (entry_name_In items gp Hnames Hex); eauto).
    apply in_map_iff in Hin. destruct Hin as (pr & En & Hpr). destruct (parser_result pr Hpr) as (N' & HN' & Hp' & Hn' & Ht'). assert (N' = N) by (eapply name_unique; eauto; congruence). subst N'. rewrite Ht'.
    apply (parser_inv te g gp U Hev outer_free token_free pr Hpr); [apply (c52_parsers items te g gp Hex Hnamed pr Hpr)|].
    intros i Hi. apply Hall'. unfold emit. rewrite !in_app_iff. right. right. right. apply in_flat_map. exists pr. auto.
  - split; [exact R1|]. intros a Ha. destruct (R2 a Ha) as (x & tys & t & H1 & H2 & H3). exists t. split; [eapply result_written; eauto|exact H3].
  - rewrite Hcs. apply (token_idx_inv te g gp U Hev outer_free token_free). apply Hall'; cbn; tauto.
  - intros N pr vs HN Hpr Hbv. destruct (action_of N pr HN Hpr) as (d & vs' & Hd & Ha & Hpv & Hbv' & D). rewrite (bound_vars_fun _ _ Hbv _ Hbv').
    destruct d as [name f]. cbn [snd] in *. eapply (action_inv te g gp U Hev outer_free name f vs' (an_type N)); [exact (fn_name_In _ Hd)|exact Hpv|exact D|exact Ha|].
    apply Hall'. unfold emit. rewrite !in_app_iff. right. left. apply in_map. exact Hd.
  - rewrite Hcs. exact P1.
  - rewrite Hcs. exact P2.
  - intros t Hw. destruct (written_result t Hw) as (x & tys & H1 & H2). eapply R3; eauto.
Qed.
Theorem c67_exactly : module_ok (emit te g gp) (emit_sigs te g gp) U <-> typable items te /\ promises items te U.
Proof. split; [apply c67_needs|intros [H1 H2]; apply c67_well_typed; assumption]. Qed.
End Module.
End WellTyped.

(** ** Cases *)

(** The types of the arithmetic example (tests/tests.rs:402-437). *)
Definition arith_types : user_types string :=
  let num x (vs : list (string * rty)) := assoc_get x vs = Some (TUser "u64") in
  {| ut_action := fun a vs t => t = TUser "u64" /\ (a = "e + t" /\ num "e" vs /\ num "t" vs \/ a = "t * f" /\ num "t" vs /\ num "f" vs \/ num a vs);
     ut_impl := fun tr t => tr <> "Default" /\ In t ["u64"; "Token"];
     ut_tuple := fun c ts t => c = "Token::Int" /\ ts = [TUser "u64"] /\ t = TUser "Token";
     ut_struct := fun _ _ _ => False;
     ut_const := fun c t => In c ["Token::LParen"; "Token::RParen"; "Token::Plus"; "Token::Star"] /\ t = TUser "Token";
     ut_lit := fun _ _ => False;
     ut_covers := fun rs t => t = TUser "Token" /\
       incl [RPPath "Token::LParen"; RPPath "Token::RParen"; RPPath "Token::Plus"; RPPath "Token::Star"; RPTupleStruct "Token::Int" [RPWild]] rs |}.
Ltac each H := cbn in H; repeat (destruct H as [<-|H]); try contradiction H.
Ltac parts H := let c := fresh in let I := fresh in let E := fresh in destruct H as (c & I & E & H); each I; try discriminate E; rewrite H; clear H E.
Ltac vars H := let X := fresh "X" in let Y := fresh "Y" in let Z := fresh "Z" in
  inversion H as [|? ? ? X Y|? ? ? ? ? X Z Y]; subst; clear H; try (cbn in X; discriminate X); [vars Y || idtac..];
  try (cbn in X; injection X as <-); try (cbn in Z; parts Z).
Lemma arith_promises : promises arith arith_te arith_types.
Proof.
  constructor.
  - intros N pr vs HN Hpr Hv. each HN; each Hpr; cbn [ap_symbols ap_action] in *; vars Hv; cbn; tauto.
  - intros c Hc. each Hc; cbn; try (apply po_path; cbn; tauto). eapply po_enum; [cbn; tauto|]. constructor; [apply (po_choose arith_types "u64")|constructor].
  - split; [reflexivity|]. intros r Hr. exact Hr.
  - intros t Hw _. split; [discriminate|]. destruct Hw as [(N & HN & <-)|(c & Hc & Ht)]; [each HN; cbn; tauto|each Hc; each Ht; cbn; tauto].
Qed.
Lemma arith_free : free_types arith arith_te.
Proof.
  constructor.
  - intros N HN Hp. each HN; try discriminate Hp. cbn. split; [intuition discriminate|discriminate].
  - cbn. intuition discriminate.
Qed.
Lemma arith_typable : typable arith arith_te.
Proof.
  constructor.
  - intros N HN _. each HN; reflexivity.
  - split; [constructor|]. intros a [].
  - discriminate.
Qed.
Example case_c67 : module_ok arith_module (emit_sigs arith_te lowered_arith arith_gp) arith_types.
Proof.
  destruct arith_parser as (_ & Hplain & _ & _).
  exact (c67_well_typed arith arith_te lowered_arith arith_gp arith_names Hplain arith_expands arith_named arith_types arith_usable arith_free arith_typable arith_promises).
Qed.
(** With actions of another type the module does not compile. *)
Example case_c67_needs (U : user_types string) : module_ok arith_module (emit_sigs arith_te lowered_arith arith_gp) U ->
  ut_action U "e + t" [("e", TUser "u64"); ("t", TUser "u64")] (TUser "u64") /\ ut_tuple U "Token::Int" [TUser "u64"] (TUser "Token") /\ ut_impl U "Debug" "u64".
Proof.
  intro H. destruct arith_parser as (_ & Hplain & _ & _).
  destruct (c67_needs arith arith_te lowered_arith arith_gp arith_names Hplain arith_expands arith_named U arith_usable arith_free H) as [_ [P1 P2 _ P4]]. split; [|split].
  - set (E1 := nth 1 (declared_nts arith) (nth 0 (declared_nts arith) {| an_pub := false; an_name := ""; an_type := ""; an_productions := [] |})).
    set (p := nth 0 (an_productions E1) {| ap_symbols := []; ap_action := Infallible "" |}).
    apply (P1 E1 p); [cbn; tauto|cbn; tauto|].
    assert (Hnt : forall n x N, In N (declared_nts arith) -> an_name N = n -> an_type N = "u64" -> binder_of (x ::= # n) = Some {| nm_mutable := false; nm_name := x |} /\ symbol_types arith (x ::= # n) ["u64"]).
    { intros n x N HN E Et. split; [reflexivity|]. exists N. rewrite Et. auto. }
    change (ap_symbols p) with ["e" ::= #"E1"; $"+"; "t" ::= #"T"]. change [("e", TUser "u64"); ("t", TUser "u64")] with [("e", parts_type ["u64"]); ("t", parts_type ["u64"])].
    refine (bv_bind arith _ _ {| nm_mutable := false; nm_name := "e" |} ["u64"] _ _ _ _); [apply (Hnt "E1" "e" E1); [cbn; tauto|reflexivity|reflexivity]|apply (Hnt "E1" "e" E1); [cbn; tauto|reflexivity|reflexivity]|].
    apply bv_skip; [reflexivity|]. set (T := nth 2 (declared_nts arith) E1).
    refine (bv_bind arith _ _ {| nm_mutable := false; nm_name := "t" |} ["u64"] _ _ _ _); [apply (Hnt "T" "t" T); [cbn; tauto|reflexivity|reflexivity]|apply (Hnt "T" "t" T); [cbn; tauto|reflexivity|reflexivity]|apply bv_nil].
  - specialize (P2 (nth 4 (token_entries arith) {| cv_from := ""; cv_to := PatUnderscore |})). cbn in P2. specialize (P2 (or_intror (or_intror (or_intror (or_intror (or_introl eq_refl)))))).
    inversion P2 as [| | | |c ps ts t H1 H2| | |]; subst. inversion H2 as [|? ? ? ? H3 H4|]; subst. inversion H4; subst. inversion H3 as [ty Hty| | | | | | |]; subst; [exact H1|discriminate].
  - apply (P4 "u64"); [|reflexivity]. left. eexists. split; [left; reflexivity|reflexivity].
Qed.

(** ** What [mentions] means in [typable] *)
Lemma word_char_spec c : word_char c = true <-> is_word c.
Proof.
  unfold word_char, is_word. rewrite !Bool.orb_true_iff, !Bool.andb_true_iff, !Nat.leb_le, !Nat.eqb_eq. split.
  - intro H. exists (Ascii.nat_of_ascii c). split; [symmetry; apply Ascii.ascii_nat_embedding|]. split; [apply Ascii.nat_ascii_bounded|]. clear - H. intuition.
  - intros (n & -> & Hn & H). rewrite Ascii.nat_ascii_embedding by exact Hn. clear - H. intuition.
Qed.
Lemma sapp_assoc (a b c : string) : ((a ++ b) ++ c = a ++ (b ++ c))%string.
Proof. induction a as [|x a IH]; [reflexivity|]. cbn. f_equal. exact IH. Qed.
Lemma sapp_nil (a : string) : (a ++ "" = a)%string.
Proof. induction a as [|x a IH]; [reflexivity|]. cbn. f_equal. exact IH. Qed.
Lemma sapp_split (a b c d : string) : (a ++ b = c ++ d)%string ->
  exists l, (a = (c ++ l)%string /\ d = (l ++ b)%string) \/ (c = (a ++ l)%string /\ b = (l ++ d)%string).
Proof.
  revert c. induction a as [|x a IH]; intros c H; [exists c; right; auto|]. destruct c as [|y c]; [exists (String x a); left; auto|].
  cbn in H. injection H as -> H. destruct (IH c H) as (l & [(-> & E)|(-> & E)]); exists l; [left|right]; auto.
Qed.
Lemma all_word_app a b : all_word (a ++ b)%string <-> all_word a /\ all_word b.
Proof.
  induction a as [|c a IH]; cbn; [split; [intro; split; [constructor|assumption]|intros (_ & H); exact H]|]. split.
  - intro H. inversion H; subst. apply IH in H3. destruct H3. split; [constructor|]; assumption.
  - intros (H & Hb). inversion H; subst. constructor; [assumption|]. apply IH. auto.
Qed.
Definition starts_off (b : string) : Prop := b = "" \/ exists c b', b = String c b' /\ ~ is_word c.
Definition stops_off (a : string) : Prop := a = "" \/ exists a' c, a = (a' ++ String c "")%string /\ ~ is_word c.
Lemma stops_off_word a : stops_off a -> all_word a -> a = "".
Proof. intros [->|(a' & c & -> & Hc)] H; [reflexivity|]. apply all_word_app in H. destruct H as (_ & H). inversion H; subst. contradiction. Qed.
Lemma starts_off_word b l : starts_off b -> all_word l -> forall r, b = (l ++ r)%string -> l = "".
Proof. intros Hb Hl r E. destruct l as [|c l]; [reflexivity|]. exfalso. cbn in E. inversion Hl; subst. destruct Hb as [Hb|(c' & b' & Hb & Hc)]; [discriminate|]. injection Hb as -> _. contradiction. Qed.
Lemma words_spec x t : forall acc, all_word acc ->
  (In x (words_acc acc t) <-> exists a b, (acc ++ t)%string = (a ++ x ++ b)%string /\ all_word x /\ stops_off a /\ starts_off b).
Proof.
  induction t as [|c t IH]; intros acc Hacc; cbn [words_acc].
  - cbn [In]. rewrite sapp_nil. split.
    + intros [<-|[]]. exists "", "". cbn. rewrite sapp_nil. split; [reflexivity|]. split; [exact Hacc|]. split; left; reflexivity.
    + intros (a & b & -> & Hx & Ha & Hb). left. apply all_word_app in Hacc. destruct Hacc as (Ha' & Hxb). rewrite (stops_off_word a Ha Ha').
      apply all_word_app in Hxb. destruct Hxb as (_ & Hb'). rewrite (starts_off_word b b Hb Hb' "" (eq_sym (sapp_nil b))). apply sapp_nil.
  - destruct (word_char c) eqn:Ec.
    + rewrite IH; [|apply all_word_app; split; [exact Hacc|]; constructor; [apply word_char_spec; exact Ec|constructor]]. rewrite sapp_assoc. reflexivity.
    + assert (Hc : ~ is_word c) by (intro H; apply word_char_spec in H; congruence). cbn [In]. rewrite (IH "" aw_nil). split.
      * intros [<-|(a & b & E & Hx & Ha & Hb)].
        -- exists "", (String c t). split; [reflexivity|]. split; [exact Hacc|]. split; [left; reflexivity|]. right. exists c, t. auto.
        -- exists (acc ++ String c a)%string, b. cbn in E. rewrite E. split; [rewrite sapp_assoc; reflexivity|]. split; [exact Hx|]. split; [|exact Hb].
           right. destruct Ha as [->|(a' & c' & -> & Hc')]; [exists acc, c; auto|]. exists (acc ++ String c a')%string, c'. rewrite sapp_assoc. auto.
      * intros (a & b & E & Hx & Ha & Hb). destruct (sapp_split _ _ _ _ E) as (l & [(E1 & E2)|(E1 & E2)]).
        -- subst acc. apply all_word_app in Hacc. destruct Hacc as (Ha' & Hl). pose proof (stops_off_word a Ha Ha'); subst a. left. cbn.
           destruct (sapp_split _ _ _ _ E2) as (l' & [(E3 & E4)|(E3 & E4)]).
           ++ subst x. apply all_word_app in Hx. destruct Hx as (_ & Hl'). destruct l' as [|c' l']; [apply eq_sym, sapp_nil|]. exfalso. cbn in E4. injection E4 as -> E4. inversion Hl'; subst. contradiction.
           ++ subst l. apply all_word_app in Hl. destruct Hl as (_ & Hl'). rewrite (starts_off_word b l' Hb Hl' _ E4). apply sapp_nil.
        -- destruct l as [|c' l].
           ++ rewrite sapp_nil in E1. subst acc. pose proof (stops_off_word a Ha Hacc); subst a. left. cbn in E2. destruct x as [|c' x]; [reflexivity|]. exfalso. cbn in E2. injection E2 as -> _. inversion Hx; subst. contradiction.
           ++ cbn in E2. injection E2 as <- E2. right. exists l, b. split; [exact E2|]. split; [exact Hx|]. split; [|exact Hb]. subst a.
              destruct Ha as [Ha|(a' & d & Ha & Hd)]; [destruct acc; discriminate|]. destruct (sapp_split _ _ _ _ Ha) as (k & [(F1 & F2)|(F1 & F2)]).
              ** destruct k as [|k0 k]; [rewrite sapp_nil in F1; subst acc|].
                 { cbn in F2. injection F2 as _ <-. left. reflexivity. }
                 { exfalso. cbn in F2. injection F2 as _ F2. destruct k; discriminate. }
              ** destruct k as [|k0 k]; [cbn in F2; injection F2 as _ ->; left; reflexivity|]. cbn in F2. injection F2 as _ F2. right. exists k, d. auto.
Qed.
Theorem c67_mentions x t : mentions x t = true <-> has_word x t.
Proof.
  unfold mentions. rewrite existsb_exists. setoid_rewrite String.eqb_eq. transitivity (In x (words_acc "" t)).
  - split; [intros (y & H & ->); exact H|intro H; exists x; auto].
  - exact (words_spec x t "" aw_nil).
Qed.
Example case_c67_mentions : has_word "E" "Vec<(E, usize)>" /\ ~ has_word "E" "Vec<Expr>" /\ has_word "'a" "&'a str" /\ ~ has_word "'a" "&'ab str".
Proof. rewrite <- !c67_mentions. repeat split; try reflexivity; discriminate. Qed.

(** ** Refutations of the unrestricted claim *)

(** A grammar that uses usable names and whose user keeps all promises, but which is not typable, is expanded to a module
    that does not compile. *)
Definition rejected_by_rustc (items : list (grammar_item string)) : Prop :=
  distinct_names items /\ plain_patterns items /\ expands items (module_of items) /\ named items (the_tokens items) (lowered_or_nil items) /\
  usable_names items (the_tokens items) (lowered_or_nil items) /\ free_types items (the_tokens items) /\
  (exists U, promises items (the_tokens items) U) /\
  forall U, ~ module_ok (emit (the_tokens items) (lowered_or_nil items) (module_of items)) (emit_sigs (the_tokens items) (lowered_or_nil items) (module_of items)) U.
(** [pub S: E = "a" => ..]: the user's type [E] is not the [E] of [fn parse<E: Clone>]. *)
Definition captured : list (grammar_item string) := [ tokens [unit_tok "a" "Token::A"]; rule true "S" "E" [([$"a"], "E::new()")] ].
(** [enum Token<'a> { "a" => Token::A(_), .. }]: nothing in [enum SemanticActionResult<'a>] mentions ['a]. *)
Definition unused_lifetime : list (grammar_item string) :=
  [ GITokenEnum {| te_type_name := "Token"; te_lifetimes := ["a"]; te_conversions := [{| cv_from := "a"; cv_to := PatEnum "Token::A" [PatUnderscore] |}] |};
    rule true "S" "usize" [([$"a"], "1")] ].
(** No tokens: [match token {}] where [token: &Token]. *)
Definition no_tokens : list (grammar_item string) := [ tokens []; rule true "S" "usize" [([], "1")] ].
Definition anything : user_types string :=
  {| ut_action := fun _ _ _ => True; ut_impl := fun _ _ => True; ut_tuple := fun _ _ _ => True; ut_struct := fun _ _ _ => True; ut_const := fun _ _ => True;
     ut_lit := fun _ _ => True; ut_covers := fun _ _ => True |}.
Lemma not_typable items : distinct_names items -> plain_patterns items -> expands items (module_of items) -> named items (the_tokens items) (lowered_or_nil items) ->
  usable_check items (the_tokens items) (lowered_or_nil items) = true -> free_types items (the_tokens items) -> promises items (the_tokens items) anything ->
  ~ typable items (the_tokens items) -> rejected_by_rustc items.
Proof.
  intros H1 H2 H3 H4 H5 H6 H7 H8. apply usable_iff in H5. unfold rejected_by_rustc. split; [exact H1|]. split; [exact H2|]. split; [exact H3|]. split; [exact H4|].
  split; [exact H5|]. split; [exact H6|]. split; [exists anything; exact H7|]. intros U HU. apply H8. apply (c67_needs items _ _ _ H1 H2 H3 H4 U H5 H6 HU).
Qed.
Ltac not_typable := apply not_typable; [one_name|vm_compute; reflexivity|expand_it|split; [left; reflexivity|vm_compute; reflexivity]|vm_compute; reflexivity| | |].
Ltac plain_free := constructor; [let HN := fresh in intros ? HN _; each HN; cbn; (split; [intuition discriminate|discriminate])|cbn; intuition discriminate].
Theorem c67_refuted : rejected_by_rustc captured /\ rejected_by_rustc unused_lifetime /\ rejected_by_rustc no_tokens.
Proof.
  split; [|split]; not_typable; try plain_free.
  - constructor; try (intros; exact Logic.I). intros c Hc. each Hc. apply po_path. exact Logic.I.
  - intros [H _ _]. specialize (H _ (or_introl eq_refl) eq_refl). discriminate H.
  - constructor; try (intros; exact Logic.I). intros c Hc. each Hc. eapply (po_enum anything _ _ [unit_ty]); [exact Logic.I|]. repeat constructor.
  - intros [_ [_ H] _]. destruct (H "a" (or_introl eq_refl)) as (t & Hw & Hm). destruct Hw as [(N & HN & <-)|(c & Hc & Ht)]; [each HN; discriminate Hm|each Hc; destruct Ht].
  - constructor; try (intros; exact Logic.I). intros c [].
  - intros [_ _ H]. apply H. reflexivity.
Qed.
