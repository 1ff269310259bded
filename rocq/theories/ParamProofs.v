(** * ParamProofs: related user code gives related runs, user level *)
From Verif Require Export RunRel ActionProofs PropProofs.

Lemma mapM_app_ok {X Y} (f : X -> res Y) a : forall b r, mapM f (a ++ b) = Ok r ->
  exists ra rb, r = ra ++ rb /\ mapM f a = Ok ra /\ mapM f b = Ok rb.
Proof.
  induction a as [|x a IH]; intros b r H; cbn in H.
  - exists [], r. auto.
  - apply bind_Ok in H. destruct H as (y & Hy & H). apply bind_Ok in H. destruct H as (r1 & H1 & H). injection H as <-.
    destruct (IH _ _ H1) as (ra & rb & -> & Ha & Hb). exists (y :: ra), rb. split; auto. split; auto. cbn. rewrite Hy. cbn. rewrite Ha. reflexivity.
Qed.
Lemma mapM_rev_ok {X Y} (f : X -> res Y) l : forall r, mapM f (rev l) = Ok r -> mapM f l = Ok (rev r).
Proof.
  induction l as [|x l IH]; intros r H; cbn [rev] in H.
  - injection H as <-. reflexivity.
  - destruct (mapM_app_ok _ _ _ _ H) as (ra & rb & -> & Ha & Hb). apply IH in Ha. cbn in Hb. apply bind_Ok in Hb. destruct Hb as (y & Hy & Hb).
    cbn in Hb. injection Hb as <-. cbn. rewrite Hy. cbn. rewrite Ha. cbn. rewrite rev_app_distr. reflexivity.
Qed.
Lemma binds_rev pops : rev (binds pops) = binds (rev pops).
Proof.
  unfold binds. induction pops as [|s pops IH]; [reflexivity|]. cbn [flat_map rev]. rewrite rev_app_distr, flat_map_app, IH.
  f_equal. destruct s; reflexivity.
Qed.

Section Param.
Context {A E E' V V' W W' I I' : Type}.
Variable items : list (grammar_item A).
Notation nts := (declared_nts items).
Notation cs := (token_entries items).
Notation ni := (nt_indices_of nts).
Variable gp : generated (lexpr A).
Variable pr : parser_struct.
Hypothesis Hp : parser_of items gp pr.
Variable inj : rval -> V.
Variable inj' : rval -> V'.
Variable usem : A -> list (string * bval V) -> W -> option (V * W).
Variable usem' : A -> list (string * bval V') -> W' -> option (V' * W').
Variable next : I -> option (rval + E) * I.
Variable next' : I' -> option (rval + E') * I'.
Variable R : ty -> V -> V' -> Prop.
Variable RF : string -> list V -> list V' -> Prop.
Variable RW : W -> W' -> Prop.
Variable RE : E -> E' -> Prop.
Hypothesis Hact : actions_related items R RF RW usem usem'.
Variable RT : rval -> rval -> Prop.
Hypothesis HRT : forall tok tok', RT tok tok' -> token_related items RF inj inj' tok tok'.
Notation env := (user_env gp inj usem next).
Notation env' := (user_env gp inj' usem' next').

Definition RV (g : grammar (lexpr A)) (k : nat) (x : V) (x' : V') : Prop :=
  exists n N, get_non_terminal g n = Some N /\ variant_of (variant_names g) n = Some k /\ R (nt_return_ty N) x x'.
Definition RFi (i : nat) (fs : list V) (fs' : list V') : Prop :=
  exists s, nth_error (map cv_from cs) i = Some s /\ RF s fs fs'.

Lemma RV_ty g n N k x x' : get_non_terminal g n = Some N -> variant_of (variant_names g) n = Some k -> RV g k x x' -> R (nt_return_ty N) x x'.
Proof.
  intros HN Hk (m & M & HM & Hm & Hr). destruct (variant_names_spec g) as (_ & V2 & _).
  rewrite <- (proj1 (V2 m n M N k k HM HN Hm Hk) eq_refl). exact Hr.
Qed.

Section Linked.
Variable ti : list (string * nat).
Variable g : grammar (lexpr A).
Hypothesis Hlow : lowered nts cs ti g.
Hypothesis Hnames : distinct_names items.

Lemma scope_of syms bss pops vs vs' :
  Forall2 (fun s x => sym_rel nts cs s (bs_symbol x) /\ bs_binder x = binder_of s) syms bss ->
  mapM (pop_code (variant_names g)) bss = Ok pops -> vrel (RV g) RFi (binds pops) vs vs' ->
  scope_related items R RF syms vs vs'.
Proof.
  intro H. revert pops vs vs'. induction H as [|s x ss bss (Hs & Hb) Hss IH]; intros pops vs vs' Hm Hv; cbn in Hm.
  - injection Hm as <-. cbn in Hv. inversion Hv; subst. constructor.
  - apply bind_Ok in Hm. destruct Hm as (pp & Hpp & Hm). apply bind_Ok in Hm. destruct Hm as (pops1 & Hm & Hx). injection Hx as <-.
    unfold pop_code in Hpp. rewrite Hb in Hpp. destruct (binder_of s) as [nm|] eqn:Eb.
    + assert (Hsr : forall b b', (forall m, pp = PopBind (nm_mutable nm) (nm_name nm) m -> brel (RV g) RFi m b b') -> symbol_related items R RF s b b').
      { intros b b' Hbr. clear - Hpp Hs Hbr Hlow. revert Hs. unfold LowerTrees.sym_rel. remember (bs_symbol x) as X.
        assert (Hgoal : match unnamed s with
          | ASTerminal t => exists i, nth_error (map cv_from cs) i = Some t /\ X = T i
          | ASNonTerminal n => exists i, map_get String.eqb n ni = Some i /\ X = NT i
          | _ => False end -> symbol_related items R RF (unnamed s) b b').
        { destruct (unnamed s) as [t|n| |]; try contradiction.
          - intros (i & Hi & ->). injection Hpp as <-. specialize (Hbr _ eq_refl). inversion Hbr as [i0 fs fs' (t' & Ht' & Hf)|]; subst.
            assert (t' = t) by congruence. subst. constructor. auto.
          - intros (i & Hi & ->). destruct (variant_of (variant_names g) i) as [k|] eqn:Ek; [|discriminate]. injection Hpp as <-.
            specialize (Hbr _ eq_refl). inversion Hbr as [|k0 y y' Hr]; subst.
            destruct (nt_indices_inv _ _ _ Hi) as (N & HN & <-). destruct (slot_body_nt items ti g Hlow N i HN) as (M & HM & Hty).
            constructor; [eapply slots_In; eauto|]. rewrite <- Hty. eapply RV_ty; eauto. }
        intro H. specialize (Hgoal H). clear - Hgoal. induction s; auto. cbn in Hgoal. constructor. auto. }
      assert (Hpb : exists m, pp = PopBind (nm_mutable nm) (nm_name nm) m).
      { destruct (bs_symbol x); [|injection Hpp as <-; eauto]. destruct (variant_of _ _); [|discriminate]. injection Hpp as <-. eauto. }
      destruct Hpb as (m & Em). subst pp. cbn in Hv. inversion Hv as [|x0 m0 b b' l vs1 vs1' Hbr Hv']; subst.
      apply sc_bound; [exact Eb| |eapply IH; eauto]. apply Hsr. intros m' Hm'. injection Hm' as <-. exact Hbr.
    + injection Hpp as <-. cbn in Hv. apply sc_unbound; auto. eapply IH; eauto.
Qed.

Lemma function_rel n p q f vs vs' w w' : get_production g n p = Some q -> fn_for (variant_names g) n q f ->
  vrel (RV g) RFi (rev (binds (sf_pops f))) vs vs' -> RW w w' ->
  option_related (fun a b => RV g (sf_variant f) (fst a) (fst b) /\ RW (snd a) (snd b)) (lsem usem (sf_action f) vs w) (lsem usem' (sf_action f) vs' w').
Proof.
  intros Hq (F1 & F2 & F3) Hv Hw. apply mapM_rev_ok in F3. rewrite binds_rev in Hv. rewrite F1.
  destruct (get_production_inv nts cs ti g Hlow _ _ _ Hq) as [(N & i & HN & HNp & -> & -> & ->)|(N & i & HN & -> & Hadd)].
  - cbn in F3. destruct (variant_of (variant_names g) i) as [k|] eqn:Ek; [|discriminate]. cbn in F3. injection F3 as F3. rewrite <- F3 in Hv.
    cbn in Hv. inversion Hv as [|x m b b' l vs1 vs1' Hb Hv']; subst. inversion Hv'; subst. inversion Hb as [|k0 y y' Hr]; subst.
    cbn. split; auto. destruct (slot_body_nt items ti g Hlow N i HN) as (M & HM & Hty).
    pose proof (RV_ty _ _ _ _ _ _ HM Ek Hr) as Hr'. rewrite Hty in Hr'.
    exists (S i). eexists. split; [eapply entry_nt; eauto|]. split; auto.
  - destruct (added_In nts ti _ _ (nth_error_In _ _ Hadd)) as (N' & up & HN' & Hup & Hi & Hl).
    destruct (lprod_rhs nts cs ti g Hlow _ _ Hl) as (_ & Hac & Hsy). rewrite Hac. cbn [lsem].
    pose proof (scope_of _ _ _ _ _ Hsy F3 Hv) as Hsc.
    pose proof (Hact N' up vs vs' w w' HN' Hup Hsc Hw) as Ha.
    destruct (usem (action_expr (ap_action up)) vs w) as [[x w1]|], (usem' (action_expr (ap_action up)) vs' w') as [[x' w1']|]; cbn in Ha |- *; auto.
    destruct Ha as (Ha1 & Ha2). split; auto.
    destruct (slot_exists nts N' HN') as (j & Hj). assert (Hj' : map_get String.eqb (an_name N') ni = Some j) by (apply (slot_index nts Hnames); auto).
    assert (j = i) by congruence. subst j. destruct (slot_body_nt items ti g Hlow N' i Hj) as (M & HM & Hty).
    exists i, M. split; auto. split; auto. rewrite Hty. exact Ha1.
Qed.
End Linked.

Lemma tokens_linked tok tok' : RT tok tok' -> NoDup (map cv_from cs) -> plain_patterns items -> gp_conversions gp = cs ->
  e_tok_idx env tok = e_tok_idx env' tok' /\
  option_related (fun a b => fst a = fst b /\ RFi (fst a) (snd a) (snd b)) (e_tok_val env tok) (e_tok_val env' tok').
Proof.
  intros Ht Hnd Hplain Hcv. apply HRT in Ht. destruct Ht as (Hc & Hf). cbn [e_tok_idx e_tok_val user_env]. rewrite Hcv. rewrite !token_terminal_idx_spec, !token_value_spec by exact Hplain.
  unfold token_class, token_fields in *.
  pose proof (first_match_idx_spec cs tok 0) as H1. pose proof (first_match_idx_spec cs tok' 0) as H2.
  destruct (first_match_idx 0 cs tok) as [[i fs]|], (first_match_idx 0 cs tok') as [[i' fs']|]; cbn.
  - destruct H1 as (c & _ & Hn & Hm). destruct H2 as (c' & _ & Hn' & Hm'). rewrite Nat.sub_0_r in *. rewrite Hm, Hm' in *. cbn in Hc. injection Hc as Hc.
    assert (Hn1 : nth_error (map cv_from cs) i = Some (cv_from c)) by (rewrite nth_error_map, Hn; reflexivity).
    assert (Hn2 : nth_error (map cv_from cs) i' = Some (cv_from c)) by (rewrite nth_error_map, Hn', Hc; reflexivity).
    assert (Hii : i = i').
    { eapply (proj1 (NoDup_nth_error _) Hnd); [apply nth_error_Some; congruence|congruence]. }
    subst i'. split; auto. split; auto. exists (cv_from c). split; auto.
  - destruct H1 as (c & _ & Hn & Hm). rewrite Hm, H2 in Hc. discriminate.
  - destruct H2 as (c & _ & Hn & Hm). rewrite Hm, H1 in Hc. discriminate.
  - auto.
Qed.

(** What the run-time lemmas need, for some lowered grammar *)
Lemma linked : exists RVv, 
  (forall tok tok', RT tok tok' -> e_tok_idx env tok = e_tok_idx env' tok' /\
    option_related (fun a b => fst a = fst b /\ RFi (fst a) (snd a) (snd b)) (e_tok_val env tok) (e_tok_val env' tok')) /\
  (forall idx f vs vs' w w', called gp pr idx -> nth_error (gp_sem_actions gp) idx = Some f ->
    vrel RVv RFi (rev (binds (sf_pops f))) vs vs' -> RW w w' ->
    option_related (fun a b => RVv (sf_variant f) (fst a) (fst b) /\ RW (snd a) (snd b)) (e_sem env (sf_action f) vs w) (e_sem env' (sf_action f) vs' w')) /\
  (forall x x', RVv (pr_extract_variant pr) x x' -> R (pr_return_ty pr) x x').
Proof.
  destruct Hp as (Hnames & Hplain & Hexp & Hpr).
  destruct (expands_data items gp Hexp) as (ho & fl & Hho & ti & g & tbl & states & entries & act & H1 & H2 & H3 & H4 & _ & H6 & H7).
  exists (RV g). split; [|split].
  - intros tok tok' Ht. apply tokens_linked; [exact Ht|exact (ti_dup _ _ _ (lo_ti _ _ _ _ H1))|exact Hplain|apply (gn_conv _ _ _ _ _ _ _ H3)].
  - intros idx f vs vs' w w' Hc Hf Hv Hw. destruct (action_numbers ho Hho fl g (the_tokens items) gp H2 H7) as (no & N1 & N2 & N3 & N4 & _).
    assert (Hx : exists n p q, get_production g n p = Some q /\ fn_for (variant_names g) n q f).
    { destruct Hc as [->|(s & t & nt & k & Ha)].
      - destruct (gn_parser _ _ _ _ _ _ _ H3 _ Hpr) as (nt & e & N & f0 & q & Hin & HN & _ & _ & _ & _ & Hq & Hf0 & Hfor).
        exists nt, 0, q. split; auto. congruence.
      - destruct (N3 _ _ _ _ _ Ha) as (p & q & Hq & _ & _ & ->). exists nt, p, q. split; auto.
        destruct (N1 _ _ _ Hq) as (f' & Hf' & Hfor). congruence. }
    destruct Hx as (n & p & q & Hq & Hfor).
    cbn [e_sem user_env]. eapply function_rel; eauto.
  - intros x x' Hr. destruct (gn_parser _ _ _ _ _ _ _ H3 _ Hpr) as (nt & e & N & f0 & q & Hin & HN & _ & Hty & _ & Hvar & _).
    rewrite Hty. eapply RV_ty; eauto.
Qed.

Lemma result_weaken (P Q : V -> V' -> Prop) r r' : (forall x x', P x x' -> Q x x') -> result_related P RE r r' -> result_related Q RE r r'.
Proof. intro H. destruct r, r'; cbn; auto. Qed.

Theorem related_returns it it' w w' o evs l' it'' : RW w w' -> returns_with gp inj usem next pr it w o evs ->
  answers next' it' l' it'' -> Forall2 (response_related RT RE) (nexts_of evs) l' ->
  exists o' evs', returns_with gp inj' usem' next' pr it' w' o' evs' /\
    result_related (R (pr_return_ty pr)) RE (oc_result o) (oc_result o') /\ RW (oc_world o) (oc_world o') /\
    oc_iter o' = it'' /\ Forall2 (call_related RT RE) evs evs'.
Proof.
  intros Hw (fuel & Hr & <-) Ha Hl. destruct linked as (RVv & L1 & L2 & L3).
  destruct (parse_rel gp pr env env' RT RE RW RVv RFi L1 L2 fuel it it' w w' o l' it'' Hw Hr Ha Hl) as (o' & P1 & (P2 & P3) & P4 & P5).
  exists o'. eexists. split; [exists fuel; split; [exact P1|reflexivity]|]. split; [eapply result_weaken; eauto|]. auto.
Qed.

Theorem related_running it it' w w' n it1 w1 evs l' it'' : RW w w' -> running gp inj usem next pr it w n it1 w1 evs ->
  answers next' it' l' it'' -> Forall2 (response_related RT RE) (nexts_of evs) l' ->
  exists w1' evs', running gp inj' usem' next' pr it' w' n it'' w1' evs' /\ RW w1 w1' /\ Forall2 (call_related RT RE) evs evs'.
Proof.
  intros Hw (st & Hr & <- & <- & <-) Ha Hl. destruct linked as (RVv & L1 & L2 & L3).
  unfold parse_events in *. cbn [nexts_of flat_map app] in Hl.
  inversion Hl as [|a r' b l1 Hr' Hl']; subst. inversion Ha as [|a b it2 c d Hn Ha']; subst.
  destruct (init_rel pr env env' RT RE RW RVv RFi it it' w w' _ _ Hw Hn Hr') as (Hi & Hit).
  rewrite <- Hit in Ha'. rewrite iterations_iter in Hr.
  destruct (iter_rel gp pr env env' RT RE RW RVv RFi L1 L2 _ _ _ _ _ _ Hi Hr Ha' Hl') as (s' & P1 & P2 & P3 & P4).
  exists (ps_world s'). eexists. split; [|split; [apply P2|]].
  - exists s'. rewrite iterations_iter. repeat split; auto.
  - constructor; auto. cbn [call_related e_next user_env]. cbn [e_next user_env] in Hn. rewrite Hn. exact Hr'.
Qed.
End Param.

(** The responses recorded among the events are those of the iterator. *)
Section Answers.
Context {A Tok E V W I : Type}.
Variable p : generated A.
Variable pr : parser_struct.
Variable env : env_t A Tok E V W I.
Lemma answers_cat it l1 it1 l2 it2 : answers (e_next env) it l1 it1 -> answers (e_next env) it1 l2 it2 -> answers (e_next env) it (l1 ++ l2) it2.
Proof. induction 1; intro H2; cbn; [auto|]. econstructor; eauto. Qed.
Lemma step_answers st :
  match step p env pr st with
  | inl s => answers (e_next env) (ps_iter st) (nexts_of (step_events p env pr st)) (ps_iter s)
  | inr o => answers (e_next env) (ps_iter st) (nexts_of (step_events p env pr st)) (oc_iter o)
  end.
Proof.
  assert (Hd : forall s t, match dispatch p env pr st s t with
    | inl s1 => answers (e_next env) (ps_iter st) (nexts_of (dispatch_events p env pr st s t)) (ps_iter s1)
    | inr o => answers (e_next env) (ps_iter st) (nexts_of (dispatch_events p env pr st s t)) (oc_iter o)
    end).
  { intros s t. unfold dispatch, dispatch_events. destruct (index2 (gp_action p) s t) as [[[n|nt n act|]|]|].
    - unfold shift. destruct (e_next env (ps_iter st)) as (r & it1) eqn:En.
      assert (Ha : answers (e_next env) (ps_iter st) [r] it1) by (econstructor; [exact En|constructor]).
      destruct (ps_token st) as [[tok|e]|]; [destruct (e_tok_val env tok) as [[i fs]|]|..]; exact Ha.
    - cbn. unfold reduce. destruct (nth_error (gp_sem_actions p) act); [|constructor]. destruct (run_sem_fn env s0 (ps_values st) (ps_world st)) as [[s1 w1]|e]; [|constructor].
      destruct (Nat.ltb (List.length (ps_states st)) n); [constructor|]. destruct (skipn n (ps_states st)) as [|x y]; [constructor|]. destruct (index2 (gp_goto p) x nt) as [[|]|]; constructor.
    - cbn. unfold accept. destruct (nth_error (gp_sem_actions p) (pr_action_idx pr)); [|constructor]. destruct (run_sem_fn env s0 (ps_values st) (ps_world st)) as [[s1 w1]|e]; [|constructor].
      destruct s1 as [|v s1]; [constructor|]. destruct (extract (ExNonTerminal (pr_extract_variant pr)) v) as [[|]|]; constructor.
    - cbn. destruct (nth_error (gp_terminal_strs p) t), (nth_error (gp_expected p) s); constructor.
    - constructor. }
  unfold step, step_events. destruct (ps_states st); [constructor|]. destruct (ps_token st) as [[tok|e]|].
  - destruct (e_tok_idx env tok); [apply Hd|constructor].
  - constructor.
  - apply Hd.
Qed.
Lemma run_answers fuel : forall st o, run p env fuel pr st = Some o ->
  answers (e_next env) (ps_iter st) (nexts_of (run_events p env fuel pr st)) (oc_iter o).
Proof.
  induction fuel as [|fuel IH]; intros st o H; cbn [run run_events] in *; [discriminate|].
  rewrite nexts_app. pose proof (step_answers st) as Hs. destruct (step p env pr st) as [s|o'].
  - eapply answers_cat; [exact Hs|auto].
  - injection H as ->. cbn. rewrite app_nil_r. exact Hs.
Qed.
Lemma iter_answers n : forall st s, iter_st p env pr n st = Some s ->
  answers (e_next env) (ps_iter st) (nexts_of (run_events p env n pr st)) (ps_iter s).
Proof.
  induction n as [|n IH]; intros st s H; cbn [iter_st run_events] in *; [injection H as ->; constructor|].
  rewrite nexts_app. pose proof (step_answers st) as Hs. destruct (step p env pr st) as [s1|o']; [|discriminate].
  eapply answers_cat; [exact Hs|auto].
Qed.
Lemma init_answers it w : answers (e_next env) it [fst (e_next env it)] (ps_iter (init_pstate env pr it w)).
Proof. unfold init_pstate. destruct (e_next env it) as (r & it1) eqn:En. econstructor; [exact En|constructor]. Qed.
Lemma parse_answers fuel it w o : parse p env fuel pr it w = Some o ->
  answers (e_next env) it (nexts_of (parse_events p env fuel pr it w)) (oc_iter o).
Proof. intro H. unfold parse, parse_events in *. exact (answers_cat _ _ _ _ _ (init_answers it w) (run_answers _ _ _ H)). Qed.
End Answers.
