(** * EffectsProofs: runs of a generated parser with arbitrary user code *)
From Verif Require Export EffectsSpec KnuthProofs.

Lemma x_call_spec {A Tok E V St} (env : xenv A Tok E V St) variants nt pr f bs vs rest u :
  fn_for variants nt pr f -> vals_for variants (rev (rhs pr)) (rev bs) vs ->
  x_call env f (vs ++ rest) u =
  match x_sem env (p_action pr) (bindings (p_symbols pr) bs) u with
  | (Value v, u') => (inl (VNonTerminal (sf_variant f) v :: rest), u')
  | (Panicked, u') => (inr UserPanic, u')
  | (Returned, u') => (inl rest, u')
  end.
Proof.
  intros (H1 & H2 & H3) Hv. unfold x_call. unfold rhs in Hv. rewrite <- map_rev in Hv.
  rewrite (run_pops_spec variants _ _ _ _ rest [] H3 Hv). rewrite !rev_involutive, app_nil_r, H1. reflexivity.
Qed.

(** ** One iteration, by table entry *)
Section Control.
Context {A Tok E V St : Type}.
Variable g : grammar A.
Hypothesis Hwf : wf_grammar g.
Variable conv : list conversion.
Variable tbl : first_table.
Variable states : list lr1_state.
Variable entries : list (nat * nat).
Variable act : nat -> option nat -> option aact.
Variable gp : generated A.
Hypothesis Hgen : generated_ok g conv tbl states entries act gp.
Variable env : xenv A Tok E V St.
Notation class := (x_idx env).
Hypothesis Htok : forall tok t, class tok = Some t -> t < n_terminals g /\ exists fs, x_val env tok = Some (t, fs).
Variable pr : parser_struct.
Variables nt0 e : nat.
Hypothesis Hpf : parser_for g (gp_sem_actions gp) entries pr nt0 e.
Notation xst := (xpstate Tok E V St).
Notation Haut := (gn_aut _ _ _ _ _ _ _ Hgen).
Notation Hact := (gn_act _ _ _ _ _ _ _ Hgen).
Notation Hentry := (Hentry g entries gp pr nt0 e Hpf).

Inductive xlook : option (Tok + E) -> option nat -> Prop :=
| xlook_eof : xlook None None
| xlook_tok : forall tok t, class tok = Some t -> xlook (Some (inl tok)) (Some t).

Record xinv (states_ : list nat) (values : list (sem_val V)) (pi : list symbol) (bs : list (bval V)) (ts : list (tree Tok)) (cons : list Tok) : Prop := {
  xi_path : stack_path states e pi states_;
  xi_vals : vals_for (variant_names g) pi bs values;
  xi_wf : wf_forest g class (rev ts) (rev pi);
  xi_yield : yields (rev ts) = cons
}.

Lemma xinv_init : xinv [pr_init_state pr] [] [] [] [] [].
Proof.
  destruct Hpf as (N & f & q & _ & _ & _ & _ & He & _). constructor; cbn; try constructor. rewrite He. constructor.
Qed.
Lemma xinv_top sts vs pi bs ts c : xinv sts vs pi bs ts c -> exists s ss, sts = s :: ss /\ s < List.length states.
Proof.
  intro H. destruct (valid_items g tbl states entries Haut nt0 e Hentry _ _ (xi_path _ _ _ _ _ _ H)) as (s & ss & x & H1 & H2 & _).
  exists s, ss. split; auto. apply nth_error_Some. congruence.
Qed.

Definition xstep_spec (st : xst) (pi : list symbol) (bs : list (bval V)) (ts : list (tree Tok)) (c : list Tok)
  (s : nat) (ss : list nat) (la : option nat) : Prop :=
  match act s la with
  | None => exists found, term_name g la found /\
      x_step gp env pr st = inr (XOutcome (PParserError found (err_expected g act s)) (xs_user st))
  | Some (AShift n) => exists tok t fs, xs_token st = Some (inl tok) /\ la = Some t /\ class tok = Some t /\
      x_val env tok = Some (t, fs) /\
      x_step gp env pr st = match x_next env (xs_user st) with
        | (None, u) => inr (XOutcome (PPanic UserPanic) u)
        | (Some tk, u) => inl (XState (n :: s :: ss) (VToken t fs :: xs_values st) tk u)
        end /\
      xinv (n :: s :: ss) (VToken t fs :: xs_values st) (T t :: pi) (BTok fs :: bs) (Leaf tok :: ts) (c ++ [tok])
  | Some (AReduce n p) => exists q args bs0 kids rest vs0 sts k pi0,
      get_production g n p = Some q /\ pi = rev (rhs q) ++ pi0 /\ bs = rev args ++ bs0 /\ List.length args = List.length (rhs q) /\
      x_step gp env pr st = match x_sem env (p_action q) (bindings (p_symbols q) args) (xs_user st) with
        | (Value v, u) => inl (XState sts (VNonTerminal k v :: vs0) (xs_token st) u)
        | (Panicked, u) => inr (XOutcome (PPanic UserPanic) u)
        | (Returned, u) => inl (XState sts vs0 (xs_token st) u)
        end /\
      forall v, xinv sts (VNonTerminal k v :: vs0) (NT n :: pi0) (BVal v :: bs0) (Node n p kids :: rest) c
  | Some AAccept => exists q m v tr, la = None /\ xs_token st = None /\ get_production g nt0 0 = Some q /\ rhs q = [NT m] /\
      pi = [NT m] /\ bs = [BVal v] /\ ts = [tr] /\ wf_tree g class tr (NT m) /\
      x_step gp env pr st = match x_sem env (p_action q) (bindings (p_symbols q) [BVal v]) (xs_user st) with
        | (Value v', u) => inr (XOutcome (POk v') u)
        | (Panicked, u) => inr (XOutcome (PPanic UserPanic) u)
        | (Returned, u) => inr (XOutcome (PPanic EmptyValueStack) u)
        end
  end.

Lemma xlook_range tk la : xlook tk la -> la_in_range (n_terminals g) la.
Proof. intros []; cbn; auto. apply Htok in H. tauto. Qed.

Lemma xstep_ok st pi bs ts c s ss la : xinv (xs_states st) (xs_values st) pi bs ts c -> xs_states st = s :: ss -> xlook (xs_token st) la ->
  xstep_spec st pi bs ts c s ss la.
Proof.
  intros Hinv Hs Hla.
  assert (Hlt : s < List.length states).
  { destruct (xinv_top _ _ _ _ _ _ Hinv) as (s' & ss' & E1 & E2). congruence. }
  pose proof (xlook_range _ _ Hla) as Hrange.
  destruct (gn_action _ _ _ _ _ _ _ Hgen s la Hlt Hrange) as (r & Hr & Hent).
  assert (Hstep : x_step gp env pr st = x_dispatch gp env pr st s (la_col (n_terminals g) la)).
  { unfold x_step. rewrite Hs. destruct Hla as [|tok t Hc]; cbn.
    - rewrite (gn_nterm _ _ _ _ _ _ _ Hgen). auto.
    - rewrite Hc. auto. }
  destruct Hinv as [Hpath Hv Hw Hy]. rewrite Hs in Hpath.
  unfold xstep_spec. rewrite Hstep. unfold x_dispatch. rewrite Hr. clear Hr Hstep.
  destruct (act s la) as [[n|n p|]|] eqn:Ea.
  - (* shift *)
    destruct r as [[n'|? ? ?|]|]; cbn in Hent; try contradiction. subst n'.
    destruct (shift_trans g states act Hact s la n Ea) as (t & -> & Ht).
    inversion Hla as [|tok t' Hc Htk]; subst t'.
    destruct (Htok _ _ Hc) as (_ & fs & Hfs).
    exists tok, t, fs. do 4 (split; [auto|]). split.
    + unfold x_shift. rewrite <- Htk, Hfs, Hs. destruct (x_next env (xs_user st)) as [[tk|] u]; reflexivity.
    + constructor.
      * constructor; auto.
      * constructor; [constructor|auto].
      * cbn. apply wf_forest_app; auto. constructor; [|constructor]. constructor; auto.
      * cbn [rev]. rewrite yields_app, Hy. reflexivity.
  - (* reduce *)
    destruct r as [[?|n' k idx|]|]; cbn in Hent; try contradiction.
    destruct Hent as (<- & q & f & Hq & -> & Hidx & Hfn).
    destruct (reduce_possible g Hwf tbl states entries Haut nt0 e Hentry act Hact _ _ _ _ _ _ Hpath Ea)
      as (q' & pi0 & s0 & ss0 & s1 & d & Hq' & Hpriv & Hpi & Hsk & Hp0 & Ht & _).
    rewrite Hq in Hq'; injection Hq' as <-. subst pi.
    destruct (vals_for_app_inv _ _ _ _ _ Hv) as (b1 & b2 & v1 & v2 & -> & Hvs & Hv1 & Hv2).
    rewrite rev_app_distr, rev_involutive in Hw. apply wf_forest_Forall2 in Hw.
    apply Forall2_app_split in Hw. destruct Hw as (w1 & w2 & Hab & Ha & Hb).
    assert (Hs0 : s0 < List.length states).
    { unfold trans in Ht. destruct (nth_error states s0) eqn:E0; [|discriminate]. apply nth_error_Some. congruence. }
    assert (Hn : n < n_non_terminals g).
    { destruct Hpriv as (N & HN & _). eapply nt_in_range; eauto. }
    assert (Hlen : List.length (rhs q) <= List.length (xs_states st)).
    { destruct (Nat.le_gt_cases (List.length (rhs q)) (List.length (xs_states st))) as [|Hgt]; auto.
      rewrite <- Hs, skipn_all2 in Hsk by lia. discriminate. }
    exists q, (rev b1), b2, w2, (rev w1), v2, (s1 :: s0 :: ss0), (sf_variant f), pi0. split; auto. split; auto.
    split; [rewrite rev_involutive; auto|]. split.
    { destruct (vals_for_length _ _ _ _ Hv1) as (L & _). rewrite rev_length in L. rewrite rev_length. exact L. }
    split.
    + unfold x_reduce. rewrite Hidx, Hvs.
      rewrite <- (rev_involutive b1) in Hv1.
      rewrite (x_call_spec env (variant_names g) n q f (rev b1) v1 v2 (xs_user st) Hfn Hv1).
      destruct (x_sem env (p_action q) (bindings (p_symbols q) (rev b1)) (xs_user st)) as [[v| |] u]; auto;
        destruct (Nat.ltb_spec (List.length (xs_states st)) (List.length (rhs q))) as [|_]; try lia;
        rewrite Hs, Hsk, (gn_goto _ _ _ _ _ _ _ Hgen s0 n Hs0 Hn), Ht; reflexivity.
    + intro v. constructor.
      * constructor; auto.
      * constructor; auto. constructor. apply Hfn.
      * cbn. rewrite rev_involutive. apply wf_forest_app; [apply wf_forest_Forall2; auto|]. constructor; [|constructor].
        econstructor; eauto. apply wf_forest_Forall2. exact Hb.
      * cbn [rev]. rewrite rev_involutive, yields_app. unfold yields at 2. cbn. rewrite app_nil_r. change (flat_map yield w2) with (yields w2).
        rewrite <- yields_app, <- Hab. exact Hy.
  - (* accept *)
    destruct r as [[?|? ? ?|]|]; cbn in Hent; try contradiction.
    destruct (accept_bottom g Hwf tbl states entries Haut nt0 e Hentry act Hact _ _ _ _ Hpath Ea) as (-> & q & m & Hq & Hrq & Hpi).
    assert (Htk : xs_token st = None) by (inversion Hla; auto).
    rewrite Hpi in Hv, Hw. cbn in Hw. pose proof Hv as Hv0. inversion Hv0 as [|X Xs b bs' v vs Hvv Hvn]; subst. inversion Hvn; subst. inversion Hvv as [|? k' v' Hk]; subst.
    inversion Hw as [|tr X trs Xs Hwt Hwn Eq1 Eq2]; subst. inversion Hwn; subst.
    assert (Hts : ts = [tr]) by (rewrite <- (rev_involutive ts), <- Eq1; reflexivity).
    exists q, m, v', tr. do 8 (split; [auto|]).
    unfold x_accept. destruct Hpf as (N & f & q' & _ & _ & _ & _ & _ & Hvar & Hq' & Hidx & Hfn).
    rewrite Hq in Hq'; injection Hq' as <-. rewrite Hidx.
    match goal with H : _ = xs_values st |- _ => rewrite <- H in Hv |- * end.
    assert (Hcall := x_call_spec env (variant_names g) nt0 q f [BVal v'] [VNonTerminal k' v'] [] (xs_user st) Hfn).
    rewrite Hrq in Hcall. specialize (Hcall Hv). cbn [app] in Hcall. rewrite Hcall.
    destruct (x_sem env (p_action q) (bindings (p_symbols q) [BVal v']) (xs_user st)) as [[v| |] u]; auto.
    destruct Hfn as (_ & Hv' & _). rewrite Hvar in Hv'. injection Hv' as Hvv'. cbn. rewrite Hvv', Nat.eqb_refl. reflexivity.
  - (* error *)
    destruct r as [r|]; cbn in Hent; [destruct r; contradiction|].
    rewrite (gn_expected _ _ _ _ _ _ _ Hgen s Hlt), (gn_strs _ _ _ _ _ _ _ Hgen).
    destruct la as [t|]; cbn in *.
    + unfold n_terminals in Hrange. rewrite nth_error_app1 by auto.
      destruct (nth_error (g_terminals g) t) as [str|] eqn:Et; [|apply nth_error_None in Et; lia].
      exists str. split; auto.
    + unfold n_terminals. rewrite nth_error_app2, Nat.sub_diag by auto. cbn. eexists; split; [reflexivity|]. auto.
Qed.

Lemma xstep_cases st pi bs ts c : xinv (xs_states st) (xs_values st) pi bs ts c ->
  (exists er, xs_token st = Some (inr er) /\ x_step gp env pr st = match x_clone env er (xs_user st) with
     | (Some er', u) => inr (XOutcome (PLexerError er') u) | (None, u) => inr (XOutcome (PPanic UserPanic) u) end) \/
  (exists tok, xs_token st = Some (inl tok) /\ class tok = None /\ x_step gp env pr st = inr (XOutcome (PPanic NoTokenMatch) (xs_user st))) \/
  (exists la s ss, xlook (xs_token st) la /\ xs_states st = s :: ss /\ s < List.length states /\ xstep_spec st pi bs ts c s ss la).
Proof.
  intro H. destruct (xinv_top _ _ _ _ _ _ H) as (s & ss & Hs & Hlt).
  destruct (xs_token st) as [[tok|er]|] eqn:Et.
  - destruct (class tok) as [t|] eqn:Ec.
    + right; right. exists (Some t), s, ss. split; [constructor; auto|]. split; auto. split; auto. apply xstep_ok; auto.
      rewrite Et. constructor; auto.
    + right; left. exists tok. split; auto. split; auto. unfold x_step. rewrite Hs, Et, Ec. auto.
  - left. exists er. split; auto. unfold x_step. rewrite Hs, Et. auto.
  - right; right. exists None, s, ss. split; [constructor|]. split; auto. split; auto. apply xstep_ok; auto.
    rewrite Et. constructor.
Qed.
End Control.

(** ** Decisions are unique where reductions are *)
Section Unique.
Context {A Tok E V : Type}.
Variable nts : list (ast_non_terminal A).
Variable uf : list ast_symbol -> option string -> option string -> Prop.
Variable entries : list string.
Variable class : Tok -> option string.
Variable start : string.
Notation decides := (decides_by (E := E) (V := V) nts uf entries class start).

Lemma decides_fun st tk d d' : kunique nts uf start (rev (map fst st)) -> decides st tk d -> decides st tk d' -> d = d'.
Proof.
  intros Hu H1 H2. destruct H1 as [st tok t Hc Hs|args rest tk la n p pr Hk Hr Hp HL|v Ha|st tk la listed Hk Hb Hl|st er|st tok Hc].
  - inversion H2 as [? ? t' Hc'|? ? ? ? ? ? ? Hk Hr| |? ? ? ? Hk Hb| |? ? Hc']; subst; try congruence.
    + exfalso. inversion Hk; subst. assert (t0 = t) by congruence. subst. destruct Hr as (_ & Hr & _). contradiction.
    + exfalso. inversion Hk; subst. assert (t0 = t) by congruence. subst. destruct Hb as (Hb & _). contradiction.
  - inversion H2 as [? ? t' Hc' Hs|args2 rest2 tk2 la2 n2 p2 pr2 Hk2 Hr2 Hp2 HL2 Hrev|v Ha Est|? ? ? ? Hk2 Hb| |? ? Hc']; subst.
    + exfalso. inversion Hk; subst. assert (t = t') by congruence. subst. destruct Hr as (_ & Hr & _). contradiction.
    + pose proof (klook_fun _ _ _ _ Hk Hk2). subst la2. rewrite Hrev in Hr2. destruct (Hu _ _ _ _ _ Hr Hr2) as (<- & <-).
      assert (pr2 = pr) by congruence. subst pr2. destruct (rev_split _ _ _ _ Hrev) as (-> & ->); [congruence|]. reflexivity.
    + exfalso. inversion Hk; subst. destruct Hr as (_ & _ & Hr). rewrite <- Est in Hr. exact (Hr Ha).
    + exfalso. pose proof (klook_fun _ _ _ _ Hk Hk2). subst la0. destruct Hb as (_ & _ & Hb). destruct Hr as (Hr & _). eapply Hb; eauto.
    + exfalso. inversion Hk.
    + exfalso. inversion Hk; congruence.
  - inversion H2 as [|args2 rest2 tk2 la2 n2 p2 pr2 Hk2 Hr2 Hp2 HL2 Hrev| |? ? ? ? Hk2 Hb| |]; subst; auto; exfalso.
    + inversion Hk2; subst. destruct Hr2 as (_ & _ & Hr). rewrite Hrev in Hr. exact (Hr Ha).
    + inversion Hk2; subst. destruct Hb as (_ & Hb & _). exact (Hb Ha).
  - inversion H2 as [? ? t' Hc' Hs|args2 rest2 tk2 la2 n2 p2 pr2 Hk2 Hr2 Hp2 HL2 Hrev|v Ha Est|? ? ? ? Hk2 Hb2 Hl2| |? ? Hc']; subst.
    + exfalso. inversion Hk; subst. assert (t = t') by congruence. subst. destruct Hb as (Hb & _). contradiction.
    + exfalso. pose proof (klook_fun _ _ _ _ Hk Hk2). subst la2. destruct Hb as (_ & _ & Hb). destruct Hr2 as (Hr2 & _). eapply Hb; eauto.
    + exfalso. inversion Hk; subst. destruct Hb as (_ & Hb & _). exact (Hb Ha).
    + pose proof (klook_fun _ _ _ _ Hk Hk2). subst la0. rewrite (klisted_filter _ _ _ _ _ _ _ Hl Hl2). reflexivity.
    + exfalso. inversion Hk.
    + exfalso. inversion Hk; congruence.
  - inversion H2 as [|? ? ? ? ? ? ? Hk2| |? ? ? ? Hk2| |]; subst; auto; exfalso; inversion Hk2.
  - inversion H2 as [|? ? ? ? ? ? ? Hk2| |? ? ? ? Hk2| |]; subst; auto; try congruence; exfalso; inversion Hk2; congruence.
Qed.
End Unique.
Section ELockstep.
Context {A : Type}.
Variable items : list (grammar_item A).
Notation nts := (declared_nts items).
Notation cs := (token_entries items).
Hypothesis Hnames : distinct_names items.
Hypothesis Hpatterns : plain_patterns items.
Variable ti : list (string * nat).
Variable g : grammar (lexpr A).
Hypothesis Hlow : lowered nts cs ti g.
Hypothesis Hwf : wf_grammar g.
Variable N : ast_non_terminal A.
Variable i : nat.
Hypothesis HN : In (N, i) (slots 0 nts).
Hypothesis Hpub : an_pub N = true.
Notation S0 := (S i).
Notation start := (an_name N).
Notation sym_rel := (sym_rel nts cs).
Notation plain ss := (Forall (fun s => unnamed s = s) ss).
Notation lhs_rel := (lhs_rel items i).
Notation la_rel := (la_rel items).
Variable tbl : first_table.
Variables (gf : list symbol -> option nat -> option nat -> Prop) (uf : list ast_symbol -> option string -> option string -> Prop).
Hypothesis Hlu : lookahead_up items g tbl gf uf.
Hypothesis Hld : lookahead_down items g tbl gf uf.
Variable states : list lr1_state.
Variable entries : list (nat * nat).
Variable act : nat -> option nat -> option aact.
Variable gp : generated (lexpr A).
Hypothesis Hgen : generated_ok g cs tbl states entries act gp.
Variable pr : parser_struct.
Variable e : nat.
Hypothesis Hpf : parser_for g (gp_sem_actions gp) entries pr S0 e.

Context {E V St : Type}.
Variable inj : rval -> V.
Variable usem : A -> list (string * bval V) -> St -> completion V * St.
Variable next : St -> option (option (rval + E)) * St.
Variable clone : E -> St -> option E * St.
Notation env := (user_xenv gp inj usem next clone).
(* the same token functions; these are all that is used of it *)
Notation usem0 := (fun (_ : A) (_ : list (string * bval V)) (_ : unit) => @None (V * unit)).
Notation next0 := (fun u : unit => (@None (rval + E), u)).
Notation env0 := (user_env gp inj usem0 next0).
Notation class := (token_class cs).
Notation fields := (fun tok => map inj (token_fields cs tok)).
Notation names := (map cv_from cs).
Notation Haut := (gn_aut _ _ _ _ _ _ _ Hgen).
Notation Hact := (gn_act _ _ _ _ _ _ _ Hgen).
Notation Hentry := (Hentry g entries gp pr S0 e Hpf).
Notation xst := (xpstate rval E V St).
Notation ec := (econf rval E V St).

Lemma x_tokens : forall tok t, x_idx env tok = Some t -> t < n_terminals g /\ exists fs, x_val env tok = Some (t, fs).
Proof. exact (env_tokens_ok items Hpatterns gp ti g tbl states entries act Hlow Hgen inj usem0 next0). Qed.
Lemma x_class tok : class tok = match x_idx env tok with Some i => nth_error names i | None => None end.
Proof. exact (env_class items gp g tbl states entries act Hgen inj usem0 next0 tok). Qed.
Lemma x_range tok t : x_idx env tok = Some t -> t < List.length cs.
Proof. exact (env_range items gp g tbl states entries act Hgen inj usem0 next0 tok t). Qed.
Lemma x_fields tok t fs : x_val env tok = Some (t, fs) -> fields tok = fs.
Proof.
  intro H. cbn beta. rewrite <- (env_fields items Hpatterns gp g tbl states entries act Hgen inj usem0 next0 tok). unfold tok_fields.
  change (e_tok_val env0 tok) with (x_val env tok). rewrite H. reflexivity.
Qed.

Record einv (st : xst) (c : ec) : Prop := {
  ei_inv : exists pi ts cons, xinv g states env e (xs_states st) (xs_values st) pi (map snd (ec_stack c)) ts cons /\
    Forall2 sym_rel (rev (map fst (ec_stack c))) (rev pi);
  ei_plain : plain (rev (map fst (ec_stack c)));
  ei_token : ec_token c = xs_token st;
  ei_user : ec_user c = xs_user st
}.

Lemma einv_start tk u : einv (XState [pr_init_state pr] [] tk u) (EConf [] tk u).
Proof.
  constructor; try reflexivity.
  - exists [], [], []. split; [apply (xinv_init g states entries gp env pr S0 e Hpf)|constructor].
  - constructor.
Qed.

Lemma xlook_klook tk la : xlook env tk la -> exists lan, klook (E := E) class tk lan /\ la_rel lan la.
Proof.
  intros [|tok t Hc].
  - exists None. split; [constructor|exact Logic.I].
  - pose proof (x_class tok) as Hcl. rewrite Hc in Hcl. pose proof (x_range tok t Hc) as Hr.
    destruct (nth_error names t) as [x|] eqn:Ex; [|apply nth_error_None in Ex; rewrite map_length in Ex; lia].
    exists (Some x). split; [constructor; exact Hcl|exact Ex].
Qed.

Lemma einv_unique st c : einv st c -> kunique nts uf start (rev (map fst (ec_stack c))).
Proof.
  intros [(pi & ts & cons & Hi & Hg) Hp _ _] la n p n' p' Hr Hr'.
  destruct (xinv_top g cs tbl states entries act gp Hgen env pr S0 e Hpf _ _ _ _ _ _ Hi) as (s & ss & Hs & Hlt).
  pose proof (xi_path _ _ _ _ _ _ _ _ _ _ Hi) as Hpath. rewrite Hs in Hpath.
  assert (Hla : exists x, la_rel la x).
  { destruct Hr as (Hr & _). destruct (b_reduces_down items Hnames ti g Hlow tbl gf uf Hld N i HN Hpub _ _ _ _ Hr) as (_ & _ & x & _ & _ & Hx & _). eauto. }
  destruct Hla as (x & Hx).
  destruct (d_reduce_fun items Hnames ti g Hlow Hwf N i HN Hpub tbl gf uf Hlu Hld states entries Haut act Hact e Hentry _ _ _ _ Hpath Hg Hp _ _ _ _ Hx Hr) as (m & Hm & Ha).
  destruct (d_reduce_fun items Hnames ti g Hlow Hwf N i HN Hpub tbl gf uf Hlu Hld states entries Haut act Hact e Hentry _ _ _ _ Hpath Hg Hp _ _ _ _ Hx Hr') as (m' & Hm' & Ha').
  rewrite Ha in Ha'. injection Ha' as <- <-. split; auto.
  pose proof (lhs_rel_fun items ti g Hlow N i HN Hpub _ _ _ Hm Hm') as Heq. congruence.
Qed.

Hypothesis Hnr : no_return usem.

Lemma error_listed pi stk s ss : stack_path states e pi (s :: ss) -> Forall2 sym_rel (rev (map fst stk)) (rev pi) -> plain (rev (map fst stk)) ->
  exists listed, klisted_by nts uf start (rev (map (@fst ast_symbol (bval V)) stk)) listed /\ err_expected g act s = String.concat ", " (filter listed names).
Proof.
  intros Hpath Hg Hp. set (listed := by_name items (shiftable act s)).
  assert (Hnd : NoDup names) by (apply (ti_dup _ _ _ (lo_ti _ _ _ _ Hlow))).
  assert (Hterm : g_terminals g = names) by (apply (lo_terms _ _ _ _ Hlow)).
  assert (Hby : forall i0 s0, nth_error names i0 = Some s0 -> shiftable act s i0 = listed s0).
  { intros i0 x Hi0. unfold listed, by_name. rewrite (index_of_nth items _ _ Hnd Hi0). reflexivity. }
  exists listed. split.
  2: { rewrite err_expected_filter, Hterm. unfold join. f_equal. apply filter_enumerate. exact Hby. }
intro t. split.
   ++ intros Hl Hb. unfold listed, by_name in Hl. destruct (index_of items t) as [j|] eqn:Ej; [|discriminate].
      assert (Hj : nth_error names j = Some t).
      { unfold index_of in Ej. destruct (find _ (enumerate names)) as [[j' t']|] eqn:Ef; [|discriminate]. cbn in Ej. injection Ej as ->.
        apply find_some in Ef. destruct Ef as (Ef & Et). cbn in Et. apply String.eqb_eq in Et. subst t'.
        apply In_nth_error in Ef. destruct Ef as (k & Hk). rewrite nth_error_enumerate in Hk.
        destruct (nth_error names k) eqn:Enk; [|discriminate]. cbn in Hk. injection Hk as <- <-. exact Enk. }
      assert (Hrj : la_rel (Some t) (Some j)) by exact Hj.
      apply (d_blocked items Hnames ti g Hlow Hwf N i HN Hpub tbl gf uf Hlu Hld states entries Haut act Hact e Hentry _ _ _ _ Hpath Hg Hp _ _ Hrj) in Hb.
      unfold shiftable in Hl. rewrite Hb in Hl. discriminate.
   ++ intro Hnb. destruct (listed t) eqn:El; auto. exfalso. apply Hnb.
      destruct (in_dec string_dec t names) as [Hin|Hnin].
      ** apply In_nth_error in Hin. destruct Hin as (j & Hj). rewrite <- (Hby _ _ Hj) in El.
         assert (Hrj : la_rel (Some t) (Some j)) by exact Hj.
         apply (d_blocked items Hnames ti g Hlow Hwf N i HN Hpub tbl gf uf Hlu Hld states entries Haut act Hact e Hentry _ _ _ _ Hpath Hg Hp _ _ Hrj).
         unfold shiftable in El. destruct (act s (Some j)); [discriminate|reflexivity].
      ** split; [|split].
         --- intros (t' & Heq & lhs & p & k & la' & l & Hv & Hl & Hk). injection Heq as <-.
             destruct (b_valid_down items Hnames ti g Hlow tbl gf uf Hld N i HN Hpub _ _ _ _ _ Hv) as (_ & n & _ & _ & G2 & _).
             destruct (urhs_down items Hnames ti g Hlow N i HN Hpub _ _ _ _ G2 Hl) as (q & _ & Q2).
             destruct (Forall2_nth_l _ _ _ _ _ Q2 Hk) as (Y & _ & (j & Hj & _)). apply Hnin. eapply nth_error_In; exact Hj.
         --- intro Hx. destruct (b_reduces_down items Hnames ti g Hlow tbl gf uf Hld N i HN Hpub _ _ _ _ Hx) as (_ & _ & x & _ & _ & Hx' & _).
             destruct x as [x|]; [|contradiction]. apply Hnin. eapply nth_error_In; exact Hx'.
         --- intros n p Hx. destruct (b_reduces_down items Hnames ti g Hlow tbl gf uf Hld N i HN Hpub _ _ _ _ Hx) as (_ & _ & x & _ & _ & Hx' & _).
             destruct x as [x|]; [|contradiction]. apply Hnin. eapply nth_error_In; exact Hx'.

Qed.

Lemma elockstep st c : einv st c -> exists d, decides_by nts uf names class start (ec_stack c) (ec_token c) d /\
  match x_step gp env pr st, perform fields usem next clone d c with
  | inl st', inl c' => einv st' c'
  | inr o, inr o' => o = o'
  | _, _ => False
  end.
Proof.
  intros HK. pose proof HK as [(pi & ts & cons & Hi & Hg) Hp Hkt Hku].
  destruct c as [stk tk u]. cbn [ec_stack ec_token ec_user] in *. subst tk u.
  destruct (xinv_top g cs tbl states entries act gp Hgen env pr S0 e Hpf _ _ _ _ _ _ Hi) as (s & ss & Hs & Hlt).
  pose proof (xi_path _ _ _ _ _ _ _ _ _ _ Hi) as Hpath. rewrite Hs in Hpath.
  destruct (xstep_cases g Hwf cs tbl states entries act gp Hgen env x_tokens pr S0 e Hpf _ _ _ _ _ Hi)
    as [(er & Htk & Hst)|[(tok & Htk & Hc & Hst)|(la & s' & ss' & Hla & Hs' & _ & Hsp)]].
  - exists (DLexerError er). split; [rewrite Htk; constructor|]. rewrite Hst. cbn [perform ec_user x_clone user_xenv].
    destruct (clone er (xs_user st)) as [[er'|] u]; reflexivity.
  - exists DUnknown. split; [rewrite Htk; constructor; rewrite x_class, Hc; reflexivity|]. rewrite Hst. reflexivity.
  - rewrite Hs in Hs'. injection Hs' as <- <-.
    destruct (xlook_klook _ _ Hla) as (lan & Hkl & Hrel).
    unfold xstep_spec in Hsp. destruct (act s la) as [[n|n p|]|] eqn:Ea.
    + (* shift *)
      destruct Hsp as (tok & t & fs & Htk & -> & Hc & Hfs & Hst & Hi').
      destruct lan as [t'|]; [|contradiction].
      assert (Hcl : class tok = Some t') by (rewrite Htk in Hkl; inversion Hkl; auto).
      exists (DShift tok t'). split.
      * rewrite Htk. constructor; [exact Hcl|].
        apply (d_shift items Hnames ti g Hlow N i HN Hpub tbl gf uf Hlu Hld states entries Haut act Hact e Hentry _ _ _ _ Hpath Hg Hp _ _ Hrel). eauto.
      * rewrite Hst. cbn [perform ec_user ec_stack x_next user_xenv].
        destruct (next (xs_user st)) as [[tk|] u]; [|reflexivity].
        rewrite (x_fields _ _ _ Hfs). constructor; cbn [ec_stack ec_token ec_user xs_states xs_values xs_token xs_user map fst snd rev]; auto.
        -- exists (T t :: pi), (Leaf tok :: ts), (cons ++ [tok]). split; [exact Hi'|]. cbn.
           apply Forall2_app; [exact Hg|]. constructor; [|constructor]. exists t. split; [exact Hrel|reflexivity].
        -- apply Forall_app. split; [exact Hp|]. repeat constructor.
    + (* reduce *)
      destruct Hsp as (q & bargs & bs0 & kids & rest & vs0 & sts & k & pi0 & Hq & Hpi & Hbs & HL & Hst & Hi').
      destruct (d_reduce items Hnames ti g Hlow Hwf N i HN Hpub tbl gf uf Hlu Hld states entries Haut act Hact e Hentry _ _ _ _ Hpath Hg Hp _ _ _ _ Hrel Ea) as (nm & Hnm & Hred).
      destruct (production_up nts cs ti g Hlow Hnames _ _ _ _ Hnm Hq) as (up & Hup & Hlp).
      destruct (lprod_rhs nts cs ti g Hlow _ _ Hlp) as (_ & Hpact & Hsyms).
      assert (Hlen : List.length (rhs q) = List.length (ap_symbols up)).
      { unfold rhs. rewrite map_length. symmetry. eapply Forall2_length_; eauto. }
      apply map_eq_app in Hbs. destruct Hbs as (a & b & -> & Ha & Hb).
      exists (DReduce nm up (rev a) b). split.
      * rewrite <- (rev_involutive a) at 1. rewrite <- (rev_involutive a) in Hred. econstructor; eauto.
        rewrite <- Hlen, <- HL, rev_length, <- (map_length snd a), Ha, rev_length. reflexivity.
      * rewrite Hst. cbn [perform ec_user ec_token ec_stack x_sem user_xenv].
        assert (Hsem : xsem usem (p_action q) (bindings (p_symbols q) bargs) (xs_user st) =
                       usem (action_expr (ap_action up)) (ubindings (ap_symbols up) (map snd (rev a))) (xs_user st)).
        { rewrite Hpact, (bindings_ub nts cs _ _ Hsyms), map_rev, Ha, rev_involutive. reflexivity. }
        rewrite Hsem. pose proof (Hnr (action_expr (ap_action up)) (ubindings (ap_symbols up) (map snd (rev a))) (xs_user st)) as Hn1.
        destruct (usem (action_expr (ap_action up)) (ubindings (ap_symbols up) (map snd (rev a))) (xs_user st)) as [[v| |] u]; [|reflexivity|contradiction].
        assert (Hgs : Forall2 sym_rel (rev (map fst b)) (rev pi0)).
        { rewrite map_app, rev_app_distr, Hpi, rev_app_distr in Hg. apply Forall2_app_inv_l in Hg.
          destruct Hg as (x & y & F1 & F2 & Hxy).
          assert (Hx : rev pi0 = x /\ rev (rev (rhs q)) = y); [|destruct Hx as (-> & _); exact F1].
          apply (app_inj_length (rev pi0)); [exact Hxy|].
          pose proof (Forall2_length_ _ _ _ F2) as L2. pose proof (f_equal (@List.length _) Hxy) as L3.
          pose proof (f_equal (@List.length _) Ha) as L4. rewrite map_length, rev_length in L4.
          rewrite !app_length, !rev_length in L3. rewrite rev_length, map_length in L2.
          rewrite rev_length. lia. }
        constructor; cbn [ec_stack ec_token ec_user xs_states xs_values xs_token xs_user map fst snd rev]; auto.
        -- exists (NT n :: pi0), (Node n p kids :: rest), cons. split; [rewrite Hb; apply Hi'|]. cbn.
           apply Forall2_app; [exact Hgs|]. constructor; [|constructor]. exists n. split; [exact Hnm|reflexivity].
        -- apply Forall_app. split; [|repeat constructor]. rewrite map_app, rev_app_distr in Hp. apply Forall_app in Hp. tauto.
    + (* accept *)
      destruct Hsp as (q & m & v & tr & -> & Htk & Hq & Hrq & Hpi & Hbs & Hts & Hwt & Hst).
      destruct lan as [?|]; [contradiction|].
      assert (Hacc : kaccepts_by nts uf start (rev (map fst stk)) None).
      { apply (d_accept items Hnames ti g Hlow Hwf N i HN Hpub tbl gf uf Hlu Hld states entries Haut act Hact e Hentry _ _ _ _ Hpath Hg Hp None None Logic.I). exact Ea. }
      unfold get_production in Hq. rewrite (entry_nt nts cs ti g Hlow N i HN Hpub) in Hq. cbn in Hq. injection Hq as <-. cbn in Hrq. injection Hrq as <-.
      destruct stk as [|[sy bv] [|? ?]]; cbn in Hbs; try discriminate. injection Hbs as ->.
      rewrite Hpi in Hg. cbn in Hg. inversion Hg as [|x1 x2 x3 x4 Hx Hx']; subst x1 x2 x3 x4.
      cbn in Hp. inversion Hp as [|x1 x2 Hun _]; subst x1 x2.
      destruct (plain_eq items _ _ Hun Hx) as (nm & -> & Hnm).
      assert (Hst' : nm = start).
      { assert (Hsr : lhs_rel (Some nm) i) by exact Hnm.
        assert (Hsr' : lhs_rel (Some start) i) by (apply (slot_index nts Hnames); auto).
        pose proof (lhs_rel_fun items ti g Hlow N i HN Hpub _ _ _ Hsr Hsr'). congruence. }
      subst nm. exists (DAccept v). split; [rewrite Htk; constructor; exact Hacc|].
      cbn in Hst. rewrite Hst. reflexivity.
    + (* error *)
      destruct Hsp as (found & Hfd & Hst).
      destruct (error_listed _ _ _ _ Hpath Hg Hp) as (listed & Hl & Hee).
      assert (Hfound : found = match lan with Some t => t | None => "end-of-input"%string end).
      { destruct la as [t|], lan as [t'|]; cbn in Hfd, Hrel; try contradiction; auto. rewrite (lo_terms _ _ _ _ Hlow) in Hfd. congruence. }
      exists (DError found (err_expected g act s)). split.
      * rewrite Hfound, Hee. econstructor; [exact Hkl| |exact Hl].
        apply (d_blocked items Hnames ti g Hlow Hwf N i HN Hpub tbl gf uf Hlu Hld states entries Haut act Hact e Hentry _ _ _ _ Hpath Hg Hp _ _ Hrel). exact Ea.
      * rewrite Hst. reflexivity.
Qed.

Definition erel (x : xst + xoutcome E V St) (y : ec + xoutcome E V St) : Prop :=
  match x, y with inl st, inl c => einv st c | inr o, inr o' => o = o' | _, _ => False end.
Notation emoves := (emoves_by nts uf names class fields usem next clone start).

Lemma e_forward n : forall x y, erel x y -> exists y', emoves n y y' /\ erel (x_run gp env n pr x) y'.
Proof.
  induction n as [|n IH]; intros x y Hr; [exists y; split; [constructor|exact Hr]|].
  destruct x as [st|o], y as [c|o']; cbn in Hr; try contradiction.
  - destruct (elockstep _ _ Hr) as (d & Hd & Hm).
    destruct (IH (x_step gp env pr st) (perform fields usem next clone d c)) as (y' & H1 & H2); [exact Hm|].
    exists y'. split; [econstructor; eauto|exact H2].
  - subst o'. exists (inr o). split; [constructor|reflexivity].
Qed.
Lemma e_unique n : forall x y, erel x y -> forall y1 y2, emoves n y y1 -> emoves n y y2 -> y1 = y2.
Proof.
  induction n as [|n IH]; intros x y Hr y1 y2 H1 H2.
  - inversion H1; inversion H2; subst. congruence.
  - destruct x as [st|o], y as [c|o']; cbn in Hr; try contradiction.
    + inversion H1 as [| |n1 c1 d1 r1 Hd1 Hm1]; inversion H2 as [| |n2 c2 d2 r2 Hd2 Hm2]; subst.
      assert (d2 = d1) by (eapply decides_fun; [eapply einv_unique; eauto|eauto|eauto]). subst d2.
      destruct (elockstep _ _ Hr) as (d & Hd & Hm). assert (d1 = d) by (eapply decides_fun; [eapply einv_unique; eauto|eauto|eauto]). subst d1.
      eapply (IH (x_step gp env pr st)); eauto.
    + inversion H1; inversion H2; subst. reflexivity.
Qed.
Lemma erel_init u : erel (x_init env pr u) (einit next u).
Proof.
  unfold x_init, einit. cbn [x_next user_xenv]. destruct (next u) as [[tk|] u']; [|reflexivity]. apply einv_start.
Qed.

Lemma e_parse n u : exists y, emoves n (einit next u) y /\ (forall y', emoves n (einit next u) y' -> y' = y) /\ erel (x_parse gp env n pr u) y.
Proof.
  destruct (e_forward n _ _ (erel_init u)) as (y & H1 & H2). exists y. split; auto. split; auto.
  intros y' H. eapply e_unique; [apply (erel_init u)|exact H|exact H1].
Qed.
End ELockstep.
(** ** Every accepted grammar *)
Section ESafe.
Context {A : Type}.
Variable items : list (grammar_item A).
Notation nts := (declared_nts items).
Notation cs := (token_entries items).
Hypothesis Hnames : distinct_names items.
Hypothesis Hpatterns : plain_patterns items.
Variable ti : list (string * nat).
Variable g : grammar (lexpr A).
Hypothesis Hlow : lowered nts cs ti g.
Hypothesis Hwf : wf_grammar g.
Variable N : ast_non_terminal A.
Variable i : nat.
Hypothesis HN : In (N, i) (slots 0 nts).
Hypothesis Hpub : an_pub N = true.
Notation S0 := (S i).
Notation start := (an_name N).
Notation sym_rel := (sym_rel nts cs).
Notation plain ss := (Forall (fun s => unnamed s = s) ss).
Notation lhs_rel := (lhs_rel items i).
Notation la_rel := (la_rel items).
Variable tbl : first_table.
Variable states : list lr1_state.
Variable entries : list (nat * nat).
Variable act : nat -> option nat -> option aact.
Variable gp : generated (lexpr A).
Hypothesis Hgen : generated_ok g cs tbl states entries act gp.
Variable pr : parser_struct.
Variable e : nat.
Hypothesis Hpf : parser_for g (gp_sem_actions gp) entries pr S0 e.

Context {E V St : Type}.
Variable inj : rval -> V.
Variable usem : A -> list (string * bval V) -> St -> completion V * St.
Variable next : St -> option (option (rval + E)) * St.
Variable clone : E -> St -> option E * St.
Notation env := (user_xenv gp inj usem next clone).
(* the same token functions; these are all that is used of it *)
Notation usem0 := (fun (_ : A) (_ : list (string * bval V)) (_ : unit) => @None (V * unit)).
Notation next0 := (fun u : unit => (@None (rval + E), u)).
Notation env0 := (user_env gp inj usem0 next0).
Notation class := (token_class cs).
Notation fields := (fun tok => map inj (token_fields cs tok)).
Notation names := (map cv_from cs).
Notation Haut := (gn_aut _ _ _ _ _ _ _ Hgen).
Notation Hact := (gn_act _ _ _ _ _ _ _ Hgen).
Notation Hentry := (Hentry g entries gp pr S0 e Hpf).
Notation xst := (xpstate rval E V St).
Notation ec := (econf rval E V St).

Local Lemma x_tokens' : forall tok t, x_idx env tok = Some t -> t < n_terminals g /\ exists fs, x_val env tok = Some (t, fs).
Proof. exact (env_tokens_ok items Hpatterns gp ti g tbl states entries act Hlow Hgen inj usem0 next0). Qed.
Local Lemma x_class' tok : class tok = match x_idx env tok with Some i => nth_error names i | None => None end.
Proof. exact (env_class items gp g tbl states entries act Hgen inj usem0 next0 tok). Qed.
Hypothesis Hnr : no_return usem.

Lemma x_user_action n p q : get_production g n p = Some q -> is_private g n ->
  exists nm up, uproduction nts nm p = Some up /\ p_action q = EUser (action_expr (ap_action up)).
Proof.
  intros Hq Hpv. destruct (private_slot items ti g Hlow _ _ _ Hpv Hq) as (M & HM).
  assert (Hnm : lhs_rel (Some (an_name M)) n) by (apply (slot_index nts Hnames); auto).
  destruct (production_up nts cs ti g Hlow Hnames _ _ _ _ Hnm Hq) as (up & Hup & Hlp).
  destruct (lprod_rhs nts cs ti g Hlow _ _ Hlp) as (_ & Hpact & _). eauto.
Qed.

(** What an iteration does, as far as it holds for every accepted grammar. *)
Definition xstopped (st : xst) (c : list rval) (o : xoutcome E V St) : Prop :=
  match xo_result o with
  | POk v => xs_token st = None /\ xo_user o = xs_user st /\ sentence nts class start c
  | PLexerError er' => exists er, xs_token st = Some (inr er) /\ clone er (xs_user st) = (Some er', xo_user o)
  | PParserError found _ => xo_user o = xs_user st /\
      match xs_token st with None => found = "end-of-input"%string | Some (inl tok) => class tok = Some found | Some (inr _) => False end
  | PPanic UserPanic => next (xs_user st) = (None, xo_user o) \/
      (exists nm p up b, uproduction nts nm p = Some up /\ usem (action_expr (ap_action up)) b (xs_user st) = (Panicked, xo_user o)) \/
      (exists er, clone er (xs_user st) = (None, xo_user o))
  | PPanic NoTokenMatch => xo_user o = xs_user st /\ exists tok, xs_token st = Some (inl tok) /\ class tok = None
  | PPanic _ => False
  end.
Definition xinv' (st : xst) (c : list rval) : Prop := exists pi bs ts, xinv g states env e (xs_states st) (xs_values st) pi bs ts c.

Lemma xprogress st c : xinv' st c ->
  match x_step gp env pr st with
  | inl st' => exists c', xinv' st' c' /\
      ((exists tok, xs_token st = Some (inl tok) /\ c' = c ++ [tok] /\ next (xs_user st) = (Some (xs_token st'), xs_user st')) \/
       (c' = c /\ xs_token st' = xs_token st /\ exists a b k, usem a b (xs_user st) = (k, xs_user st')))
  | inr o => xstopped st c o
  end.
Proof.
  intros (pi & bs & ts & Hi).
  destruct (xinv_top g cs tbl states entries act gp Hgen env pr S0 e Hpf _ _ _ _ _ _ Hi) as (s & ss & Hs & Hlt).
  destruct (xstep_cases g Hwf cs tbl states entries act gp Hgen env x_tokens' pr S0 e Hpf _ _ _ _ _ Hi)
    as [(er & Htk & Hst)|[(tok & Htk & Hc & Hst)|(la & s' & ss' & Hla & Hs' & _ & Hsp)]].
  - rewrite Hst. cbn [x_clone user_xenv]. destruct (clone er (xs_user st)) as [[er'|] u] eqn:Ec; cbn.
    + exists er. auto.
    + right; right. exists er. exact Ec.
  - rewrite Hst. cbn. split; auto. exists tok. split; auto. rewrite x_class', Hc. reflexivity.
  - rewrite Hs in Hs'. injection Hs' as <- <-. unfold xstep_spec in Hsp. destruct (act s la) as [[n|n p|]|] eqn:Ea.
    + destruct Hsp as (tok & t & fs & Htk & -> & Hc & Hfs & Hst & Hi'). rewrite Hst. cbn [x_next user_xenv].
      destruct (next (xs_user st)) as [[tk|] u] eqn:En.
      * exists (c ++ [tok]). split; [eexists; eexists; eexists; exact Hi'|]. left. exists tok. auto.
      * cbn. left. exact En.
    + destruct Hsp as (q & bargs & bs0 & kids & rest & vs0 & sts & k & pi0 & Hq & Hpi & Hbs & HL & Hst & Hi').
      destruct (ac_inv _ _ _ Hact _ _ _ Ea) as (x & _ & it & _ & (_ & Hpv) & <- & <- & _).
      destruct (x_user_action _ _ _ Hq Hpv) as (nm & up & Hup & Hpa).
      rewrite Hst. cbn [x_sem user_xenv]. rewrite Hpa. cbn [xsem].
      pose proof (Hnr (action_expr (ap_action up)) (bindings (p_symbols q) bargs) (xs_user st)) as Hn1.
      destruct (usem (action_expr (ap_action up)) (bindings (p_symbols q) bargs) (xs_user st)) as [[v| |] u] eqn:Eu; [| |contradiction].
      * exists c. split; [eexists; eexists; eexists; exact (Hi' v)|]. right. split; auto. split; auto. cbn. eauto.
      * cbn. right; left. exists nm, (it_prod it), up. eauto.
    + destruct Hsp as (q & m & v & tr & -> & Htk & Hq & Hrq & Hpi & Hbs & Hts & Hwt & Hst).
      unfold get_production in Hq. rewrite (entry_nt nts cs ti g Hlow N i HN Hpub) in Hq. cbn in Hq. injection Hq as <-. cbn in Hrq. injection Hrq as <-.
      cbn in Hst. rewrite Hst. cbn. split; auto. split; auto.
      destruct (u_tree_up items Hnames gp ti g tbl states entries act Hlow Hgen inj usem0 next0 tr (NT i) (ASNonTerminal start) Hwt) as (t & Ht & Hlt').
      { apply (body_rel items Hnames); auto. }
      exists t. split; auto. rewrite <- (yield_ltree nts), Hlt', <- (xi_yield _ _ _ _ _ _ _ _ _ _ Hi), Hts. unfold yields. cbn. rewrite app_nil_r. reflexivity.
    + destruct Hsp as (found & Hfd & Hst). rewrite Hst. cbn. split; auto.
      destruct Hla as [|tok t Hc]; [exact Hfd|]. rewrite x_class', Hc. cbn in Hfd. rewrite (lo_terms _ _ _ _ Hlow) in Hfd. exact Hfd.
Qed.

Lemma xinv_start tk u : xinv' (XState [pr_init_state pr] [] tk u) [].
Proof. exists [], [], []. apply (xinv_init g states entries gp env pr S0 e Hpf). Qed.

(** Every state of the loop and every outcome. *)
Lemma x_reach (P : St -> option (rval + E) -> list rval -> Prop) :
  (forall u tk c tok tk' u', P u tk c -> tk = Some (inl tok) -> next u = (Some tk', u') -> P u' tk' (c ++ [tok])) ->
  (forall u tk c a b k u', P u tk c -> usem a b u = (k, u') -> P u' tk c) ->
  forall n st c, xinv' st c -> P (xs_user st) (xs_token st) c ->
  match x_run gp env n pr (inl st) with
  | inl st' => exists c', xinv' st' c' /\ P (xs_user st') (xs_token st') c'
  | inr o => exists st' c', xinv' st' c' /\ P (xs_user st') (xs_token st') c' /\ xstopped st' c' o
  end.
Proof.
  intros HP1 HP2 n. induction n as [|n IH]; intros st c Hi HP; [cbn; eauto|].
  cbn [x_run]. pose proof (xprogress _ _ Hi) as Hp. destruct (x_step gp env pr st) as [st1|o] eqn:Es.
  - destruct Hp as (c' & Hi' & [(tok & Ht & -> & Hn)|(-> & Ht & a & b & k & Hu)]).
    + apply (IH st1 (c ++ [tok])); eauto.
    + apply (IH st1 c); auto. rewrite Ht. eauto.
  - assert (Hx : x_run gp env n pr (inr o) = inr o) by (destruct n; reflexivity). rewrite Hx. eauto.
Qed.

(** The symbols and subtrees on the stack *)
Lemma x_sentential st c : xinv' st c -> exists syms forest rest, uforest_of nts class forest syms /\ flat_map uyield forest = c /\
  uderives nts [ASNonTerminal start] (syms ++ rest).
Proof.
  intros (pi & bs & ts & Hi). pose proof (xi_path _ _ _ _ _ _ _ _ _ _ Hi) as Hpath.
  destruct (viable_prefix g Hwf tbl states entries Haut S0 e Hentry _ _ Hpath) as (r & Hr).
  assert (Hpriv : forall n, In (NT n) (rev pi) -> is_private g n).
  { intros m Hm. apply in_rev in Hm. eapply path_private; eauto. }
  destruct (sentential_up items Hnames ti g Hlow N i (rev pi) r HN Hpub Hr Hpriv) as (ss & Hss & Hun & rest & Hd).
  destruct (u_forest_up items Hnames gp ti g tbl states entries act Hlow Hgen inj usem0 next0 _ _ _ (xi_wf _ _ _ _ _ _ _ _ _ _ Hi) Hss) as (uf & Huf & Hlt).
  exists ss, uf, rest. split; auto. split; auto. rewrite <- (uyields_lt items uf), Hlt. apply (xi_yield _ _ _ _ _ _ _ _ _ _ Hi).
Qed.
End ESafe.

(** ** Statements about modules *)
Section Module.
Context {A : Type}.
Variable items : list (grammar_item A).
Notation nts := (declared_nts items).
Notation cs := (token_entries items).
Variables (gp : generated (lexpr A)) (pr : parser_struct).
Hypothesis Hp : parser_of items gp pr.
Context {E V St : Type}.
Variable inj : rval -> V.
Variable usem : A -> list (string * bval V) -> St -> completion V * St.
Variable next : St -> option (option (rval + E)) * St.
Variable clone : E -> St -> option E * St.
Hypothesis Hnr : no_return usem.
Notation env := (user_xenv gp inj usem next clone).
Notation fields := (fun tok => map inj (token_fields cs tok)).
Notation emoves_by uf := (emoves_by nts uf (map cv_from cs) (token_class cs) fields usem next clone (pr_name pr)).
Notation emoves := (emoves_by (uin_first nts)).

Lemma vals_payload variants Xs (bs : list (bval V)) vs : vals_for variants Xs bs vs -> map payload vs = bs.
Proof. induction 1 as [|X Xs b bs v vs Hv _ IH]; [reflexivity|]. cbn. rewrite IH. f_equal. destruct Hv; reflexivity. Qed.
Theorem effects_knuth_by ti g tbl states entries act
  (H1 : lowered nts cs ti g) (H2 : wf_grammar g)
  (H3 : generated_ok g cs tbl states entries act gp) gf uf
  (Hlu : lookahead_up items g tbl gf uf) (Hld : lookahead_down items g tbl gf uf) n u :
  exists y, emoves_by uf n (einit next u) y /\ (forall y', emoves_by uf n (einit next u) y' -> y' = y) /\
    match x_parse gp env n pr u, y with
    | inl st, inl c => xs_token st = ec_token c /\ xs_user st = ec_user c /\ map payload (xs_values st) = map snd (ec_stack c) /\
        List.length (xs_states st) = S (List.length (ec_stack c))
    | inr o, inr o' => o = o'
    | _, _ => False
    end.
Proof.
  destruct Hp as (Hnames & Hpat & Hexp & Hpr).
  destruct (parser_entry items gp ti g tbl states entries act H1 H3 pr Hpr) as (N & i & e & HN & Hpub & Hnm & _ & Hpf).
  rewrite Hnm. destruct (e_parse items Hnames Hpat ti g H1 H2 N i HN Hpub tbl gf uf Hlu Hld states entries act gp H3 pr e Hpf inj usem next clone Hnr n u) as (y & Y1 & Y2 & Y3).
  exists y. split; auto. split; auto. unfold erel in Y3. destruct (x_parse gp env n pr u) as [st|o], y as [c|o']; auto.
  destruct Y3 as [(pi & ts & cons & Y6 & Y7) _ Y4 Y5]. split; [auto|]. split; [auto|]. split.
  - apply (vals_payload _ _ _ _ (xi_vals _ _ _ _ _ _ _ _ _ _ Y6)).
  - rewrite (stack_path_length _ _ _ _ (xi_path _ _ _ _ _ _ _ _ _ _ Y6)). destruct (vals_for_length _ _ _ _ (xi_vals _ _ _ _ _ _ _ _ _ _ Y6)) as (L & _).
    rewrite map_length in L. congruence.
Qed.

Theorem effects_knuth n u : tails_plain nts ->
  exists y, emoves n (einit next u) y /\ (forall y', emoves n (einit next u) y' -> y' = y) /\
    match x_parse gp env n pr u, y with
    | inl st, inl c => xs_token st = ec_token c /\ xs_user st = ec_user c /\ map payload (xs_values st) = map snd (ec_stack c) /\
        List.length (xs_states st) = S (List.length (ec_stack c))
    | inr o, inr o' => o = o'
    | _, _ => False
    end.
Proof.
  intro Htp. destruct Hp as (Hnames & Hpat & Hexp & Hpr).
  destruct (expands_data items gp Hexp) as (ho & fl & Hho & ti & g & tbl & states & entries & act & H1 & H2 & H3 & H4 & H5 & H6 & H7).
  pose proof (tails_plain_complete items Hnames ti g H1 ho Hho fl tbl H4 Htp) as Hcomp.
  pose proof (first_table_sound g ho (hok_terms ho Hho) fl tbl H4) as Hsound.
  eapply effects_knuth_by; eauto; [exact (true_up items Hnames ti g H1 tbl Hsound)|exact (true_down items Hnames ti g H1 tbl Hcomp)].
Qed.

Theorem effects_reach (P : St -> option (rval + E) -> list rval -> Prop) n u :
  (forall tk u', next u = (Some tk, u') -> P u' tk []) ->
  (forall u tk c tok tk' u', P u tk c -> tk = Some (inl tok) -> next u = (Some tk', u') -> P u' tk' (c ++ [tok])) ->
  (forall u tk c a b k u', P u tk c -> usem a b u = (k, u') -> P u' tk c) ->
  match x_parse gp env n pr u with
  | inl st => exists c, P (xs_user st) (xs_token st) c /\
      exists syms forest rest, uforest_of nts (token_class cs) forest syms /\ flat_map uyield forest = c /\ uderives nts [ASNonTerminal (pr_name pr)] (syms ++ rest)
  | inr o => xo_result o = PPanic UserPanic /\ next u = (None, xo_user o) \/
      exists c tk u', P u' tk c /\
      (exists syms forest rest, uforest_of nts (token_class cs) forest syms /\ flat_map uyield forest = c /\ uderives nts [ASNonTerminal (pr_name pr)] (syms ++ rest)) /\
      match xo_result o with
      | POk v => tk = None /\ xo_user o = u' /\ sentence nts (token_class cs) (pr_name pr) c
      | PLexerError er' => exists er, tk = Some (inr er) /\ clone er u' = (Some er', xo_user o)
      | PParserError found _ => xo_user o = u' /\
          match tk with None => found = "end-of-input"%string | Some (inl tok) => token_class cs tok = Some found | Some (inr _) => False end
      | PPanic UserPanic => next u' = (None, xo_user o) \/
          (exists nm p up b, uproduction nts nm p = Some up /\ usem (action_expr (ap_action up)) b u' = (Panicked, xo_user o)) \/
          (exists er, clone er u' = (None, xo_user o))
      | PPanic NoTokenMatch => xo_user o = u' /\ exists tok, tk = Some (inl tok) /\ token_class cs tok = None
      | PPanic _ => False
      end
  end.
Proof.
  intros HP0 HP1 HP2. destruct Hp as (Hnames & Hpat & Hexp & Hpr).
  destruct (expands_data items gp Hexp) as (ho & fl & Hho & ti & g & tbl & states & entries & act & H1 & H2 & H3 & H4 & H5 & H6 & H7).
  destruct (parser_entry items gp ti g tbl states entries act H1 H3 pr Hpr) as (N & i & e & HN & Hpub & Hnm & _ & Hpf).
  unfold x_parse, x_init. cbn [x_next user_xenv]. destruct (next u) as [[tk|] u'] eqn:En.
  - pose proof (x_reach items Hnames Hpat ti g H1 H2 N i HN Hpub tbl states entries act gp H3 pr e Hpf inj usem next clone Hnr P HP1 HP2 n _ []
      (xinv_start g i states entries gp pr e Hpf inj usem next clone tk u') (HP0 _ _ eq_refl)) as Hx.
    rewrite Hnm. destruct (x_run gp env n pr (inl (XState [pr_init_state pr] [] tk u'))) as [st|o].
    + destruct Hx as (c & Hi & HP). exists c. split; auto. eapply x_sentential; eauto.
    + destruct Hx as (st & c & Hi & HP & Hs). right. exists c, (xs_token st), (xs_user st). split; auto. split; [eapply x_sentential; eauto|].
      exact Hs.
  - assert (Hx : x_run gp env n pr (inr (XOutcome (PPanic UserPanic) u')) = inr (XOutcome (PPanic UserPanic) u')) by (destruct n; reflexivity).
    rewrite Hx. left. auto.
Qed.
End Module.
