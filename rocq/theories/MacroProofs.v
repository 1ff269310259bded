(** * MacroProofs: expansion as a whole *)
From Verif Require Export Lr1Proofs RunComplete LowerTrees.

Section MacroProofs.
Context {A : Type}.
Notation gitem := (grammar_item A).

Definition acc0 : items_acc (A := A) := {| ia_nts := []; ia_token := None; ia_state := None |}.

Lemma collect_spec (items : list gitem) : forall acc,
  let toks := match ia_token acc with Some t => [t] | None => [] end ++ declared_tokens items in
  let sts := match ia_state acc with Some t => [t] | None => [] end ++ declared_states items in
  match foldM collect_item items acc with
  | Ok acc' => ia_nts acc' = ia_nts acc ++ declared_nts items /\
      toks = match ia_token acc' with Some t => [t] | None => [] end /\
      sts = match ia_state acc' with Some t => [t] | None => [] end
  | Panic PDupToken => 2 <= List.length toks
  | Panic PDupState => 2 <= List.length sts
  | _ => False
  end.
Proof.
  induction items as [|gi items IH]; intros [nts tk st].
  - simpl. rewrite !app_nil_r. destruct tk, st; auto.
  - destruct gi as [t|te|n].
    + cbn -[List.length]. destruct st as [s|].
      * cbn -[List.length]. change (declared_states _) with (t :: declared_states items). simpl. lia.
      * cbn -[List.length foldM collect_item]. cbn [foldM]. cbn [collect_item bind ia_state].
        specialize (IH {| ia_nts := nts; ia_token := tk; ia_state := Some t |}). cbn in IH |- *. exact IH.
    + destruct tk as [t|].
      * simpl. lia.
      * cbn [foldM]. cbn [collect_item bind ia_token].
        specialize (IH {| ia_nts := nts; ia_token := Some te; ia_state := st |}). cbn in IH |- *. exact IH.
    + cbn [foldM]. cbn [collect_item bind].
      specialize (IH {| ia_nts := nts ++ [n]; ia_token := tk; ia_state := st |}). cbn in IH |- *.
      destruct (foldM collect_item items _) as [acc'|[]|]; auto.
      destruct IH as (H & H1 & H2). rewrite <- app_assoc in H. auto.
Qed.

Variable ho : hash_order.
Hypothesis Hho : hash_order_ok ho.

(** Expansion unfolded. *)
Lemma macro_unfold fuel (items : list gitem) :
  match macro ho fuel items with
  | Ok gp => exists te g, declared_tokens items = [te] /\ List.length (declared_states items) <= 1 /\
      lower (declared_nts items) (te_conversions te) = Ok g /\ generate_lr1_parser ho fuel g te = Ok gp
  | Panic p => (2 <= List.length (declared_tokens items) /\ p = PDupToken) \/
      (2 <= List.length (declared_states items) /\ p = PDupState) \/
      (declared_tokens items = [] /\ List.length (declared_states items) <= 1 /\ p = PNoToken) \/
      exists te, declared_tokens items = [te] /\ List.length (declared_states items) <= 1 /\
        (lower (declared_nts items) (te_conversions te) = Panic p \/
         exists g, lower (declared_nts items) (te_conversions te) = Ok g /\
           generate_lr1_parser ho fuel g te = Panic p)
  | OutOfFuel => exists te g, declared_tokens items = [te] /\ List.length (declared_states items) <= 1 /\
      lower (declared_nts items) (te_conversions te) = Ok g /\ generate_lr1_parser ho fuel g te = OutOfFuel
  end.
Proof.
  unfold macro. pose proof (collect_spec items acc0) as H. unfold acc0 in H. cbn [ia_token ia_state app] in H.
  cbv zeta in H. fold acc0 in H. unfold acc0 in H.
  destruct (foldM collect_item items _) as [acc|p|]; cbn [bind].
  - destruct H as (H1 & H2 & H3). cbn [ia_nts app] in H1.
    assert (Hs : List.length (declared_states items) <= 1) by (rewrite H3; destruct (ia_state acc); simpl; lia).
    destruct (ia_token acc) as [te|].
    + rewrite H1. destruct (lower (declared_nts items) (te_conversions te)) as [g|p|] eqn:El; cbn [bind].
      * destruct (generate_lr1_parser ho fuel g te) as [gp|p|] eqn:Eg.
        -- exists te, g; auto.
        -- right; right; right. exists te. repeat split; auto. right. exists g; auto.
        -- exists te, g; auto.
      * right; right; right. exists te. auto.
      * exfalso. eapply lower_no_fuel; eauto.
    + right; right; left; auto.
  - destruct p; try contradiction; [right; left; auto|left; auto].
  - contradiction.
Qed.

(** The token declaration of a grammar that has one. *)
Definition the_tokens (items : list gitem) : token_enum :=
  match declared_tokens items with te :: _ => te | [] => {| te_type_name := ""; te_lifetimes := []; te_conversions := [] |} end.
Lemma the_tokens_one (items : list gitem) te : declared_tokens items = [te] -> the_tokens items = te.
Proof. intro H. unfold the_tokens. rewrite H. reflexivity. Qed.
Lemma token_entries_one (items : list gitem) te : declared_tokens items = [te] -> token_entries items = te_conversions te.
Proof. intro H. unfold token_entries. rewrite H. simpl. apply app_nil_r. Qed.

(** What a successful expansion produced. *)
Lemma macro_ok fuel (items : list gitem) gp : macro ho fuel items = Ok gp ->
  exists ti g tbl states entries act,
    lowered (declared_nts items) (token_entries items) ti g /\ wf_grammar g /\
    generated_ok g (token_entries items) tbl states entries act gp /\
    generate_first_table ho fuel g = Ok tbl /\ no_detected_conflict g states /\
    generate_lr1_automaton ho fuel g tbl = Ok (states, entries) /\
    lower (declared_nts items) (token_entries items) = Ok g /\
    generate_lr1_parser ho fuel g (the_tokens items) = Ok gp.
Proof.
  intro H. pose proof (macro_unfold fuel items) as H0. rewrite H in H0.
  destruct H0 as (te & g & Ht & _ & Hl & Hg). rewrite (token_entries_one _ _ Ht), (the_tokens_one _ _ Ht).
  pose proof (lower_spec (declared_nts items) (te_conversions te)) as Hs. rewrite Hl in Hs. destruct Hs as (ti & Hs).
  pose proof (lowered_wf _ _ _ _ Hs) as Hwf.
  destruct (generate_lr1_parser_ok ho Hho fuel g _ gp Hwf Hg) as (tbl & states & entries & act & H1 & H2 & H3 & H4).
  exists ti, g, tbl, states, entries, act. repeat (split; [assumption|]). assumption.
Qed.
End MacroProofs.

Section UserEnv.
Context {A E V W I : Type}.
Variable gp : generated (lexpr A).
Variable inj : rval -> V.
Variable usem : A -> list (string * bval V) -> W -> option (V * W).
Variable next : I -> option (rval + E) * I.
Notation cs := (gp_conversions gp).
Hypothesis Hplain : forallb (fun c => no_single_tuple (cv_to c)) cs = true.
Notation env := (user_env gp inj usem next).

Lemma tok_idx_range tok i : token_terminal_idx cs tok = Some i -> i < List.length cs.
Proof.
  intro H. rewrite token_terminal_idx_spec in H. pose proof (first_match_idx_spec cs tok 0) as Hf.
  destruct (first_match_idx 0 cs tok) as [[j fs]|]; [|discriminate].
  inversion H; subst j. destruct Hf as (c & _ & Hn & _). rewrite Nat.sub_0_r in Hn. apply nth_error_Some. congruence.
Qed.

Lemma user_tokens_ok (g : grammar (lexpr A)) : n_terminals g = List.length cs -> tokens_ok g env.
Proof.
  intros Hn tok t H. cbn in H. split; [rewrite Hn; eapply tok_idx_range; eauto|].
  cbn. rewrite token_value_spec by auto. rewrite token_terminal_idx_spec in H.
  destruct (first_match_idx 0 cs tok) as [[j fs]|]; [|discriminate]. inversion H; subst. cbn. eauto.
Qed.

Lemma user_class tok : token_class cs tok =
  match token_terminal_idx cs tok with Some i => nth_error (map cv_from cs) i | None => None end.
Proof.
  rewrite token_terminal_idx_spec. unfold token_class. pose proof (first_match_idx_spec cs tok 0) as Hf.
  destruct (first_match_idx 0 cs tok) as [[j fs]|]; cbn.
  - destruct Hf as (c & _ & Hn & ->). rewrite Nat.sub_0_r in Hn. rewrite nth_error_map, Hn. reflexivity.
  - rewrite Hf. reflexivity.
Qed.

Lemma user_fields tok : tok_fields env tok = map inj (token_fields cs tok).
Proof.
  unfold tok_fields, token_fields. cbn. rewrite token_value_spec by auto.
  pose proof (first_match_idx_spec cs tok 0) as Hf.
  destruct (first_match_idx 0 cs tok) as [[j fs]|]; cbn.
  - destruct Hf as (c & _ & _ & ->). reflexivity.
  - rewrite Hf. reflexivity.
Qed.
End UserEnv.
