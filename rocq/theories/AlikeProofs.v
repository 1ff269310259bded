(** * AlikeProofs: what expansion and parsing make of a renamed grammar (C46) *)
From Verif Require Export LowerAlike PropSpec.

(** ** From lowering and generation to the macro *)
Section Core.
Context {A : Type}.
(** The macro after its declarations have been collected. *)
Definition core (ho : hash_order) (fuel : nat) (nts : list (ast_non_terminal A)) (te : token_enum) : res (generated (lexpr A)) :=
  let* g := lower nts (te_conversions te) in generate_lr1_parser ho fuel g te.
Lemma macro_core ho fuel (items : list (grammar_item A)) te : declared_tokens items = [te] -> List.length (declared_states items) <= 1 ->
  macro ho fuel items = core ho fuel (declared_nts items) te.
Proof.
  intros Ht Hst. pose proof (macro_unfold ho fuel items) as H. unfold core. destruct (macro ho fuel items) as [gp|p|].
  - destruct H as (te' & g & Ht' & _ & Hl & Hg). rewrite Ht in Ht'. injection Ht' as <-. rewrite Hl. simpl. auto.
  - destruct H as [(H & _)|[(H & _)|[(H & _)|(te' & Ht' & _ & [Hl|(g & Hl & Hg)])]]].
    + rewrite Ht in H. simpl in H. lia.
    + lia.
    + congruence.
    + rewrite Ht in Ht'. injection Ht' as <-. rewrite Hl. auto.
    + rewrite Ht in Ht'. injection Ht' as <-. rewrite Hl. simpl. auto.
  - destruct H as (te' & g & Ht' & _ & Hl & Hg). rewrite Ht in Ht'. injection Ht' as <-. rewrite Hl. simpl. auto.
Qed.
Lemma macro_collected ho fuel (items : list (grammar_item A)) : macro ho fuel items <> Panic PDupToken -> macro ho fuel items <> Panic PDupState ->
  macro ho fuel items <> Panic PNoToken -> exists te, declared_tokens items = [te] /\ List.length (declared_states items) <= 1.
Proof.
  intros H1 H2 H3. pose proof (macro_unfold ho fuel items) as H. destruct (macro ho fuel items) as [gp|p|].
  - destruct H as (te & g & Ht & Hs & _). eauto.
  - destruct H as [(_ & ->)|[(_ & ->)|[(_ & _ & ->)|(te & Ht & Hs & _)]]]; try congruence. eauto.
  - destruct H as (te & g & Ht & Hs & _). eauto.
Qed.
Lemma macro_not_dup_no ho fuel (items : list (grammar_item A)) : List.length (declared_tokens items) <> 1 \/ 2 <= List.length (declared_states items) ->
  exists p, macro ho fuel items = Panic p /\ (p = PDupToken \/ p = PDupState \/ (p = PNoToken /\ declared_tokens items = [] /\ List.length (declared_states items) <= 1)).
Proof.
  intro H. pose proof (macro_unfold ho fuel items) as Hm. destruct (macro ho fuel items) as [gp|p|].
  - exfalso. destruct Hm as (te & g & Ht & Hs & _). rewrite Ht in H. simpl in H. lia.
  - exists p. split; auto. destruct Hm as [(_ & ->)|[(_ & ->)|[(H1 & H2 & ->)|(te & Ht & Hs & _)]]]; auto.
    exfalso. rewrite Ht in H. simpl in H. lia.
  - exfalso. destruct Hm as (te & g & Ht & Hs & _). rewrite Ht in H. simpl in H. lia.
Qed.
End Core.

Section MacroAlike.
Context {A B : Type}.
Variable PP : panic -> panic -> Prop.
Variable MR : generated (lexpr A) -> generated (lexpr B) -> Prop.
Variables (items : list (grammar_item A)) (items' : list (grammar_item B)).
Hypothesis Hnt : List.length (declared_tokens items) = List.length (declared_tokens items').
Hypothesis Hns : List.length (declared_states items) = List.length (declared_states items').
Hypothesis Hcore : forall te te', declared_tokens items = [te] -> declared_tokens items' = [te'] -> forall ho fuel, hash_order_ok ho ->
  alike PP MR (core ho fuel (declared_nts items) te) (core ho fuel (declared_nts items') te').

Theorem macro_alike ho fuel : hash_order_ok ho ->
  alike PP MR (macro ho fuel items) (macro ho fuel items') \/
  (exists p q, macro ho fuel items = Panic p /\ macro ho fuel items' = Panic q /\
     (p = PDupToken \/ p = PDupState \/ p = PNoToken) /\ (q = PDupToken \/ q = PDupState \/ q = PNoToken) /\ (p = PNoToken <-> q = PNoToken)).
Proof.
  intro Hho. destruct (Nat.eq_dec (List.length (declared_tokens items)) 1) as [E1|E1]; [destruct (le_lt_dec (List.length (declared_states items)) 1) as [E2|E2]|].
  - left. destruct (declared_tokens items) as [|te [|]] eqn:Et; try discriminate. rewrite E1 in Hnt.
    destruct (declared_tokens items') as [|te' [|]] eqn:Et'; try discriminate.
    rewrite (macro_core ho fuel items te), (macro_core ho fuel items' te'); auto. lia.
  - right. destruct (macro_not_dup_no ho fuel items) as (p & Hp & Hor); [right; lia|].
    destruct (macro_not_dup_no ho fuel items') as (q & Hq & Hor'); [right; lia|]. exists p, q. split; auto. split; auto.
    destruct Hor as [->|[->|(-> & H & _)]]; [| |rewrite H in E1; discriminate E1];
    destruct Hor' as [->|[->|(-> & H' & _)]]; try (exfalso; rewrite H' in Hnt; simpl in Hnt; lia);
    try (split; [tauto|split; [tauto|split; discriminate]]).
  - right. destruct (macro_not_dup_no ho fuel items) as (p & Hp & Hor); [left; auto|].
    destruct (macro_not_dup_no ho fuel items') as (q & Hq & Hor'); [left; lia|]. exists p, q. split; auto. split; auto.
    split; [tauto|]. split; [tauto|].
    pose proof (macro_unfold ho fuel items) as Hm. pose proof (macro_unfold ho fuel items') as Hm'. rewrite Hp in Hm. rewrite Hq in Hm'.
    split; intro; subst.
    + destruct Hor as [?|[?|(_ & H & Hs)]]; try discriminate. rewrite H in Hnt. simpl in Hnt.
      destruct Hm' as [(Q & ->)|[(Q & ->)|[(_ & _ & Q)|(te & Ht & _)]]]; auto; try lia. rewrite Ht in Hnt. discriminate.
    + destruct Hor' as [?|[?|(_ & H & Hs)]]; try discriminate. rewrite H in Hnt. simpl in Hnt.
      destruct Hm as [(Q & ->)|[(Q & ->)|[(_ & _ & Q)|(te & Ht & _)]]]; auto; try lia. rewrite Ht in Hnt. discriminate.
Qed.

Corollary expands_alike gp : expands items gp -> exists gp', expands items' gp' /\ MR gp gp'.
Proof.
  intros (ho & fuel & Hho & H). destruct (macro_alike ho fuel Hho) as [Ha|(p & q & Hp & _)]; [|congruence].
  rewrite H in Ha. simpl in Ha. destruct (macro ho fuel items') as [gp'|p|] eqn:E; try contradiction. exists gp'. split; auto. exists ho, fuel. auto.
Qed.
Corollary expands_alike_back gp' : expands items' gp' -> exists gp, expands items gp /\ MR gp gp'.
Proof.
  intros (ho & fuel & Hho & H). destruct (macro_alike ho fuel Hho) as [Ha|(p & q & _ & Hq & _)]; [|congruence].
  rewrite H in Ha. destruct (macro ho fuel items) as [gp|p|] eqn:E; simpl in Ha; try contradiction. exists gp. split; auto. exists ho, fuel. auto.
Qed.
Corollary panics_alike p : expansion_panics items p -> p <> PDupToken -> p <> PDupState -> p <> PNoToken ->
  exists q, expansion_panics items' q /\ PP p q.
Proof.
  intros (ho & fuel & Hho & H) N1 N2 N3. destruct (macro_alike ho fuel Hho) as [Ha|(p' & q & Hp & _ & Hor & _)].
  - rewrite H in Ha. simpl in Ha. destruct (macro ho fuel items') as [gp'|q|] eqn:E; try contradiction. exists q. split; auto. exists ho, fuel. auto.
  - exfalso. rewrite H in Hp. injection Hp as <-. tauto.
Qed.
End MacroAlike.

(** ** Renamed grammars *)
Section Renamed.
Context {A B : Type}.
Variables (rho tau : string -> string).
Hypothesis rho_inj : injective rho.
Hypothesis tau_inj : injective tau.
Hypothesis rho_raw : keeps_raw rho.
Variable RA : A -> B -> Prop.
Variable RB : option name -> option name -> Prop.
Variable RT : ty -> ty -> Prop.
Hypothesis RB_refl : forall b, RB b b.
Variable FR : sem_fn (lexpr A) -> sem_fn (lexpr B) -> Prop.
Hypothesis HF : forall g h, lg_alike rho tau RA RB RT g h -> forall nt p q f f', lprod_alike RA RB p q ->
  fn_for (variant_names g) nt p f -> fn_for (variant_names h) nt q f' -> FR f f'.

Theorem core_alike nts nts' te te' : Forall2 (declaration_alike rho tau RA RB RT) nts nts' ->
  is_raw (te_type_name te') = is_raw (te_type_name te) /\ Forall2 (fun c c' => cv_from c' = tau (cv_from c)) (te_conversions te) (te_conversions te') -> forall ho fuel, hash_order_ok ho ->
  alike (fun p q => q = rename_panic rho tau p)
    (fun gp gp' => exists g h, lower nts (te_conversions te) = Ok g /\ lower nts' (te_conversions te') = Ok h /\ lg_alike rho tau RA RB RT g h /\ module_alike FR g h (te_conversions te) (te_conversions te') gp gp')
    (core ho fuel nts te) (core ho fuel nts' te').
Proof.
  intros Hn (Hte & Hc) ho fuel Hho. unfold core. eapply alike_bind; [apply (lower_alike rho tau rho_inj tau_inj RA RB RT RB_refl _ _ _ _ Hn Hc)|].
  intros g h Eg Eh Hgh.
  assert (Hwf : wf_grammar g). { pose proof (lower_spec nts (te_conversions te)) as Hs. rewrite Eg in Hs. destruct Hs as (ti & Hs). eapply lowered_wf; eauto. }
  assert (Hnts : Forall2 (nt_alike (lprod_alike RA RB)) (g_nts g) (g_nts h)).
  { destruct Hgh as [H _]. apply (Forall2_weaken _ _ _ _) with (2 := H). intros N M [H1 _]. exact H1. }
  assert (Hterms : List.length (g_terminals g) = List.length (g_terminals h)) by (destruct Hgh as [_ ->]; rewrite map_length; auto).
  assert (Hraw : forall nt N M, get_non_terminal g nt = Some N -> get_non_terminal h nt = Some M -> nt_public N = true ->
    is_raw (nt_name M) = is_raw (nt_name N)).
  { intros nt N M HN HM Hpub. destruct Hgh as [H _]. destruct (Forall2_nth_error _ _ _ H _ _ HN) as (M' & HM' & (_ & _ & Hnm)).
    unfold get_non_terminal in HM. rewrite HM in HM'. injection HM' as <-. rewrite (Hnm Hpub). apply rho_raw. }
  pose proof (generate_alike (lprod_alike RA RB) FR (lprod_alike_rhs RA RB) g h Hnts Hterms (wf_nts_in_range g Hwf) (HF g h Hgh) Hraw ho Hho Hwf fuel te te' Hte) as Hg.
  pose proof (generate_panics ho Hho fuel g te Hwf) as Hp.
  destruct (generate_lr1_parser ho fuel g te) as [gp|p|], (generate_lr1_parser ho fuel h te') as [gp'|q|]; simpl in *; try contradiction; auto.
  - exists g, h. auto.
  - subst q. destruct (Hp p eq_refl) as [[-> _]|[[-> _]|Hcf]]; auto. destruct p; simpl in *; auto; contradiction.
Qed.
Theorem renamed_alike (items : list (grammar_item A)) (items' : list (grammar_item B)) : items_alike rho tau RA RB RT items items' ->
  forall te te', declared_tokens items = [te] -> declared_tokens items' = [te'] -> forall ho fuel, hash_order_ok ho ->
  alike (fun p q => q = rename_panic rho tau p)
    (fun gp gp' => exists g h, lower (declared_nts items) (te_conversions te) = Ok g /\ lower (declared_nts items') (te_conversions te') = Ok h /\
       lg_alike rho tau RA RB RT g h /\ module_alike FR g h (te_conversions te) (te_conversions te') gp gp')
    (core ho fuel (declared_nts items) te) (core ho fuel (declared_nts items') te').
Proof.
  intros (Hn & Ht & _) te te' Et Et' ho fuel Hho. rewrite Et, Et' in Ht. inversion Ht; subst. apply core_alike; auto.
Qed.
End Renamed.
