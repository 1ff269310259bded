(** * EmitProofs: an accepted grammar with usable names is emitted as a module whose evaluation is defined *)
From Coq Require Import NArith Ascii.
From Verif Require Import NamesProofs StageProofs PropertiesHygiene.
From Verif Require Export EmitLoop.
Local Open Scope string_scope. Local Open Scope list_scope.

Lemma is_constant_iff {A} te (g : grammar (lexpr A)) gp : List.length (fn_names g) = List.length (gp_sem_actions gp) -> forall x,
  is_constant (emit te g gp) x = true <-> In x template_statics \/ In x (map pr_name (gp_parsers gp)) \/ x = "None".
Proof.
  intros Hlen x. unfold is_constant.
  assert (Hex : existsb (fun d : vdef A => match d with DFn _ => false | _ => true end) (declared_as x (vdefs (emit te g gp))) = true <->
                In x template_statics \/ In x (map pr_name (gp_parsers gp))).
  { rewrite existsb_exists. setoid_rewrite declared_In. rewrite emit_vdefs. split.
    - intros (d & Hin & Hd). rewrite !in_app_iff in Hin. destruct Hin as [Hin|[Hin|[Hin|Hin]]].
      + cbn in Hin. destruct Hin as [Hin|[Hin|[Hin|[Hin|[]]]]]; injection Hin as <- <-; try discriminate; left; cbn; tauto.
      + unfold action_defs in Hin. apply in_map_iff in Hin. destruct Hin as (y & E & _). injection E as _ <-. discriminate.
      + cbn in Hin. destruct Hin as [Hin|[Hin|[Hin|[Hin|[]]]]]; injection Hin as <- <-; try discriminate; left; cbn; tauto.
      + apply in_map_iff in Hin. destruct Hin as (pr & E & Hin). injection E as <- _. right. apply in_map; auto.
    - intros [H|H].
      + cbn in H. destruct H as [<-|[<-|[<-|[<-|[<-|[]]]]]];
          eexists; (split; [rewrite !in_app_iff|]);
          [left; left; reflexivity|reflexivity|left; right; left; reflexivity|reflexivity
          |right; right; left; left; reflexivity|reflexivity|right; right; left; right; left; reflexivity|reflexivity
          |right; right; left; right; right; left; reflexivity|reflexivity].
      + apply in_map_iff in H. destruct H as (pr & <- & H). exists DStruct. split; [|reflexivity]. rewrite !in_app_iff. right; right; right. apply in_map_iff. exists pr. auto. }
  destruct (declared_as x (vdefs (emit te g gp))) as [|d ds] eqn:Ed.
  - cbn in Hex. rewrite String.eqb_eq. split; [tauto|]. intros [H|[H|H]]; [| |exact H]; exfalso; (assert (false = true) by (apply Hex; tauto); discriminate).
  - rewrite Hex. split; [tauto|]. intros [H|[H|H]]; [tauto|tauto|]. right. subst x.
    (* [None] is declared by nothing but an entry point *)
    assert (Hin : In ("None", d) (vdefs (emit te g gp))) by (apply declared_In; rewrite Ed; left; reflexivity).
    assert (Hn : In "None" (value_items te g gp)) by (rewrite <- emit_values by exact Hlen; exact (in_map fst _ _ Hin)).
    rewrite value_items_eq in Hn. apply in_app_or in Hn. destruct Hn as [Hn|Hn]; [exfalso|exact Hn].
    unfold own_value_items in Hn. rewrite !in_app_iff in Hn. destruct Hn as [Hn|[Hn|Hn]].
    + cbn in Hn. destruct Hn as [Hn|[Hn|[Hn|[Hn|[]]]]]; try discriminate. pose proof (idx_fn_last te) as Hi. rewrite Hn in Hi. discriminate Hi.
    + apply fn_names_In in Hn. destruct Hn as (i & j & p & E & _). pose proof (action_fn_last i j) as Hi. rewrite <- E in Hi. discriminate Hi.
    + cbn in Hn. intuition discriminate.
Qed.

Section Evaluable.
Context {A : Type}.
Variables (items : list (grammar_item A)) (te : token_enum) (g : grammar (lexpr A)) (gp : generated (lexpr A)).
Hypothesis Hnames : distinct_names items.
Hypothesis Hex : expands items gp.
Hypothesis Hnamed : named items te g.

(** The binders of the action functions are those of the productions, and [x]. *)
Lemma pops_binder f m x e : In f (gp_sem_actions gp) -> In (PopBind m x e) (sf_pops f) -> x = "x" \/ binder_in (nts items) x.
Proof.
  destruct (hygiene_data items te g gp Hex Hnamed) as (ti & act & tbl & states & entries & ho & fuel & Hlow & Hwf & _ & _ & Hg & _ & Hcs).
  intros Hf Hin. apply In_nth_error in Hf. destruct Hf as (k & Hk). destruct (fn_named ho fuel g te gp Hg) as (L & Hfn & _).
  assert (Hlt : k < List.length (fn_names g)) by (rewrite L; apply nth_error_Some; congruence).
  destruct (nth_error (fn_names g) k) as [name|] eqn:Ek; [|apply nth_error_None in Ek; lia].
  destruct (Hfn k name Ek) as (i & j & q & f' & Hq & _ & Hk' & F1 & F2 & F3). assert (f' = f) by congruence; subst f'.
  apply mapM_Forall2 in F3.
  assert (Hbs : exists y, In y (p_symbols q) /\ exists n, bs_binder y = Some n /\ nm_name n = x).
  { clear - F3 Hin. assert (Hr : exists y, In y (rev (p_symbols q)) /\ exists n, bs_binder y = Some n /\ nm_name n = x).
    - induction F3 as [|y st ys sts Hy _ IH]; [contradiction|]. destruct Hin as [->|Hin].
      + exists y. split; [left; reflexivity|]. unfold pop_code in Hy. destruct (bs_binder y) as [n|]; [|discriminate]. exists n. split; auto.
        destruct (bs_symbol y) as [nt|t]; [destruct (variant_of (variant_names g) nt)|]; try discriminate; injection Hy as _ <- _; reflexivity.
      + destruct (IH Hin) as (y' & Hy' & H'). exists y'. split; [right; auto|auto].
    - destruct Hr as (y & Hy & H'). exists y. split; [apply in_rev; auto|auto]. }
  destruct Hbs as (y & Hy & n & Hn & <-).
  destruct (get_production_inv _ _ ti g Hlow _ _ _ Hq) as [(N & i0 & HN & HNp & _ & _ & ->)|(N & i0 & HN & -> & _)].
  - left. cbn in Hy. destruct Hy as [<-|[]]. cbn in Hn. injection Hn as <-. reflexivity.
  - right. destruct (production_up _ _ ti g Hlow Hnames _ _ _ _ (slot_index (nts items) Hnames N i0 HN) Hq) as (pr & Hpr & Hl).
    destruct (lprod_rhs _ _ ti g Hlow _ _ Hl) as (_ & _ & Hsyms).
    destruct (Decide.uproduction_In (nts items) _ _ _ Hpr) as (N' & HN' & _ & Hin').
    assert (Hs : exists s, In s (ap_symbols pr) /\ binder_of s = Some n).
    { clear - Hsyms Hy Hn. induction Hsyms as [|s z ss zs [_ Hz] _ IH]; [contradiction|]. destruct Hy as [->|Hy].
      - exists s. split; [left; reflexivity|congruence].
      - destruct (IH Hy) as (s' & H1 & H2). exists s'. split; [right; auto|auto]. }
    destruct Hs as (s & Hs1 & Hs2). exists N', pr, s, n. auto.
Qed.
Lemma binder_pops x : binder_in (nts items) x -> exists f m e, In f (gp_sem_actions gp) /\ In (PopBind m x e) (sf_pops f).
Proof.
  intros (N & pr & s & n & HN & Hpr & Hs & Hn & <-). apply In_nth_error in Hpr. destruct Hpr as (p & Hp).
  assert (Hu : uproduction (nts items) (an_name N) p = Some pr) by (eapply uproduction_of; eauto).
  destruct (c52_typed items te g gp Hnames Hex Hnamed _ _ _ N Hu HN eq_refl) as (k & name & f & _ & Hf & _ & _ & Hpops & _).
  apply in_rev in Hs. exists f. apply nth_error_In in Hf. clear - Hpops Hs Hn Hf. revert Hf. generalize (gp_sem_actions gp). intros l Hf.
  assert (H : exists m e, In (PopBind m (nm_name n) e) (sf_pops f)).
  { induction Hpops as [|s' st ss pops Hst _ IH]; [contradiction|]. destruct Hs as [->|Hs].
    - unfold pops_symbol in Hst. rewrite Hn in Hst. destruct Hst as (m & tys & -> & _). do 2 eexists. left; reflexivity.
    - destruct (IH Hs) as (m & e & H). exists m, e. right; exact H. }
  destruct H as (m & e & H). exists m, e. auto.
Qed.

Lemma own_not_outer x : In x (own_value_items te g) -> ~ In x outer_values.
Proof.
  intros Hin Ho. unfold outer_values in Ho. cbn in Ho.
  assert (Hl : last_char x = Some "e"%char \/ last_char x = Some "k"%char \/ last_char x = Some "r"%char) by (intuition (subst; cbn; auto)).
  unfold own_value_items in Hin. rewrite !in_app_iff in Hin. destruct Hin as [Hin|[Hin|Hin]].
  - cbn in Hin. destruct Hin as [<-|[<-|[<-|[<-|[]]]]]; rewrite ?idx_fn_last in Hl; cbn in Hl; try (intuition discriminate).
  - apply fn_names_In in Hin. destruct Hin as (i & j & p & -> & _). rewrite action_fn_last in Hl. intuition discriminate.
  - cbn in Hin. intuition (subst; cbn in *; intuition discriminate).
Qed.
Lemma part_not_static te' x : part_name te' x -> ~ In x template_statics /\ x <> "None" /\ x <> "value_stack".
Proof.
  intros (c & i & _ & _ & ->). split; [|split; discriminate]. cbn. intuition discriminate.
Qed.
Lemma local_not_static x : In x template_locals -> ~ In x template_statics /\ x <> "None".
Proof. intro H. split; [|intros ->]; cbn in H; intuition (subst; try discriminate; cbn in *; intuition discriminate). Qed.

Lemma resolvable_of :
  (forall N, In N (nts items) -> an_pub N = true -> ~ taken te g (an_name N) /\ ~ In (an_name N) ["Some"; "None"; "Ok"; "Err"]) ->
  bindable (nts items) te -> resolvable te g gp.
Proof.
  intros Hu Hb. destruct (hygiene_data items te g gp Hex Hnamed) as (ti & act & tbl & states & entries & ho & fuel & Hlow & Hwf & Hgen & Hho & Hg & Hte & Hcs).
  destruct (expands_expansion items gp Hex) as (g1 & tbl1 & states1 & entries1 & He).
  destruct (expansion_data items _ _ _ _ _ He) as (ti1 & act1 & _ & _ & _ & _ & Hsh & _). assert (g1 = g).
  { destruct He as (_ & _ & _ & _ & Hl & _). destruct Hnamed as [_ Hl']. congruence. } subst g1.
  destruct (fn_named ho fuel g te gp Hg) as (L & Hfn & _).
  assert (Hitems : NoDup (type_items gp) /\ NoDup (value_items te g gp)).
  { apply (c52_items items te g gp Hnames Hex). intros N HN HNp. apply (Hu N HN HNp). }
  assert (Hconst : forall x, is_constant (emit te g gp) x = false <-> ~ (In x template_statics \/ In x (map pr_name (gp_parsers gp)) \/ x = "None")).
  { intro x. rewrite <- (is_constant_iff te g gp L). split; [intros -> H; discriminate H|]. destruct (is_constant _ x); [intro H; exfalso; apply H; reflexivity|reflexivity]. }
  assert (Hpubs : forall x, In x (map pr_name (gp_parsers gp)) -> exists N, In N (nts items) /\ an_pub N = true /\ an_name N = x) by (intro x; apply (entry_name_In items gp Hnames Hex)).
  assert (Hf : forall f, In f (gp_sem_actions gp) -> exists i j q, get_production g i j = Some q /\ fn_for (variant_names g) i q f).
  { intros f Hf. apply In_nth_error in Hf. destruct Hf as (k & Hk). assert (Hlt : k < List.length (fn_names g)) by (rewrite L; apply nth_error_Some; congruence).
    destruct (nth_error (fn_names g) k) as [name|] eqn:Ek; [|apply nth_error_None in Ek; lia].
    destruct (Hfn k name Ek) as (i & j & q & f' & Hq & _ & Hk' & F). assert (f' = f) by congruence; subst f'. eauto. }
  split.
  - exact L.
  - apply Hitems.
  - apply Hitems.
  - intros x Hx Hin. rewrite value_items_eq in Hin. apply in_app_or in Hin. destruct Hin as [Hin|Hin].
    + exact (own_not_outer x Hin Hx).
    + destruct (Hpubs x Hin) as (N & HN & HNp & <-). destruct (Hu N HN HNp) as (_ & Hout). exact (Hout Hx).
  - intros x Hx. apply Hconst. destruct (local_not_static x Hx) as [L1 L2]. intros [H|[H|H]]; auto. destruct (Hpubs x H) as (N & HN & HNp & <-).
    destruct (proj1 Hb N HN HNp) as (B1 & _). auto.
  - intros c i Hc Hi. apply Hconst. assert (Hpn : part_name te (field_ident i)) by (exists c, i; auto). destruct (part_not_static te _ Hpn) as (L1 & L2 & _).
    intros [H|[H|H]]; auto. destruct (Hpubs _ H) as (N & HN & HNp & E). destruct (proj1 Hb N HN HNp) as (_ & _ & B3). apply B3. rewrite E. exact Hpn.
  - intros f m x e Hf1 Hin. destruct (pops_binder f m x e Hf1 Hin) as [->|Hbi].
    + apply Hconst. destruct (local_not_static "x") as [L1 L2]; [cbn; auto 30|]. intros [H|[H|H]]; auto. destruct (Hpubs _ H) as (N & HN & HNp & E).
      destruct (proj1 Hb N HN HNp) as (B1 & _). apply B1. rewrite E. cbn. auto 30.
    + apply Hconst. destruct (proj2 Hb x Hbi) as [L1 L2]. intros [H|[H|H]]; auto. destruct (Hpubs _ H) as (N & HN & HNp & E).
      destruct (proj1 Hb N HN HNp) as (_ & B2 & _). apply B2. rewrite E. exact Hbi.
  - intros row Hr. rewrite (gn_nterm _ _ _ _ _ _ _ Hgen). apply (sh_action_row _ _ _ _ Hsh). exact Hr.
  - intros row Hr. exact (sh_goto_row _ _ _ _ Hsh row Hr).
  - rewrite (sh_expected_len _ _ _ _ Hsh), (sh_action_len _ _ _ _ Hsh). reflexivity.
  - rewrite (gn_strs _ _ _ _ _ _ _ Hgen), app_length, (gn_nterm _ _ _ _ _ _ _ Hgen). reflexivity.
  - intros row r Hrow Hr. pose proof (sh_action_bound _ _ _ _ Hsh row _ Hrow Hr) as Hbd. unfold entry_bound in Hbd. unfold fits. destruct r as [s|nt k a|]; [|destruct Hbd as (B1 & B2 & B3); repeat split|exact Logic.I];
      apply N.ltb_lt; assumption.
  - intros row s Hrow Hs. unfold fits. apply N.ltb_lt. exact (sh_goto_bound _ _ _ _ Hsh row s Hrow Hs).
  - intros f Hf1. destruct (Hf f Hf1) as (i & j & q & Hq & F1 & F2 & F3). exact (variants_below g i _ F2).
  - intros f Hf1. destruct (Hf f Hf1) as (i & j & q & Hq & F1 & F2 & F3). destruct (get_production_nt g i j q Hq) as (N & HN & _).
    exists (nt_return_ty N). exact (proj1 (nt_variant_declared te g i N _ HN F2)).
  - intros f m x e Hf1 Hin. destruct (Hf f Hf1) as (i & j & q & Hq & F1 & F2 & F3). apply mapM_Forall2 in F3.
    assert (Hy : exists y, In y (p_symbols q) /\ pop_code (variant_names g) y = Ok (PopBind m x e)).
    { clear - F3 Hin. assert (H : exists y, In y (rev (p_symbols q)) /\ pop_code (variant_names g) y = Ok (PopBind m x e)).
      - induction F3 as [|y st ys sts Hy _ IH]; [contradiction|]. destruct Hin as [->|Hin]; [exists y; split; [left; reflexivity|exact Hy]|].
        destruct (IH Hin) as (y' & H1 & H2). exists y'. split; [right; exact H1|exact H2].
      - destruct H as (y & H1 & H2). exists y. split; [apply in_rev; exact H1|exact H2]. }
    destruct Hy as (y & Hy & Hp). unfold pop_code in Hp. destruct (bs_binder y) as [b|]; [|discriminate]. destruct (bs_symbol y) as [nt|t] eqn:Es.
    + destruct (variant_of (variant_names g) nt) as [v|] eqn:Ev; [|discriminate]. injection Hp as _ _ <-. split; [exact (variants_below g nt v Ev)|].
      assert (Hin' : In (NT nt) (rhs q)) by (unfold rhs; rewrite <- Es; apply in_map; exact Hy).
      destruct (wfg_nt _ Hwf _ _ _ _ Hq Hin') as (N & HN & _). exists (nt_return_ty N). exact (proj1 (nt_variant_declared te g nt N _ HN Ev)).
    + injection Hp as _ _ <-. assert (Hin' : In (T t) (rhs q)) by (unfold rhs; rewrite <- Es; apply in_map; exact Hy).
      pose proof (wfg_t _ Hwf _ _ _ _ Hq Hin') as Ht. assert (Hnt : n_terminals g = List.length (te_conversions te)).
      { unfold n_terminals. rewrite (lo_terms _ _ _ _ Hlow), map_length, Hcs. reflexivity. }
      rewrite Hnt in Ht. destruct (nth_error (te_conversions te) t) as [c|] eqn:Ec; [exists c; reflexivity|]. apply nth_error_None in Ec. lia.
  - intros f x Hf1 Hx. destruct (Hf f Hf1) as (i & j & q & Hq & F1 & F2 & F3).
    destruct (get_production_inv _ _ ti g Hlow _ _ _ Hq) as [(N & i0 & HN & HNp & _ & _ & ->)|(N & i0 & HN & -> & _)].
    + cbn in F1, F3. rewrite Hx in F1. injection F1 as ->. cbn in F3. unfold pop_code in F3. cbn in F3.
      destruct (variant_of (variant_names g) i0) as [v|]; [|discriminate]. injection F3 as <-. do 2 eexists. reflexivity.
    + exfalso. destruct (production_up _ _ ti g Hlow Hnames _ _ _ _ (slot_index (nts items) Hnames N i0 HN) Hq) as (pr & Hpr & Hl).
      destruct (lprod_rhs _ _ ti g Hlow _ _ Hl) as (_ & Hact & _). rewrite Hx in F1. congruence.
  - intros pr Hpr. split; [unfold fits; apply N.ltb_lt; apply (sh_parser_bound _ _ _ _ Hsh pr Hpr)|].
    destruct (gn_parser _ _ _ _ _ _ _ Hgen pr Hpr) as (nt & e & N & f & q & _ & HN & _ & _ & _ & Hv & _). split; [exact (variants_below g nt _ Hv)|].
    exists (nt_return_ty N). exact (proj1 (nt_variant_declared te g nt N _ HN Hv)).
  - rewrite (gn_conv _ _ _ _ _ _ _ Hgen). exact Hcs.
Qed.
Lemma evaluable_of : usable_names items te g -> evaluable te g gp.
Proof.
  intros (Hu & Hb & Hvs). split.
  - apply resolvable_of; [|exact Hb]. intros N HN HNp. destruct (Hu N HN HNp) as (_ & H1 & H2). auto.
  - intros f m x e Hf Hin. destruct (pops_binder f m x e Hf Hin) as [->|Hbi]; [discriminate|exact (Hvs x Hbi)].
Qed.
End Evaluable.
