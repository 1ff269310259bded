(** * StageProofs: facts about the stages of an expansion, used by PropertiesGen.v *)
From Verif Require Export GenSpec PropProofs Decide LowerPanics.

Section Stage.
Context {A : Type}.
Variable items : list (grammar_item A).
Notation nts := (declared_nts items).
Notation cs := (token_entries items).

Lemma expansion_data g tbl states entries gp : expansion_of items g tbl states entries gp ->
  exists ti act, lowered nts cs ti g /\ wf_grammar g /\ generated_ok g cs tbl states entries act gp /\
    no_detected_conflict g states /\ shape_ok g states entries gp /\
    exists ho fuel, hash_order_ok ho /\ generate_lr1_parser ho fuel g (the_tokens items) = Ok gp /\
      generate_first_table ho fuel g = Ok tbl /\ generate_lr1_automaton ho fuel g tbl = Ok (states, entries).
Proof.
  intros (ho & fuel & Hho & Hm & Hl & Hf & Ha).
  destruct (macro_ok ho Hho fuel items gp Hm) as (ti & g1 & tbl1 & states1 & entries1 & act & H1 & H2 & H3 & H4 & H5 & H6 & H7 & H8).
  assert (g1 = g) by congruence; subst g1. assert (tbl1 = tbl) by congruence; subst tbl1.
  rewrite Ha in H6. injection H6 as <- <-.
  exists ti, act. repeat (split; [assumption|]). split.
  - eapply generate_lr1_parser_shape; eauto.
  - exists ho, fuel. auto.
Qed.

Lemma expansion_stages g tbl states entries gp : expansion_of items g tbl states entries gp ->
  stages items g tbl states entries.
Proof. intros (ho & fuel & H1 & _ & H2 & H3 & H4). exists ho, fuel. auto. Qed.

Lemma expands_expansion gp : expands items gp ->
  exists g tbl states entries, expansion_of items g tbl states entries gp.
Proof.
  intros (ho & fuel & Hho & Hm).
  destruct (macro_ok ho Hho fuel items gp Hm) as (ti & g1 & tbl1 & states1 & entries1 & act & H1 & H2 & H3 & H4 & H5 & H6 & H7 & H8).
  exists g1, tbl1, states1, entries1, ho, fuel. auto.
Qed.

Lemma stages_data g tbl states entries : stages items g tbl states entries ->
  exists ti, lowered nts cs ti g /\ wf_grammar g /\ automaton_ok g tbl states entries /\
    ((forall n, flag tbl n = true -> nullable g n) /\ (forall n t, In t (terms tbl n) -> first_of g n t)) /\
    (distinct_names items -> tails_plain nts -> first_complete_tails g tbl).
Proof.
  intros (ho & fuel & Hho & Hl & Hf & Ha). pose proof (lower_spec nts cs) as Hs. rewrite Hl in Hs. destruct Hs as (ti & Hlow).
  pose proof (lowered_wf _ _ _ _ Hlow) as Hwf. exists ti. split; auto. split; auto. split.
  - eapply generate_lr1_automaton_ok; eauto.
  - split; [eapply first_table_sound; [exact (hok_terms ho Hho)|eauto]|].
    intros Hn Ht. eapply tails_plain_complete; eauto.
Qed.

Lemma stages_same g tbl states entries g' tbl' states' entries' :
  stages items g tbl states entries -> stages items g' tbl' states' entries' ->
  g = g' /\ teq tbl tbl' /\ states = states' /\ entries = entries'.
Proof.
  intros (ho & fuel & Hho & Hl & Hf & Ha) (ho' & fuel' & Hho' & Hl' & Hf' & Ha').
  assert (g' = g) by congruence; subst g'.
  pose proof (first_table_agree ho ho' Hho Hho' g fuel fuel') as Ht. rewrite Hf, Hf' in Ht. cbn in Ht.
  pose proof (automaton_agree ho ho' Hho Hho' g tbl tbl' Ht fuel fuel') as Hau. rewrite Ha, Ha' in Hau. cbn in Hau.
  injection Hau as <- <-. auto.
Qed.

(** Every run of the macro ends: it expands or it panics. *)
Lemma expands_or_panics : (exists gp, expands items gp) \/ (exists p, expansion_panics items p).
Proof.
  destruct (expansion_terminates ho_id items ho_id_ok) as (fuel & r & Hr & Hm). specialize (Hm fuel (le_n _)).
  destruct r as [gp|p|]; [left; exists gp|right; exists p|contradiction]; exists ho_id, fuel; split; auto using ho_id_ok.
Qed.
Lemma expands_not_panics gp p : expands items gp -> expansion_panics items p -> False.
Proof.
  intros (ho & fuel & Hho & Hm) (ho' & fuel' & Hho' & Hm').
  pose proof (macro_agree ho ho' Hho Hho' fuel fuel' items) as H. rewrite Hm, Hm' in H. exact H.
Qed.
Lemma panics_once p q : expansion_panics items p -> expansion_panics items q -> p = q.
Proof.
  intros (ho & fuel & Hho & Hm) (ho' & fuel' & Hho' & Hm').
  pose proof (macro_agree ho ho' Hho Hho' fuel fuel' items) as H. rewrite Hm, Hm' in H. exact H.
Qed.

(** What the conflict check of the item lists means for pairs of items. *)
Lemma clash_rejects g tbl states entries s st l1 it l2 b la : stages items g tbl states entries ->
  nth_error states s = Some st -> st_items st = l1 ++ it :: l2 -> In b l1 -> wants_reduce g it la -> wants g st b la ->
  (forall gp, ~ expands items gp) /\ exists p, expansion_panics items p.
Proof.
  intros Hst Hs Hl Hb Hr Hw.
  assert (Hno : forall gp, ~ expands items gp).
  { intros gp He. destruct (expands_expansion gp He) as (g' & tbl' & states' & entries' & He').
    destruct (stages_same _ _ _ _ _ _ _ _ Hst (expansion_stages _ _ _ _ _ He')) as (<- & _ & <- & <-).
    destruct (expansion_data _ _ _ _ _ He') as (ti & act & _ & _ & _ & Hnd & _).
    exact (Hnd s st Hs l1 it l2 Hl la b Hr Hb Hw). }
  split; auto. destruct expands_or_panics as [(gp & He)|Hp]; auto. exfalso. eapply Hno; eauto.
Qed.
End Stage.

Section Items.
Context {A : Type}.
Variable g : grammar A.
Lemma expects_next it X : expects g it X <-> next_symbol g it = Some X.
Proof.
  unfold expects, next_symbol, item_rhs. destruct (get_production g (it_nt it) (it_prod it)) as [pr|].
  - split; [intros (pr' & E & H); injection E as <-; exact H|intro H; exists pr; auto].
  - split; [intros (pr' & E & H); discriminate|intro H; destruct (it_cursor it); discriminate].
Qed.
Lemma completed_is_complete it : completed g it -> is_complete g it = true.
Proof.
  intros (pr & Hp & Hc). unfold is_complete, item_rhs. rewrite Hp, Hc. apply Nat.eqb_refl.
Qed.
Lemma is_complete_completed it pr : get_production g (it_nt it) (it_prod it) = Some pr -> is_complete g it = true -> completed g it.
Proof.
  intros Hp Hc. exists pr. split; auto. unfold is_complete, item_rhs in Hc. rewrite Hp in Hc. apply Nat.eqb_eq in Hc. exact Hc.
Qed.

Lemma follow_path states e gamma : forall s, follow states e gamma = Some s <-> exists ss, stack_path states e (rev gamma) (s :: ss).
Proof.
  induction gamma as [|X gamma IH] using rev_ind; intro s.
  - cbn. split; [intro H; injection H as <-; exists []; constructor|].
    intros (ss & H). inversion H; subst. reflexivity.
  - rewrite rev_unit.
    assert (Hf : forall r e0, follow states e0 (r ++ [X]) = match follow states e0 r with Some s' => transition states s' X | None => None end).
    { induction r as [|Y r IHr]; intro e0; cbn; [destruct (transition states e0 X); reflexivity|].
      destruct (transition states e0 Y); auto. }
    rewrite Hf. split.
    + destruct (follow states e gamma) as [s'|] eqn:E; [|discriminate]. intro Ht. destruct (proj1 (IH s') eq_refl) as (ss & Hp).
      exists (s' :: ss). constructor; auto.
    + intros (ss & Hp). inversion Hp as [|X' pi s1 s2 ss' Hp' Ht]; subst.
      rewrite (proj2 (IH s1) (ex_intro _ _ Hp')). exact Ht.
Qed.
End Items.
