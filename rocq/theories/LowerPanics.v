(** * LowerPanics: the diagnostics of lowering tell the truth (C32) *)
From Verif Require Export LowerProofs.
From Coq Require Import NArith.

Lemma foldM_panic {X B} (f : B -> X -> res B) l : forall b e, foldM f l b = Panic e ->
  exists l1 x l2 b', l = l1 ++ x :: l2 /\ foldM f l1 b = Ok b' /\ f b' x = Panic e.
Proof.
  induction l as [|x l IH]; intros b e H; cbn in H; [discriminate|].
  destruct (f b x) as [b1|p|] eqn:E; cbn in H; try discriminate.
  - destruct (IH _ _ H) as (l1 & y & l2 & b' & -> & H1 & H2). exists (x :: l1), y, l2, b'. split; [reflexivity|]. split; auto.
    cbn. rewrite E. exact H1.
  - injection H as ->. exists [], x, l, b. auto.
Qed.

Section LowerPanics.
Context {A : Type}.
Notation nonterm := (ast_non_terminal A).

Lemma symbol_diagnostic (ns : list nonterm) cs ti (g : grammar (lexpr A)) s : terms_inv cs g ti -> forall b e,
  lower_symbol (nt_indices_of ns) ti b s = Panic e ->
  match e with
  | PUnknownNonTerminal n => unnamed s = ASNonTerminal n /\ ~ In n (map an_name ns)
  | PUnknownTerminal t => unnamed s = ASTerminal t /\ ~ In t (map cv_from cs)
  | PRepeatUnsupported => exists op s', unnamed s = ASRepeat op s'
  | _ => False
  end.
Proof.
  intro Ht. induction s as [t|n|op s IH|nm s IH]; intros b e; cbn [lower_symbol].
  - destruct (map_get String.eqb t ti) as [i|] eqn:E; [discriminate|]. intro H; injection H as <-. split; [reflexivity|].
    intro Hin. apply In_nth_error in Hin. destruct Hin as (i & Hi). apply (ti_get _ _ _ Ht) in Hi. congruence.
  - destruct (map_get String.eqb n (nt_indices_of ns)) as [i|] eqn:E; [discriminate|]. intro H; injection H as <-. split; [reflexivity|].
    intro Hin. destruct (nt_indices_some _ _ Hin) as (N & i & _ & _ & Q). congruence.
  - intro H; injection H as <-. exists op, s. reflexivity.
  - intro H. specialize (IH _ _ H). exact IH.
Qed.

Lemma lower_diagnostic (ns : list nonterm) cs e : lower ns cs = Panic e -> lowering_diagnostic ns cs e.
Proof.
  unfold lower. intro H. destruct (foldM lower_terminal cs (grammar_new, [])) as [[g0 ti]|e0|] eqn:Et; cbn [bind] in H; [| |discriminate].
  - pose proof (terms_spec cs [] _ _ (terms_start (A := A))) as Ht. rewrite Et in Ht. cbn in Ht.
    rewrite nts_fold in H.
    assert (Hg0 : g0 = {| g_nts := []; g_terminals := map cv_from cs |}).
    { destruct Ht as [H1 H2 _ _ _]. destruct g0; simpl in *; subst; auto. }
    subst g0. cbn [g_nts g_terminals List.length app] in H. fold (nt_indices_of ns) in H.
    apply foldM_panic in H. destruct H as (l1 & N & l2 & g1 & Hl & _ & H). apply foldM_panic in H.
    destruct H as (p1 & p & p2 & g2 & Hp & _ & H).
    assert (HN : In N ns) by (rewrite Hl; apply in_elt). assert (HP : In p (an_productions N)) by (rewrite Hp; apply in_elt).
    unfold lower_production in H. destruct (mapM _ (ap_symbols p)) as [ss|e0|] eqn:Es; cbn [bind] in H; [| |discriminate].
    + destruct (nt_indices_some ns (an_name N) (in_map _ _ _ HN)) as (M & i & _ & _ & Hi). rewrite Hi in H.
      destruct (ap_action p) as [a|a] eqn:Ea; [discriminate|]. injection H as <-. exists N, p, a. auto.
    + injection H as <-. apply mapM_panic in Es. destruct Es as (x & Hx & Ex).
      pose proof (symbol_diagnostic ns cs ti _ x Ht None e0 Ex) as Hd. clear - Hd HN HP Hx.
      destruct e0; try contradiction; cbn.
      * destruct Hd as (H1 & H2). split; auto. exists N, p, x. auto.
      * destruct Hd as (H1 & H2). split; auto. exists N, p, x. auto.
      * destruct Hd as (op & s & H1). exists op, s, N, p, x. auto.
  - injection H as <-. apply foldM_panic in Et. destruct Et as (l1 & c & l2 & [g1 ti] & Hl & H1 & H2).
    pose proof (terms_spec l1 [] _ _ (terms_start (A := A))) as Ht. rewrite H1 in Ht. cbn in Ht. destruct Ht as [T1 T2 T3 T4 T5].
    cbn in H2. unfold new_terminal, u32_try_from in H2. rewrite T2, map_length in H2.
    destruct (N.ltb_spec (N.of_nat (List.length l1)) 4294967296) as [Hlt|Hge]; cbn in H2.
    + destruct (map_get String.eqb (cv_from c) ti) as [j|] eqn:Ej; [|discriminate]. injection H2 as <-. cbn.
      apply T4 in Ej. exists j, (List.length l1). subst cs. rewrite map_app. cbn.
      assert (Hj : j < List.length (map cv_from l1)) by (apply nth_error_Some; congruence).
      rewrite map_length in Hj. split; auto. split.
      * rewrite nth_error_app1 by (rewrite map_length; auto). exact Ej.
      * rewrite nth_error_app2 by (rewrite map_length; auto). rewrite map_length, Nat.sub_diag. reflexivity.
    + injection H2 as <-. cbn. subst cs. rewrite app_length. cbn. lia.
Qed.

Lemma lowering_diagnostic_unsupported (ns : list nonterm) cs e : lowering_diagnostic ns cs e -> ~ supported ns cs.
Proof.
  intros H (S1 & S2 & S3). destruct e; cbn in H; try contradiction.
  - destruct H as (i & j & Hlt & Hi & Hj). assert (i = j); [|lia].
    eapply NoDup_nth_error; eauto; [apply nth_error_Some; congruence|congruence].
  - destruct H as ((N & p & x & HN & HP & Hx & Hu) & Hn). destruct (S3 N p HN HP) as (Hf & _). rewrite Forall_forall in Hf.
    specialize (Hf x Hx). unfold symbol_ok in Hf. rewrite Hu in Hf. auto.
  - destruct H as ((N & p & x & HN & HP & Hx & Hu) & Hn). destruct (S3 N p HN HP) as (Hf & _). rewrite Forall_forall in Hf.
    specialize (Hf x Hx). unfold symbol_ok in Hf. rewrite Hu in Hf. auto.
  - destruct H as (op & s & N & p & x & HN & HP & Hx & Hu). destruct (S3 N p HN HP) as (Hf & _). rewrite Forall_forall in Hf.
    specialize (Hf x Hx). unfold symbol_ok in Hf. rewrite Hu in Hf. auto.
  - destruct H as (N & p & a & HN & HP & Ha). destruct (S3 N p HN HP) as (_ & (e' & He)). congruence.
Qed.
End LowerPanics.
