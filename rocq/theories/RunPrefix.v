(** * RunPrefix: viable prefixes and immediate errors, in terms of derivations *)
From Verif Require Export RunLock RunComplete Lr1Proofs.

Section Trees.
Context {A Tok : Type}.
Variable g : grammar A.
Variable class : Tok -> option nat.

Definition classes (toks : list Tok) (w : list nat) : Prop := Forall2 (fun tok t => class tok = Some t) toks w.

Lemma classes_fun toks w w' : classes toks w -> classes toks w' -> w = w'.
Proof.
  intro H. revert w'. induction H as [|tok t toks w Ht H IH]; intros w' H'; inversion H'; subst; auto.
  f_equal; [congruence|auto].
Qed.
Lemma classes_app a b wa wb : classes a wa -> classes b wb -> classes (a ++ b) (wa ++ wb).
Proof. apply Forall2_app. Qed.

Lemma tree_derives :
  (forall tr X, wf_tree g class tr X -> exists w, classes (yield tr) w /\ derives g [X] (map T w)) /\
  (forall ts Xs, wf_forest g class ts Xs -> exists w, classes (yields ts) w /\ derives g Xs (map T w)).
Proof.
  apply wf_tree_forest_ind.
  - intros tok t Hc. exists [t]. split; [repeat constructor; auto|apply derives_refl].
  - intros nt p kids pr Hp _ (w & Hw & Hd). exists w. split; auto.
    eapply derives_trans; [eapply derives_prod; eauto|exact Hd].
  - exists []. split; constructor.
  - intros t ts X Xs _ (w1 & H1 & D1) _ (w2 & H2 & D2). exists (w1 ++ w2).
    split; [unfold yields; cbn; apply classes_app; auto|]. rewrite map_app. apply (derives_app g [X] (map T w1) Xs); auto.
Qed.
End Trees.

Section Derives.
Context {A : Type}.
Variable g : grammar A.
Notation cl := (@Some nat).

Lemma terminals_forest w : exists ts, wf_forest g cl ts (map T w) /\ yields ts = w.
Proof.
  induction w as [|t w (ts & H1 & H2)]; [exists []; split; constructor|].
  exists (Leaf t :: ts). split; [repeat constructor; auto|]. unfold yields in *. cbn. rewrite H2. reflexivity.
Qed.

Lemma derives_forest l m : derives g l m -> forall ts, wf_forest g cl ts m ->
  exists ts', wf_forest g cl ts' l /\ yields ts' = yields ts.
Proof.
  induction 1 as [l|l m r Hs Hd IH]; intros ts Hts; [eauto|].
  destruct (IH _ Hts) as (ts1 & H1 & H2). clear IH. destruct Hs as [a n p pr b Hp].
  apply wf_forest_Forall2 in H1. apply Forall2_app_inv_r in H1. destruct H1 as (t1 & t2 & F1 & F2 & ->).
  apply Forall2_app_inv_r in F2. destruct F2 as (t3 & t4 & F3 & F4 & ->).
  exists (t1 ++ Node n p t3 :: t4). split.
  - apply wf_forest_Forall2. apply Forall2_app; auto. constructor; auto.
    econstructor; eauto. apply wf_forest_Forall2; auto.
  - rewrite <- H2. unfold yields. rewrite !flat_map_app. cbn. reflexivity.
Qed.

Lemma derives_tree n w : derives g [NT n] (map T w) -> exists tr, wf_tree g cl tr (NT n) /\ yield tr = w.
Proof.
  intro H. destruct (terminals_forest w) as (ts & H1 & H2).
  destruct (derives_forest _ _ H _ H1) as (ts' & H3 & H4). inversion H3 as [|t r X Xs Ht Hr]; subst. inversion Hr; subst.
  exists t. split; auto. unfold yields in H4. cbn in H4. rewrite app_nil_r in H4. exact H4.
Qed.

(** Valid items and sentential forms *)
Lemma lr1_sentential S gamma B p k la : lr1_valid g S gamma B p k la -> forall pr, get_production g B p = Some pr ->
  exists delta z, gamma = delta ++ firstn k (rhs pr) /\ derives g [NT S] (delta ++ NT B :: z) /\
    match la with Some t => exists z', z = T t :: z' | None => z = [] end.
Proof.
  induction 1 as [|gamma B p k la pr0 C q pr1 x Hv IH Hp Hn Hq Hf|gamma B p k la pr0 X Hv IH Hp Hn]; intros pr Hpr.
  - exists [], []. split; [reflexivity|]. split; [constructor|reflexivity].
  - destruct (IH _ Hp) as (delta & z & Hg & Hd & Hz).
    assert (Hsplit : rhs pr0 = firstn k (rhs pr0) ++ NT C :: skipn (k + 1) (rhs pr0)).
    { clear -Hn. revert k Hn. generalize (rhs pr0). induction l as [|a l IHl]; intros [|k] Hn; try discriminate.
      - inversion Hn; reflexivity.
      - cbn. f_equal. apply IHl. exact Hn. }
    assert (Hd2 : derives g [NT S] (gamma ++ NT C :: skipn (k + 1) (rhs pr0) ++ z)).
    { eapply derives_trans; [exact Hd|].
      replace (gamma ++ NT C :: skipn (k + 1) (rhs pr0) ++ z) with (delta ++ rhs pr0 ++ z).
      - apply (derives_ctx g delta z [NT B] (rhs pr0)). eapply derives_prod; eauto.
      - rewrite Hg. rewrite Hsplit at 1. rewrite <- !app_assoc. reflexivity. }
    destruct Hf as [(t & -> & (r & Hr))|(He & ->)].
    + exists gamma, (T t :: r ++ z). split; [rewrite app_nil_r; auto|]. split; [|eauto].
      eapply derives_trans; [exact Hd2|].
      change (NT C :: skipn (k + 1) (rhs pr0) ++ z) with ([NT C] ++ skipn (k + 1) (rhs pr0) ++ z).
      change (NT C :: T t :: r ++ z) with ([NT C] ++ (T t :: r) ++ z).
      rewrite !(app_assoc gamma). apply derives_ctx. exact Hr.
    + exists gamma, z. split; [rewrite app_nil_r; auto|]. split; [|auto].
      eapply derives_trans; [exact Hd2|].
      change (NT C :: skipn (k + 1) (rhs pr0) ++ z) with ([NT C] ++ skipn (k + 1) (rhs pr0) ++ z).
      change (NT C :: z) with ([NT C] ++ [] ++ z).
      rewrite !(app_assoc gamma). apply derives_ctx. exact He.
  - assert (pr0 = pr) by congruence. subst pr0. destruct (IH _ Hp) as (delta & z & Hg & Hd & Hz).
    exists delta, z. split; [|auto]. rewrite Hg, <- app_assoc. f_equal.
    clear -Hn. revert k Hn. generalize (rhs pr). induction l as [|a l IHl]; intros [|k] Hn; try discriminate.
    + inversion Hn; reflexivity.
    + cbn. f_equal. apply IHl. exact Hn.
Qed.
End Derives.

Section Prefix.
Context {A Tok E V W I : Type}.
Variable g : grammar A.
Hypothesis Hwf : wf_grammar g.
Variable conv : list conversion.
Variable tbl : first_table.
Variable states : list lr1_state.
Variable entries : list (nat * nat).
Variable act : nat -> option nat -> option aact.
Variable gp : generated A.
Hypothesis Hgen : generated_ok g conv tbl states entries act gp.
Variable pr : parser_struct.
Variables nt0 e : nat.
Hypothesis Hpf : parser_for g (gp_sem_actions gp) entries pr nt0 e.
Variable env : env_t A Tok E V W I.
Hypothesis Htok : tokens_ok g env.
Variable it0 : I.
Variable w0 : W.
Notation Haut := (gn_aut _ _ _ _ _ _ _ Hgen).
Notation Hact := (gn_act _ _ _ _ _ _ _ Hgen).
Notation Hent := (Hentry g entries gp pr nt0 e Hpf).
Notation trace := (trace gp pr env it0 w0).
Notation cl := (@Some nat).
Notation cls := (classes (e_tok_idx env)).
Notation astps := (asteps g states act cl).

Lemma peek_total (rest : list nat) : exists la, peek cl rest la.
Proof. destruct rest; eexists; constructor; reflexivity. Qed.

Lemma Forall2_snoc_inv {X Y} (R : X -> Y -> Prop) l x l' : Forall2 R (l ++ [x]) l' ->
  exists l0 y, l' = l0 ++ [y] /\ Forall2 R l l0 /\ R x y.
Proof.
  intro H. apply Forall2_app_inv_l in H. destruct H as (a & b & H1 & H2 & ->). inversion H2 as [|? y ? r Hy Hr]; subst.
  inversion Hr; subst. exists a, y. auto.
Qed.

(** The run so far, replayed on any continuation of the consumed tokens. *)
Lemma trace_asteps n st c b : trace n st c b -> forall cw rest la, cls c cw -> peek cl rest la ->
  (b = true \/ look env (ps_token st) la) ->
  exists ts, astps ([e], [], cw ++ rest) (ps_states st, ts, rest).
Proof.
  induction 1 as [|n st c b tok st' Ht IH Hs Htk Hn Hw (t & fs & Hv)
                  |n st c b st' Ht IH Hs Htk Hit (k & v & r & Hv)]; intros cw rest la Hc Hpk Hb.
  - inversion Hc; subst. exists []. cbn.
    assert (He : ps_states (init_pstate env pr it0 w0) = [e]).
    { unfold init_pstate. destruct (e_next env it0). cbn. destruct Hpf as (N & f & q & _ & _ & _ & _ & Hi & _). rewrite Hi. reflexivity. }
    rewrite He. constructor.
  - apply Forall2_snoc_inv in Hc. destruct Hc as (cw0 & t0 & -> & Hc & Ht0).
    destruct (IH cw0 (t0 :: rest) (Some t0) Hc) as (ts & Hts); [constructor; auto|right; rewrite Htk; constructor; auto|].
    destruct (trace_inv g Hwf conv tbl states entries act gp Hgen pr nt0 e Hpf env Htok it0 w0 _ _ _ _ Ht) as (pi & ts0 & Hi).
    destruct (step_kind g Hwf conv tbl states entries act gp Hgen pr nt0 e Hpf env Htok it0 w0 _ _ _ _ _ Hi Hs)
      as [(tok' & t' & fs' & s & ss & m & H1 & _ & _ & _ & H5 & H6 & H7 & H8 & _)|(_ & _ & (k & v & r & Hv') & _)].
    + assert (tok' = tok) by congruence. subst tok'. assert (t' = t0) by congruence. subst t'.
      exists (Leaf t0 :: ts). rewrite <- app_assoc. cbn. eapply asteps_trans; [exact Hts|]. apply asteps_one.
      rewrite H6, H8. eapply as_shift; eauto.
    + rewrite Hv in Hv'. discriminate.
  - destruct Hb as [Hb|Hb]; [discriminate|]. rewrite Htk in Hb.
    destruct (IH cw rest la Hc Hpk (or_intror Hb)) as (ts & Hts).
    destruct (trace_inv g Hwf conv tbl states entries act gp Hgen pr nt0 e Hpf env Htok it0 w0 _ _ _ _ Ht) as (pi & ts0 & Hi).
    destruct (step_kind g Hwf conv tbl states entries act gp Hgen pr nt0 e Hpf env Htok it0 w0 _ _ _ _ _ Hi Hs)
      as [(tok' & t' & fs' & s & ss & m & _ & _ & _ & Hv' & _)|(_ & _ & _ & (la' & s & ss & m & p & q & s0 & ss0 & s1 & kids & rest0 & pi0 & H1 & H2 & H3 & H4 & H5 & H6 & H7 & _))].
    + rewrite Hv in Hv'. discriminate.
    + assert (la' = la).
      { inversion H1 as [Hx|tok0 t0 Hc0 Hx]; inversion Hb as [Hy|tok1 t1 Hc1 Hy]; subst; try congruence. }
      subst la'. eexists. eapply asteps_trans; [exact Hts|]. apply asteps_one.
      rewrite H2, H7. eapply as_reduce; eauto.
Qed.

Lemma asteps_through a b c : astps a b -> astps a c -> (forall d, ~ astep g states act cl c d) -> astps b c.
Proof.
  induction 1 as [a|a a' b Hs Hss IH]; intros Hc Hf; auto.
  inversion Hc; subst; [exfalso; eapply Hf; eauto|].
  match goal with H : astep _ _ _ _ a _ |- _ => rewrite <- (astep_fun _ _ _ _ _ _ _ Hs H) in * end. auto.
Qed.

Hypothesis Hcomp : first_complete_tails g tbl.
Hypothesis Hno : no_override g states act.

(** In a state reached just after a shift, the table has an entry for everything that can follow. *)
Theorem continuation_listed n st c s ss cw rest la : trace n st c true -> ps_states st = s :: ss -> cls c cw ->
  derives g [NT nt0] (map T (cw ++ rest)) -> peek cl rest la -> act s la <> None.
Proof.
  intros Htr Hss Hc Hd Hpk.
  destruct (trace_asteps _ _ _ _ Htr cw rest la Hc Hpk (or_introl eq_refl)) as (ts & Hts). rewrite Hss in Hts.
  destruct (derives_tree g _ _ Hd) as (tr & Hw & Hy).
  inversion Hw as [|nt p kids q Hq Hk Hx1 Hx2]; subst nt tr.
  destruct (wf_public_prod g Hwf _ _ _ Hq (entry_public g tbl states entries Haut nt0 e Hent)) as (-> & m & Hr & _).
  rewrite Hr in Hk. inversion Hk as [|tr' l X Xs Ht Hl]; subst. inversion Hl; subst.
  destruct (complete_run g Hwf tbl states entries Haut nt0 e Hent act Hact cl Hcomp Hno tr' m q (yield tr') Hq Hr Ht eq_refl)
    as (s1 & Hrun & Hacc).
  cbn in Hy. rewrite app_nil_r in Hy. rewrite Hy in Hrun.
  assert (Hfin : forall d, ~ astep g states act cl ([s1; e], [tr'], []) d) by (intro d; apply accept_final; auto).
  pose proof (asteps_through _ _ _ Hts Hrun Hfin) as H. inversion H as [x Hx Hy'|x y z Hs1 Hs2]; subst.
  - inversion Hpk; subst. congruence.
  - inversion Hs1; subst.
    + inversion Hpk; subst. congruence.
    + match goal with H : peek cl rest ?la0 |- _ => rewrite (peek_fun cl _ _ _ Hpk H) end. congruence.
Qed.
End Prefix.

Section Listed.
Context {A : Type}.
Variable g : grammar A.
Hypothesis Hwf : wf_grammar g.
Variable tbl : first_table.
Variable states : list lr1_state.
Variable entries : list (nat * nat).
Hypothesis Haut : automaton_ok g tbl states entries.
Hypothesis Hsound : (forall n, flag tbl n = true -> nullable g n) /\ (forall n t, In t (terms tbl n) -> first_of g n t).
Variables nt0 e : nat.
Hypothesis Hent : In (nt0, e) entries.
Variable act : nat -> option nat -> option aact.
Hypothesis Hact : act_ok g states act.

(** A table entry in the top state: what follows the stack. *)
Theorem listed_continuation pi s ss la : stack_path states e pi (s :: ss) -> act s la <> None ->
  exists z, derives g [NT nt0] (rev pi ++ z) /\ match la with Some t => exists z', z = T t :: z' | None => z = [] end.
Proof.
  intros Hp Ha. destruct (valid_items g tbl states entries Haut nt0 e Hent _ _ Hp) as (s' & ss' & st & Heq & Hst & _ & Hi).
  inversion Heq; subst s' ss'; clear Heq.
  assert (Hit : forall it q, In it (st_items st) -> get_production g (it_nt it) (it_prod it) = Some q ->
    exists delta z, rev pi = delta ++ firstn (it_cursor it) (rhs q) /\ derives g [NT nt0] (delta ++ rhs q ++ z) /\
      match it_la it with Some t => exists z', z = T t :: z' | None => z = [] end).
  { intros it q Hin Hq. destruct (proj1 (Hi it) Hin) as (d & Hv).
    pose proof (valid_lr1 g tbl Hsound nt0 _ _ _ Hv) as Hl. unfold iv in Hl.
    destruct (lr1_sentential g _ _ _ _ _ _ Hl _ Hq) as (delta & z & Hg & Hd & Hz).
    exists delta, z. split; auto. split; auto. eapply derives_trans; [exact Hd|].
    apply (derives_ctx g delta z [NT (it_nt it)] (rhs q)). eapply derives_prod; eauto. }
  destruct (act s la) as [a|] eqn:E; [|congruence].
  destruct (ac_inv _ _ _ Hact _ _ _ E) as (st' & Hst' & Hm). assert (st' = st) by congruence. subst st'.
  destruct a as [n|n p|].
  - destruct Hm as (it & t & -> & Hin & Hn & _).
    destruct (next_symbol_production g _ _ Hn) as (q & Hq & Hk).
    destruct (Hit _ _ Hin Hq) as (delta & z & Hg & Hd & _).
    exists (T t :: skipn (it_cursor it + 1) (rhs q) ++ z). split; [|eauto]. rewrite Hg, <- app_assoc.
    replace (firstn (it_cursor it) (rhs q) ++ T t :: skipn (it_cursor it + 1) (rhs q) ++ z) with (rhs q ++ z); auto.
    clear -Hk. revert Hk. generalize (rhs q) (it_cursor it). induction l as [|a l IHl]; intros [|k] Hk; try discriminate.
    + inversion Hk; reflexivity.
    + cbn. f_equal. apply IHl. exact Hk.
  - destruct Hm as (it & Hin & (Hr1 & Hr2) & <- & <- & <-).
    destruct (proj1 (Hi it) Hin) as (d & Hv). destruct (valid_prod g Hwf tbl states entries Haut nt0 e Hent _ _ _ Hv) as (q & Hq & Hle).
    destruct (Hit _ _ Hin Hq) as (delta & z & Hg & Hd & Hz). exists z. split; auto.
    rewrite Hg, <- app_assoc. rewrite firstn_all2; auto.
    unfold is_complete in Hr1. apply Nat.eqb_eq in Hr1. rewrite (item_rhs_prod g it q Hq) in Hr1. lia.
  - destruct Hm as (-> & it & Hin & (Hpub & Hc1 & Hla)).
    destruct (proj1 (Hi it) Hin) as (d & Hv). destruct (valid_prod g Hwf tbl states entries Haut nt0 e Hent _ _ _ Hv) as (q & Hq & Hle).
    destruct (Hit _ _ Hin Hq) as (delta & z & Hg & Hd & Hz). exists z. rewrite Hla in Hz. split; auto.
    rewrite Hg, <- app_assoc, firstn_all2; auto.
    destruct (wf_public_prod g Hwf _ _ _ Hq Hpub) as (_ & m & Hr & _). rewrite Hr, Hc1. cbn. lia.
Qed.
End Listed.
