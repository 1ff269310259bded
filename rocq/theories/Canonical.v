(** * Canonical: the ideal LR(1) machine of a grammar (Knuth's construction with the true FIRST sets),
    used as a yardstick: LR(1) grammars are unambiguous, and a parser all of whose moves are moves of the
    ideal machine cannot reduce forever.  Nothing here depends on what the macro computes. *)
From Verif Require Export Lr1Proofs.

Section Canonical.
Context {A Tok : Type}.
Variable g : grammar A.
Hypothesis Hwf : wf_grammar g.
Variable S0 : nat.
Hypothesis HS : is_entry g S0.
Variable class : Tok -> option nat.
Notation peek := (peek class).

(** Symbols recognised so far (last first), their trees, remaining input. *)
Definition iconf : Type := list symbol * list (tree Tok) * list Tok.

Inductive istep : iconf -> iconf -> Prop :=
| is_shift : forall pi ts tok toks t,
    class tok = Some t -> lr1_shifts g S0 (rev pi) t ->
    istep (pi, ts, tok :: toks) (T t :: pi, Leaf tok :: ts, toks)
| is_reduce : forall pi ts toks la n p pr,
    peek toks la -> lr1_reduces g S0 (rev pi) n p la -> n <> S0 -> get_production g n p = Some pr ->
    istep (pi, ts, toks)
          (NT n :: skipn (List.length (rhs pr)) pi,
           Node n p (rev (firstn (List.length (rhs pr)) ts)) :: skipn (List.length (rhs pr)) ts, toks).

Inductive isteps : nat -> iconf -> iconf -> Prop :=
| iss_refl : forall c, isteps 0 c c
| iss_step : forall n a b c, istep a b -> isteps n b c -> isteps (S n) a c.

Lemma isteps_trans n a b : isteps n a b -> forall m c, isteps m b c -> isteps (n + m) a c.
Proof. induction 1; intros; simpl; auto. econstructor; eauto. Qed.
Lemma isteps_one a b : istep a b -> isteps 1 a b.
Proof. intro. econstructor; eauto. constructor. Qed.
Definition reaches (a b : iconf) : Prop := exists n, isteps n a b.
Lemma reaches_trans a b c : reaches a b -> reaches b c -> reaches a c.
Proof. intros (n & H) (m & H'). exists (n + m). eapply isteps_trans; eauto. Qed.
Lemma reaches_one a b : istep a b -> reaches a b.
Proof. exists 1. apply isteps_one; auto. Qed.
Lemma reaches_refl a : reaches a a.
Proof. exists 0. constructor. Qed.

Lemma tail_in_first ts Xs : wf_forest g class ts Xs -> forall toks la x, peek toks la ->
  peek (yields ts ++ toks) x -> in_first g Xs la x.
Proof.
  intros Hw toks la x Hla Hx. apply in_first_iff.
  destruct (proj2 (tree_first g class) _ _ Hw) as [H1 H2].
  destruct (yields ts) as [|tok w] eqn:E.
  - right. split; auto. simpl in Hx. eapply peek_fun; eauto.
  - left. simpl in Hx. inversion Hx; subst. exists t. split; auto. eapply H2; eauto.
Qed.

Lemma entry_not_rhs n p pr : get_production g n p = Some pr -> ~ In (NT S0) (rhs pr).
Proof.
  intros Hp Hin. pose proof (wfg_nt g Hwf _ _ _ _ Hp Hin) as Hpriv.
  destruct HS as (N & HN & Hpub). eapply public_private_excl; [|exact Hpriv]. exists N; auto.
Qed.

Lemma isimulate :
  (forall tr X, wf_tree g class tr X -> forall pi ts toks B p k la' la pr,
     lr1_valid g S0 (rev pi) B p k la' -> get_production g B p = Some pr ->
     nth_error (rhs pr) k = Some X -> peek toks la -> in_first g (skipn (k + 1) (rhs pr)) la' la ->
     reaches (pi, ts, yield tr ++ toks) (X :: pi, tr :: ts, toks)) /\
  (forall kids Xs, wf_forest g class kids Xs -> forall pi ts toks B p k la pr,
     lr1_valid g S0 (rev pi) B p k la -> get_production g B p = Some pr ->
     skipn k (rhs pr) = Xs -> peek toks la ->
     reaches (pi, ts, yields kids ++ toks) (rev Xs ++ pi, rev kids ++ ts, toks) /\
     lr1_valid g S0 (rev (rev Xs ++ pi)) B p (k + List.length Xs) la).
Proof.
  apply wf_tree_forest_ind.
  - intros tok t Hc pi ts toks B p k la' la pr Hv Hp Hk Hpk Hf. apply reaches_one. simpl.
    constructor; auto. exists B, p, k, la', pr. auto.
  - intros n q kids pr' Hq Hw IH pi ts toks B p k la' la pr Hv Hp Hk Hpk Hf.
    assert (Hv0 : lr1_valid g S0 (rev pi) n q 0 la) by (eapply lv_closure; eauto).
    destruct (IH pi ts toks n q 0 la pr' Hv0 Hq eq_refl Hpk) as [Hr Hv1].
    eapply reaches_trans; [exact Hr|]. apply reaches_one. simpl in Hv1.
    pose proof (wf_forest_length g class _ _ Hw) as Hlen.
    assert (Hn : n <> S0).
    { intro E. subst n. eapply entry_not_rhs; eauto. eapply nth_error_In; eauto. }
    pose proof (is_reduce (rev (rhs pr') ++ pi) (rev kids ++ ts) toks la n q pr' Hpk
                  (ex_intro _ pr' (conj Hq Hv1)) Hn Hq) as Hst.
    rewrite <- (rev_length (rhs pr')) in Hst at 1. rewrite skipn_app, Nat.sub_diag, skipn_all in Hst. simpl in Hst.
    rewrite <- Hlen in Hst. rewrite <- (rev_length kids) in Hst.
    rewrite firstn_app, skipn_app, Nat.sub_diag, firstn_all, skipn_all in Hst. simpl in Hst.
    rewrite app_nil_r, rev_involutive in Hst. exact Hst.
  - intros pi ts toks B p k la pr Hv Hp Hsk Hpk. simpl. rewrite Nat.add_0_r. split; auto. apply reaches_refl.
  - intros tr kids X Xs Ht IH1 Hts IH2 pi ts toks B p k la pr Hv Hp Hsk Hpk.
    assert (HX : nth_error (rhs pr) k = Some X /\ skipn (k + 1) (rhs pr) = Xs).
    { clear - Hsk. revert k Hsk. induction (rhs pr) as [|Y l IH]; intros [|k] H; simpl in *; try discriminate.
      - inversion H; auto.
      - apply IH; auto. }
    destruct HX as [HX Hsk1].
    destruct (wf_forest_peek g class _ _ toks _ Hts Hpk) as (x & Hx).
    assert (Hf : in_first g (skipn (k + 1) (rhs pr)) la x).
    { rewrite Hsk1. eapply tail_in_first; eauto. }
    pose proof (IH1 pi ts (yields kids ++ toks) B p k la x pr Hv Hp HX Hx Hf) as R1.
    assert (Hv1 : lr1_valid g S0 (rev (X :: pi)) B p (k + 1) la) by (simpl; eapply lv_move; eauto).
    destruct (IH2 (X :: pi) (tr :: ts) toks B p (k + 1) la pr Hv1 Hp Hsk1 Hpk) as [R2 Hv2].
    simpl rev. rewrite <- !app_assoc. simpl app. split.
    + unfold yields in *. simpl. rewrite <- app_assoc. eapply reaches_trans; eauto.
    + simpl List.length. rewrite <- (Nat.add_1_l (List.length Xs)), Nat.add_assoc. exact Hv2.
Qed.

Variables (m : nat) (pr0 : production A).
Hypothesis Hpr0 : get_production g S0 0 = Some pr0.
Hypothesis Hrhs0 : rhs pr0 = [NT m].

Theorem irun tr ts : wf_tree g class tr (NT m) -> reaches ([], ts, yield tr) ([NT m], tr :: ts, []).
Proof.
  intro Ht. rewrite <- (app_nil_r (yield tr)).
  eapply (proj1 isimulate tr (NT m) Ht [] ts [] S0 0 0 None None pr0); auto.
  - constructor.
  - rewrite Hrhs0; reflexivity.
  - constructor.
  - rewrite Hrhs0. simpl. apply in_first_nil.
Qed.

(** *** LR(1) grammars *)
Hypothesis Hlr1 : lr1_grammar g.

Lemma istep_fun a b c : istep a b -> istep a c -> b = c.
Proof.
  intros H1 H2. destruct (Hlr1 S0 (rev (fst (fst a))) HS) as [Hrr Hsr].
  destruct H1 as [pi ts tok toks t Hc Hs|pi ts toks la n p pr Hpk Hr Hn Hp]; inversion H2; subst; simpl in *.
  - congruence.
  - match goal with H : peek (_ :: _) _ |- _ => inversion H; subst end. exfalso.
    assert (t0 = t) by congruence. subst. eapply Hsr; eauto.
  - inversion Hpk; subst. exfalso. assert (t0 = t) by congruence. subst. eapply Hsr; eauto.
  - assert (la0 = la) by (eapply peek_fun; eauto). subst la0.
    match goal with H : lr1_reduces _ _ _ n0 p0 _ |- _ => destruct (Hrr _ _ _ _ _ Hr H) as [<- <-] end.
    assert (pr1 = pr) by congruence. subst pr1. reflexivity.
Qed.

Lemma ifinal ts b : ~ istep ([NT m], ts, []) b.
Proof.
  intro H. inversion H; subst. match goal with H : peek [] _ |- _ => inversion H; subst end.
  destruct (Hlr1 S0 [NT m] HS) as [Hrr _].
  assert (Hr : lr1_reduces g S0 [NT m] S0 0 None).
  { exists pr0. split; auto. rewrite Hrhs0. simpl. change [NT m] with ([] ++ [NT m]). change 1 with (0 + 1).
    eapply lv_move; eauto; [constructor|rewrite Hrhs0; reflexivity]. }
  simpl in *. match goal with H : lr1_reduces _ _ _ ?n ?p _, Hn : ?n <> S0 |- _ => destruct (Hrr _ _ _ _ _ H Hr) as [E _]; apply Hn; exact E end.
Qed.

Lemma isteps_final_fun n a b : isteps n a b -> forall n' c, isteps n' a c -> (forall d, ~ istep b d) -> (forall d, ~ istep c d) -> b = c /\ n = n'.
Proof.
  induction 1 as [a|n a a' b Hs Hss IH]; intros n' c Hc Hb Hcf.
  - inversion Hc; subst; auto. exfalso; eapply Hb; eauto.
  - inversion Hc as [|n1 ? a1 ? Hs1 Hss1]; subst; [exfalso; eapply Hcf; eauto|].
    rewrite <- (istep_fun _ _ _ Hs Hs1) in Hss1. destruct (IH _ _ Hss1 Hb Hcf). auto.
Qed.

(** A run to a configuration without successor bounds every run. *)
Lemma isteps_bound n a b : isteps n a b -> (forall d, ~ istep b d) -> forall k c, isteps k a c -> k <= n.
Proof.
  induction 1 as [a|n a a' b Hs Hss IH]; intros Hb k c Hc.
  - inversion Hc; subst; auto. exfalso; eapply Hb; eauto.
  - inversion Hc as [|n1 ? a1 ? Hs1 Hss1]; subst; [lia|].
    rewrite <- (istep_fun _ _ _ Hs Hs1) in Hss1. specialize (IH Hb _ _ Hss1). lia.
Qed.

(** LR(1) grammars are unambiguous. *)
Theorem lr1_unambiguous tr tr' : wf_tree g class tr (NT m) -> wf_tree g class tr' (NT m) ->
  yield tr = yield tr' -> tr = tr'.
Proof.
  intros H1 H2 Hy. destruct (irun tr [] H1) as (n1 & R1). destruct (irun tr' [] H2) as (n2 & R2).
  rewrite <- Hy in R2.
  destruct (isteps_final_fun _ _ _ R1 _ _ R2) as [E _]; [apply ifinal|apply ifinal|]. congruence.
Qed.
End Canonical.

(** ** Every valid item can be finished *)
Section Finish.
Context {A : Type}.
Variable g : grammar A.
Hypothesis Hwf : wf_grammar g.
Variable S0 : nat.
Hypothesis HS : is_entry g S0.
Variables (m : nat) (pr0 : production A).
Hypothesis Hpr0 : get_production g S0 0 = Some pr0.
Hypothesis Hrhs0 : rhs pr0 = [NT m].
Notation class := (@Some nat).

(** Every non-terminal after the first symbol of a production derives a string of terminals. *)
Definition tails_productive_g : Prop :=
  forall n p pr X l M, get_production g n p = Some pr -> rhs pr = X :: l -> In (NT M) l -> productive g M.
Hypothesis Hprod : tails_productive_g.

(** Trees from derivations. *)
Lemma derives_forest l r : derives g l r -> forall w, r = map T w ->
  exists ts, wf_forest g class ts l /\ yields ts = w.
Proof.
  induction 1 as [l|l mid r Hs Hd IH]; intros w ->.
  - induction w as [|t w (ts & H1 & H2)]; [exists []; split; [constructor|auto]|].
    exists (Leaf t :: ts). split; [constructor; auto; constructor; auto|]. unfold yields in *; simpl. congruence.
  - destruct (IH w eq_refl) as (ts & Hw & Hy). inversion Hs as [l1 n p pr r1 Hp]; subst.
    assert (Hsplit : forall a b ts, wf_forest g class ts (a ++ b) -> exists t1 t2, ts = t1 ++ t2 /\ wf_forest g class t1 a /\ wf_forest g class t2 b).
    { clear. induction a as [|X a IH]; intros b ts H; simpl in H.
      - exists [], ts. split; auto. split; [constructor|auto].
      - inversion H; subst. destruct (IH _ _ H4) as (t1 & t2 & -> & H5 & H6).
        exists (t :: t1), t2. split; auto. split; [constructor; auto|auto]. }
    destruct (Hsplit _ _ _ Hw) as (t1 & t2 & -> & Hw1 & Hw2).
    destruct (Hsplit _ _ _ Hw2) as (t3 & t4 & -> & Hw3 & Hw4).
    assert (Happ : forall a b t1 t2, wf_forest g class t1 a -> wf_forest g class t2 b -> wf_forest g class (t1 ++ t2) (a ++ b)).
    { clear. intros a b t1 t2 H1 H2. induction H1; simpl; auto. constructor; auto. }
    exists (t1 ++ Node n p t3 :: t4). split.
    + apply Happ; auto. constructor; auto. econstructor; eauto.
    + unfold yields. rewrite !flat_map_app. reflexivity.
Qed.

Lemma productive_seq l : (forall M, In (NT M) l -> productive g M) -> exists w, derives g l (map T w).
Proof.
  induction l as [|X l IH]; intro H; [exists []; constructor|].
  destruct IH as (w & Hw); [intros; apply H; right; auto|].
  assert (HX : exists v, derives g [X] (map T v)).
  { destruct X as [M|t]; [apply (H M); left; auto|]. exists [t]. constructor. }
  destruct HX as (v & Hv). exists (v ++ w). rewrite map_app. change (X :: l) with ([X] ++ l). apply derives_app; auto.
Qed.

(** Derivations keep productivity of the symbols, given productive tails everywhere and a productive start. *)
Lemma first_seq_forest l t : first_seq g l t -> (forall M, In (NT M) l -> productive g M) ->
  exists ts w, wf_forest g class ts l /\ yields ts = t :: w.
Proof.
  intros Hf Hl.
  assert (Hof : forall n t, first_of g n t -> exists tr w, wf_tree g class tr (NT n) /\ yield tr = t :: w).
  { clear t l Hf Hl.
    assert (Hnull : forall l, nullable_seq g l -> exists ts, wf_forest g class ts l /\ yields ts = []).
    { intros l H. eapply (derives_forest l [] (proj2 (nullable_derives g) _ H) []). reflexivity. }
    assert (Happ : forall a b t1 t2, wf_forest g class t1 a -> wf_forest g class t2 b -> wf_forest g class (t1 ++ t2) (a ++ b)).
    { clear. intros a b t1 t2 H1 H2. induction H1; simpl; auto. constructor; auto. }
    assert (Htail : forall n p pr l1 X r, get_production g n p = Some pr -> rhs pr = l1 ++ X :: r ->
              exists ts, wf_forest g class ts r).
    { intros n p pr l1 X r Hp Hr.
      assert (forall M, In (NT M) r -> productive g M).
      { intros M HM. destruct l1 as [|Y l1]; simpl in Hr; eapply Hprod; eauto.
        apply in_app_iff. right. right. auto. }
      destruct (productive_seq r H) as (w & Hw). destruct (derives_forest _ _ Hw w eq_refl) as (ts & H1 & _). eauto. }
    intros n t H. induction H as [n p pr l1 t r Hp Hr Hn|n p pr l1 M r t Hp Hr Hn HM (tr & w & IH1 & IH2)].
    - destruct (Hnull _ Hn) as (t1 & H1 & H2). destruct (Htail _ _ _ _ _ _ Hp Hr) as (t2 & H3).
      exists (Node n p (t1 ++ Leaf t :: t2)), (yields t2). split.
      + econstructor; eauto. rewrite Hr. apply Happ; auto. constructor; auto. constructor; auto.
      + simpl. rewrite flat_map_app. unfold yields in H2. rewrite H2. reflexivity.
    - destruct (Hnull _ Hn) as (t1 & H1 & H2). destruct (Htail _ _ _ _ _ _ Hp Hr) as (t2 & H3).
      exists (Node n p (t1 ++ tr :: t2)), (w ++ yields t2). split.
      + econstructor; eauto. rewrite Hr. apply Happ; auto. constructor; auto.
      + simpl. rewrite flat_map_app. unfold yields in H2. rewrite H2. simpl. rewrite IH2. reflexivity. }
  assert (Hrest : forall r : list symbol, (forall M, In (NT M) r -> productive g M) -> exists ts, wf_forest g class ts r).
  { intros r Hr. destruct (productive_seq r Hr) as (w & Hw). destruct (derives_forest _ _ Hw w eq_refl) as (ts & H1 & _). eauto. }
  induction Hf as [t r|M r t H|M r t Hn H IH].
  - destruct (Hrest r) as (ts & Hts); [intros; apply Hl; right; auto|].
    exists (Leaf t :: ts), (yields ts). split; [constructor; auto; constructor; auto|reflexivity].
  - destruct (Hrest r) as (ts & Hts); [intros; apply Hl; right; auto|].
    destruct (Hof _ _ H) as (tr & w & H1 & H2). exists (tr :: ts), (w ++ yields ts).
    split; [constructor; auto|]. unfold yields; simpl. rewrite H2. reflexivity.
  - destruct IH as (ts & w & H1 & H2); [intros; apply Hl; right; auto|].
    assert (Hd : derives g [NT M] (map T [])) by (apply nullable_iff; auto).
    destruct (derives_forest _ _ Hd [] eq_refl) as (t1 & H3 & H4).
    inversion H3 as [|t0 ? ? ? Ht0 Hnil]; subst. inversion Hnil; subst.
    exists (t0 :: ts), w. split; [constructor; auto|]. unfold yields in *; simpl in *. rewrite app_nil_r in H4. rewrite H4. exact H2.
Qed.

(** From the completed item some input leads the ideal machine to acceptance. *)
Lemma finish gamma B p k la : lr1_valid g S0 gamma B p k la -> forall pr, get_production g B p = Some pr ->
  exists z, peek class z la /\ forall ts, exists ts',
    reaches g S0 class (rev (skipn k (rhs pr)) ++ rev gamma, ts, z) ([NT m], ts', []).
Proof.
  induction 1 as [|gamma B p k la pr C q pr' x H IH Hp Hk Hq Hx|gamma B p k la pr X H IH Hp Hk]; intros qr Hqr.
  - exists []. split; [constructor|]. intro ts. exists ts. assert (qr = pr0) by congruence. subst. rewrite Hrhs0.
    simpl. apply reaches_refl.
  - assert (qr = pr') by congruence. subst qr. destruct (IH pr Hp) as (z & Hz & Hrun).
    assert (Htl : forall M, In (NT M) (skipn (k + 1) (rhs pr)) -> productive g M).
    { intros M HM. destruct (rhs pr) as [|Y l] eqn:E; [rewrite skipn_nil in HM; contradiction|].
      rewrite Nat.add_1_r in HM. simpl in HM. eapply Hprod; [exact Hp|exact E|]. eapply skipn_In; eauto. }
    assert (Hkids : exists kids, wf_forest g class kids (skipn (k + 1) (rhs pr)) /\ peek class (yields kids ++ z) x).
    { apply in_first_iff in Hx. destruct Hx as [(t & -> & Hx)|[Hx ->]].
      - destruct (first_seq_forest _ _ Hx Htl) as (ts & w & H1 & H2). exists ts. split; auto. rewrite H2. simpl. constructor; auto.
      - destruct (derives_forest _ [] (proj2 (nullable_derives g) _ Hx) [] eq_refl) as (ts & H1 & H2).
        exists ts. split; auto. rewrite H2. exact Hz. }
    destruct Hkids as (kids & Hw & Hpk). exists (yields kids ++ z). split; auto. intro ts.
    assert (HC : C <> S0).
    { intro E. subst C. eapply (entry_not_rhs g Hwf S0 HS _ _ _ Hp). eapply nth_error_In; eauto. }
    (* reduce C *)
    set (pi := rev gamma) in *.
    assert (Hv0 : lr1_valid g S0 (rev pi) C q 0 x).
    { unfold pi. rewrite rev_involutive. eapply lv_closure; eauto. }
    assert (Hv1 : lr1_valid g S0 (rev (rev (rhs pr') ++ pi)) C q (List.length (rhs pr')) x).
    { assert (Hgen : forall l k, skipn k (rhs pr') = l -> forall pi, lr1_valid g S0 (rev pi) C q k x ->
                 lr1_valid g S0 (rev (rev l ++ pi)) C q (k + List.length l) x).
      { clear - Hq. induction l as [|X l IH]; intros k Hk pi Hv; simpl; [rewrite Nat.add_0_r; exact Hv|].
        assert (HX : nth_error (rhs pr') k = Some X /\ skipn (k + 1) (rhs pr') = l).
        { clear - Hk. revert k Hk. induction (rhs pr') as [|Y r IH]; intros [|k] H; simpl in *; try discriminate.
          - inversion H; auto.
          - apply IH; auto. }
        destruct HX as [H1 H2]. rewrite <- app_assoc. simpl app.
        replace (k + S (List.length l)) with (k + 1 + List.length l) by lia.
        apply IH; auto. simpl. eapply lv_move; eauto. }
      exact (Hgen (rhs pr') 0 eq_refl pi Hv0). }
    pose proof (is_reduce g S0 class (rev (rhs pr') ++ pi) ts (yields kids ++ z) x C q pr' Hpk
                  (ex_intro _ pr' (conj Hq Hv1)) HC Hq) as Hst.
    rewrite <- (rev_length (rhs pr')) in Hst at 1. rewrite skipn_app, Nat.sub_diag, skipn_all in Hst. simpl in Hst.
    (* the rest of the item *)
    assert (HvB : lr1_valid g S0 (rev (NT C :: pi)) B p (k + 1) la).
    { simpl. unfold pi. rewrite rev_involutive. eapply lv_move; eauto. }
    match type of Hst with istep _ _ _ _ (_, ?tts, _) =>
      destruct (proj2 (isimulate g Hwf S0 HS class) kids _ Hw (NT C :: pi) tts z B p (k + 1) la pr HvB Hp eq_refl Hz) as [R _];
      destruct (Hrun (rev kids ++ tts)) as (ts' & R2) end.
    exists ts'. eapply reaches_trans; [apply reaches_one; exact Hst|]. eapply reaches_trans; [exact R|].
    assert (Hsk : skipn k (rhs pr) = NT C :: skipn (k + 1) (rhs pr)).
    { clear - Hk. revert k Hk. induction (rhs pr) as [|Y l IH]; intros [|k] H; simpl in *; try discriminate.
      - inversion H; auto.
      - apply IH; auto. }
    rewrite Hsk in R2. simpl in R2. rewrite <- app_assoc in R2. exact R2.
  - assert (qr = pr) by congruence. subst qr. destruct (IH pr Hp) as (z & Hz & Hrun). exists z. split; auto.
    intro ts. destruct (Hrun ts) as (ts' & R). exists ts'.
    assert (Hsk : skipn k (rhs pr) = X :: skipn (k + 1) (rhs pr)).
    { clear - Hk. revert k Hk. induction (rhs pr) as [|Y l IH]; intros [|k] H; simpl in *; try discriminate.
      - inversion H; auto.
      - apply IH; auto. }
    rewrite Hsk in R. simpl in R. rewrite rev_app_distr. rewrite <- app_assoc in R. exact R.
Qed.

(** With lookahead [la], the ideal machine reduces only finitely often from a configuration where a
    complete item is valid for [la]. *)
Hypothesis Hlr1 : lr1_grammar g.

(** One reduction step without consuming the lookahead [la], on symbols only. *)
Inductive rstep (la : option nat) : list symbol -> list symbol -> Prop :=
| rstep_intro : forall pi n p pr, lr1_reduces g S0 (rev pi) n p la -> n <> S0 -> get_production g n p = Some pr ->
    rstep la pi (NT n :: skipn (List.length (rhs pr)) pi).
Inductive rsteps (la : option nat) : nat -> list symbol -> list symbol -> Prop :=
| rss_refl : forall pi, rsteps la 0 pi pi
| rss_step : forall n a b c, rstep la a b -> rsteps la n b c -> rsteps la (S n) a c.

Lemma rsteps_isteps la n a b : rsteps la n a b -> forall z ts, peek class z la -> exists ts', isteps g S0 class n (a, ts, z) (b, ts', z).
Proof.
  induction 1 as [pi|n a b c Hs Hss IH]; intros z ts Hz; [exists ts; constructor|].
  destruct Hs as [pi n' p pr Hr Hn Hp].
  destruct (IH z (Node n' p (rev (firstn (List.length (rhs pr)) ts)) :: skipn (List.length (rhs pr)) ts) Hz) as (ts' & R).
  exists ts'. econstructor; [|exact R]. econstructor; eauto.
Qed.

Theorem reductions_bounded la pi b : rstep la pi b -> exists N, forall k c, rsteps la k pi c -> k <= N.
Proof.
  intros Hs. inversion Hs as [pi' n p pr (pr' & Hp' & Hv) Hn Hp]; subst.
  assert (pr' = pr) by congruence. subst pr'.
  destruct (finish _ _ _ _ _ Hv pr Hp) as (z & Hz & Hrun). destruct (Hrun []) as (ts' & N & R).
  rewrite skipn_all, rev_involutive in R. simpl in R.
  exists N. intros k c Hk. destruct (rsteps_isteps _ _ _ _ Hk z [] Hz) as (ts2 & R2).
  eapply isteps_bound; [exact HS|exact Hlr1|exact R| |exact R2].
  apply (ifinal g S0 HS class m pr0 Hpr0 Hrhs0 Hlr1).
Qed.
End Finish.
