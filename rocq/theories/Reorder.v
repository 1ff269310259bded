(** * Reorder: the order of declarations does not change the grammar *)
From Verif Require Export GenSpec.
From Coq Require Import FinFun.

Section Reorder.
Context {A : Type}.
Notation nonterm := (ast_non_terminal A).

Lemma Forall2_flip {X Y} (R : X -> Y -> Prop) l l' : Forall2 R l l' -> Forall2 (fun y x => R x y) l' l.
Proof. induction 1; constructor; auto. Qed.
Lemma Forall2_perm_l {X Y} (R : X -> Y -> Prop) l1 l2 : Permutation l1 l2 -> forall m, Forall2 R l2 m ->
  exists m', Permutation m m' /\ Forall2 R l1 m'.
Proof.
  induction 1 as [|x l1 l2 Hp IH|x y l|l1 l2 l3 H1 IH1 H2 IH2]; intros m HF.
  - inversion HF; subst. exists []. auto.
  - inversion HF as [|a b la lb Hab HF' E1 E2]; subst. destruct (IH _ HF') as (m' & Hm & HF2). exists (b :: m'). auto.
  - inversion HF as [|a b la lb Hab HF']; subst. inversion HF' as [|a' b' la' lb' Hab' HF'']; subst. exists (b' :: b :: lb').
    split; [apply perm_swap|repeat constructor; auto].
  - destruct (IH2 _ HF) as (m1 & P1 & F1). destruct (IH1 _ F1) as (m2 & P2 & F2). exists m2. split; auto. eapply perm_trans; eauto.
Qed.
Lemma reordered_sym (ns ns' : list nonterm) : reordered ns ns' -> reordered ns' ns.
Proof.
  intros (ms & Hp & HF). apply Forall2_perm_l with (l1 := ns) in HF; [|exact Hp]. destruct HF as (m' & Hm & HF).
  exists m'. split; auto. apply Forall2_flip in HF. clear - HF. induction HF as [|a b la lb Hab HF IH]; constructor; auto.
  destruct Hab as (H1 & H2 & H3 & H4). repeat split; auto. apply Permutation_sym; auto.
Qed.

Lemma uproduction_perm (ns ms : list nonterm) : NoDup (map an_name ns) -> Permutation ns ms ->
  forall n p, uproduction ns n p = uproduction ms n p.
Proof.
  intros Hn Hp n p. unfold uproduction.
  assert (E : find (fun N => String.eqb (an_name N) n) ns = find (fun N => String.eqb (an_name N) n) ms); [|rewrite E; reflexivity].
  induction Hp as [|x l1 l2 Hp IH|x y l|l1 l2 l3 H1 IH1 H2 IH2]; cbn; auto.
  - inversion Hn; subst. destruct (String.eqb (an_name x) n); auto.
  - destruct (String.eqb (an_name x) n) eqn:E1, (String.eqb (an_name y) n) eqn:E2; auto.
    apply String.eqb_eq in E1, E2. inversion Hn; subst. exfalso. match goal with H : ~ In _ _ |- _ => apply H end. left. congruence.
  - rewrite IH1; auto. apply IH2. eapply Permutation_NoDup; [apply Permutation_map; exact H1|exact Hn].
Qed.

Lemma renumbering (ns ns' : list nonterm) : NoDup (map an_name ns) -> reordered ns ns' ->
  exists sigma : string -> nat -> nat, (forall n, Injective (sigma n)) /\ forall n p, uproduction ns' n p = uproduction ns n (sigma n p).
Proof.
  intros Hn (ms & Hp & HF). assert (Hm : forall n p, uproduction ns n p = uproduction ms n p) by (apply uproduction_perm; auto).
  assert (H : exists sigma : string -> nat -> nat, (forall n, Injective (sigma n)) /\ forall n p, uproduction ns' n p = uproduction ms n (sigma n p)).
  { clear Hm Hn Hp. induction HF as [|N M ms ns' (E1 & E2 & E3 & E4) HF (sigma & S1 & S2)].
    - exists (fun _ p => p). split; [intros n x y H; exact H|]. reflexivity.
    - apply Permutation_nth_error in E4. destruct E4 as (_ & f & Hf & Hnth).
      exists (fun n => if String.eqb (an_name N) n then f else sigma n). split.
      + intro n. destruct (String.eqb (an_name N) n); auto.
      + intros n p. specialize (S2 n p). unfold uproduction in *. cbn [find]. rewrite <- E1.
        destruct (String.eqb (an_name N) n); [apply Hnth|exact S2]. }
  destruct H as (sigma & S1 & S2). exists sigma. split; auto. intros n p. rewrite S2, Hm. reflexivity.
Qed.

Lemma reordered_names (ns ns' : list nonterm) : NoDup (map an_name ns) -> reordered ns ns' -> NoDup (map an_name ns').
Proof.
  intros Hn (ms & Hp & HF). assert (E : map an_name ns' = map an_name ms).
  { clear - HF. induction HF as [|N M ms ns' (E1 & _) HF IH]; cbn; congruence. }
  rewrite E. eapply Permutation_NoDup; [apply Permutation_map; exact Hp|exact Hn].
Qed.
Lemma reordered_declared (ns ns' : list nonterm) : reordered ns ns' -> forall M, In M ns' -> exists N, In N ns /\ an_name N = an_name M /\ an_pub N = an_pub M.
Proof.
  intros (ms & Hp & HF) M HM. assert (H : exists N, In N ms /\ an_name N = an_name M /\ an_pub N = an_pub M).
  { clear Hp. induction HF as [|N M' ms ns' (E1 & E2 & E3 & E4) HF IH]; [contradiction|]. destruct HM as [->|HM].
    - exists N. split; [left|]; auto.
    - destruct (IH HM) as (K & HK & H1). exists K. split; [right|]; auto. }
  destruct H as (N & HN & H). exists N. split; auto. eapply Permutation_in; [apply Permutation_sym; exact Hp|exact HN].
Qed.

(** Everything that holds of [ns'] holds of [ns] with production numbers changed by [sigma]. *)
Section Transfer.
Variables ns ns' : list nonterm.
Variable sigma : string -> nat -> nat.
Hypothesis Hs : forall n p, uproduction ns' n p = uproduction ns n (sigma n p).

Lemma uderives_transfer l r : uderives ns' l r -> uderives ns l r.
Proof.
  induction 1 as [l|l m r Hd Hds IH]; [constructor|]. inversion Hd as [a n p pr b Hp]; subst.
  rewrite Hs in Hp. econstructor; [econstructor; exact Hp|exact IH].
Qed.
Lemma uin_first_transfer l la x : uin_first ns' l la x -> uin_first ns l la x.
Proof.
  intros [(t & r & -> & H)|(H & ->)]; [left|right].
  - exists t, r. split; auto. apply uderives_transfer; auto.
  - split; auto. apply uderives_transfer; auto.
Qed.
Definition sigma_of (lhs : option string) (p : nat) : nat := match lhs with Some n => sigma n p | None => p end.
Lemma urhs_transfer S lhs p : urhs ns' S lhs p = urhs ns S lhs (sigma_of lhs p).
Proof. destruct lhs as [n|]; cbn; [rewrite Hs|]; reflexivity. Qed.
Lemma ulr1_valid_transfer S gamma lhs p k la : ulr1_valid ns' S gamma lhs p k la -> ulr1_valid ns S gamma lhs (sigma_of lhs p) k la.
Proof.
  induction 1 as [|gamma lhs p k la l C q l' x Hv IH Hr Hn Hq Hf|gamma lhs p k la l X Hv IH Hr Hn].
  - constructor.
  - rewrite urhs_transfer in Hr. rewrite urhs_transfer in Hq. eapply ulv_closure; eauto using uin_first_transfer.
  - rewrite urhs_transfer in Hr. eapply ulv_move; eauto.
Qed.
Lemma ulr1_transfer : (forall n, Injective (sigma n)) -> reordered ns ns' -> ulr1_grammar ns -> ulr1_grammar ns'.
Proof.
  intros Hinj Hre H M gamma HM Hpub. destruct (reordered_declared ns ns' Hre M HM) as (N & HN & En & Ep).
  rewrite <- En. rewrite <- Ep in Hpub. destruct (H N gamma HN Hpub) as (H1 & H2).
  assert (Hred : forall a p la, ulr1_reduces ns' (an_name N) gamma a p la -> ulr1_reduces ns (an_name N) gamma a (sigma_of a p) la).
  { intros a p la (l & Hl & Hv). exists l. rewrite <- urhs_transfer. split; auto. apply ulr1_valid_transfer; auto. }
  split.
  - intros a p b q la Ha Hb. apply Hred in Ha, Hb. destruct (H1 _ _ _ _ _ Ha Hb) as (-> & E). split; auto.
    destruct b as [n|]; cbn in E; auto. apply Hinj in E. exact E.
  - intros a p t Ha (lhs & q & k & la & l & Hv & Hr & Hk). apply (H2 _ _ _ (Hred _ _ _ Ha)).
    exists lhs, (sigma_of lhs q), k, la, l. rewrite <- urhs_transfer. split; auto. apply ulr1_valid_transfer; auto.
Qed.
Lemma in_tail_transfer m : in_tail ns' m -> in_tail ns m.
Proof. intros (n & p & pr & X & l & Hp & Hb & Hi). rewrite Hs in Hp. exists n, (sigma n p), pr, X, l. auto. Qed.
Lemma tails_plain_transfer : tails_plain ns -> tails_plain ns'.
Proof.
  intros (R & H1 & H2). exists R. split; [intros m Hm; apply H1, in_tail_transfer; auto|].
  intros n p pr m l Hn Hp Hb. rewrite Hs in Hp. destruct (H2 _ _ _ _ _ Hn Hp Hb) as (H3 & H4). split; auto.
  intro Hu. apply H3. apply uderives_transfer. exact Hu.
Qed.

Context {Tok V W : Type}.
Variable class : Tok -> option string.
Variable fields : Tok -> list V.
Variable usem : A -> list (string * bval V) -> W -> option (V * W).
Lemma tree_transfer :
  (forall t s, utree_of ns' class t s -> exists t', utree_of ns class t' s /\ uyield t' = uyield t /\ forall w, ueval ns fields usem t' w = ueval ns' fields usem t w) /\
  (forall ts ss, uforest_of ns' class ts ss -> exists ts', uforest_of ns class ts' ss /\ flat_map uyield ts' = flat_map uyield ts /\
     forall w, ueval_list (ueval ns fields usem) ts' w = ueval_list (ueval ns' fields usem) ts w).
Proof.
  apply utree_uforest_ind.
  - intros t b s _ (t' & H1 & H2 & H3). exists t'. split; [constructor; auto|auto].
  - intros tok s Hc. exists (ULeaf tok). split; [constructor; auto|]. split; reflexivity.
  - intros nt p kids pr Hp _ (ts' & H1 & H2 & H3). pose proof Hp as Hp'. rewrite Hs in Hp'. exists (UNode nt (sigma nt p) ts').
    split; [econstructor; eauto|]. split; [exact H2|]. intro w. cbn [ueval]. rewrite Hp, Hp', H3. reflexivity.
  - exists []. split; [constructor|split; reflexivity].
  - intros t ts s ss _ (t' & H1 & H2 & H3) _ (ts' & H4 & H5 & H6). exists (t' :: ts'). split; [constructor; auto|].
    split; [cbn; congruence|]. intro w. cbn [ueval_list]. rewrite H3. destruct (ueval ns' fields usem t w) as [[v w1]|]; auto. rewrite H6. reflexivity.
Qed.
End Transfer.
End Reorder.

(** ** Token entries *)
Lemma first_match_In cs tok s fs : first_match cs tok = Some (s, fs) -> exists c, In c cs /\ cv_from c = s /\ pmatch (cv_to c) tok = Some fs.
Proof.
  induction cs as [|c cs IH]; cbn; [discriminate|]. destruct (pmatch (cv_to c) tok) as [fs'|] eqn:E.
  - intro H. injection H as <- <-. exists c. auto.
  - intro H. destruct (IH H) as (d & H1 & H2). exists d. auto.
Qed.
Lemma first_match_None cs tok : first_match cs tok = None -> forall c, In c cs -> pmatch (cv_to c) tok = None.
Proof.
  induction cs as [|c cs IH]; cbn; [contradiction|]. destruct (pmatch (cv_to c) tok) as [fs'|] eqn:E; [discriminate|].
  intros H d [<-|Hd]; auto.
Qed.
Lemma first_match_perm cs cs' tok : Permutation cs cs' -> disjoint_patterns cs -> first_match cs tok = first_match cs' tok.
Proof.
  intros Hp Hd. destruct (first_match cs tok) as [[s fs]|] eqn:E1, (first_match cs' tok) as [[s' fs']|] eqn:E2; auto.
  - apply first_match_In in E1, E2. destruct E1 as (c & Hc & Hf & Hm), E2 as (c' & Hc' & Hf' & Hm').
    assert (c = c').
    { apply (Hd tok c c'); auto; [eapply Permutation_in; [apply Permutation_sym; exact Hp|exact Hc']|congruence|congruence]. }
    subst c'. congruence.
  - apply first_match_In in E1. destruct E1 as (c & Hc & Hf & Hm). rewrite (first_match_None _ _ E2 c (Permutation_in _ Hp Hc)) in Hm. discriminate.
  - apply first_match_In in E2. destruct E2 as (c & Hc & Hf & Hm).
    rewrite (first_match_None _ _ E1 c (Permutation_in _ (Permutation_sym Hp) Hc)) in Hm. discriminate.
Qed.
