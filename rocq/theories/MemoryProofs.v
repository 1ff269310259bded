(** * MemoryProofs: stacks and left parts of parse trees *)
From Verif Require Import InterleaveProofs UserProofs Decide.
From Verif Require Export MemorySpec.

Section Grow.
Context {Tok : Type}.
Notation forest := (list (utree Tok)).
Inductive grow : forest -> forest -> Prop :=
| gr_shift : forall F tok, grow F (F ++ [ULeaf tok])
| gr_reduce : forall F n p kids, grow (F ++ kids) (F ++ [UNode n p kids]).
Inductive path : nat -> forest -> forest -> Prop :=
| pa_0 : forall F, path 0 F F
| pa_S : forall n F F1 F2, grow F F1 -> path n F1 F2 -> path (S n) F F2.

Lemma path_trans m n F1 F2 F3 : path m F1 F2 -> path n F2 F3 -> path (m + n) F1 F3.
Proof. induction 1; cbn; auto. intro. econstructor; eauto. Qed.
Lemma grow_pred F1 F2 F : grow F1 F -> grow F2 F -> F1 = F2.
Proof.
  intros H1 H2. inversion H1 as [G1 x1 E1 E1'|G1 n1 p1 k1 E1 E1']; inversion H2 as [G2 x2 E2 E2'|G2 n2 p2 k2 E2 E2']; rewrite <- E1' in E2';
    apply app_inj_tail in E2'; destruct E2' as (Ea & Eb); congruence.
Qed.
Lemma grow_nonempty F : ~ grow F [].
Proof. intro H. inversion H; match goal with E : _ ++ [_] = [] |- _ => exact (app_cons_not_nil _ _ _ (eq_sym E)) end. Qed.
(** The last step of a path *)
Lemma path_last n : forall F F', path (S n) F F' -> exists G, path n F G /\ grow G F'.
Proof.
  induction n as [|n IH]; intros F F' H; inversion H as [|n0 G0 F1 F2 Hg Hp]; subst.
  - inversion Hp; subst. exists F. split; [constructor|assumption].
  - destruct (IH _ _ Hp) as (G & H1 & H2). exists G. split; auto. econstructor; eauto.
Qed.
Lemma path_back n : forall F1 F2 F, path n F1 F -> path n F2 F -> F1 = F2.
Proof.
  induction n as [|n IH]; intros F1 F2 F H1 H2; [inversion H1; inversion H2; subst; congruence|].
  apply path_last in H1. apply path_last in H2. destruct H1 as (G1 & P1 & Q1), H2 as (G2 & P2 & Q2).
  rewrite (grow_pred _ _ _ Q1 Q2) in P1. eapply IH; eauto.
Qed.
Lemma path_from_nil j : forall k f F, path k [] F -> path j f F -> j <= k.
Proof.
  induction j as [|j IH]; intros k f F Hk Hj; [lia|]. destruct k as [|k].
  - exfalso. inversion Hk; subst. destruct (path_last _ _ _ Hj) as (G & _ & Hg). exact (grow_nonempty _ Hg).
  - apply path_last in Hj. apply path_last in Hk. destruct Hj as (G1 & P1 & Q1), Hk as (G2 & P2 & Q2). rewrite (grow_pred _ _ _ Q1 Q2) in P1.
    specialize (IH _ _ _ P2 P1). lia.
Qed.

Lemma lp_kids n p done rest : left_part (UNode n p (done ++ rest) : utree Tok) done.
Proof.
  destruct (rev done) as [|k l] eqn:E.
  - apply (f_equal (@rev _)) in E. rewrite rev_involutive in E. cbn in E. subst done. constructor.
  - apply (f_equal (@rev _)) in E. rewrite rev_involutive in E. cbn in E. subst done. rewrite <- app_assoc. cbn. apply lp_down. constructor.
Qed.
Lemma grow_app D f F : f <> [] -> grow F (D ++ f) -> 
  (exists F2, F = D ++ F2 /\ grow F2 f).
Proof.
  intros Hf H. destruct (exists_last Hf) as (f' & x & ->). rewrite app_assoc in H. inversion H as [G tok E1 E2|G n p kids E1 E2]; subst;
    apply app_inj_tail in E2; destruct E2 as (-> & <-).
  - exists f'. split; auto. constructor.
  - exists (f' ++ kids). rewrite app_assoc. split; auto. constructor.
Qed.
Lemma left_part_grow t F' : left_part t F' -> forall F, grow F F' -> left_part t F.
Proof.
  induction 1 as [t|t|n p done k rest f Hf IH]; intros F Hg.
  - destruct (grow_nonempty _ Hg).
  - inversion Hg as [G tok E1 E2|G n p kids E1 E2].
    + destruct F as [|? [|]]; try discriminate. constructor.
    + destruct G as [|? [|]]; try discriminate. injection E2 as <-. cbn. rewrite <- (app_nil_r kids) at 1. apply lp_kids.
  - destruct f as [|x f].
    + rewrite app_nil_r in Hg. inversion Hg as [G tok E1 E2|G n' p' kids E1 E2]; subst.
      * rewrite <- app_assoc. apply lp_kids.
      * rewrite <- app_assoc. cbn. apply lp_down. rewrite <- (app_nil_r kids) at 1. apply lp_kids.
    + destruct (grow_app done (x :: f) F) as (F2 & -> & Hg2); [discriminate|exact Hg|]. apply lp_down. apply IH. exact Hg2.
Qed.
Lemma left_part_path n : forall t F, path n F [t] -> left_part t F.
Proof.
  intros t F H. remember [t] as F' eqn:E. induction H as [F|n F F1 F2 Hg _ IH]; subst; [constructor|]. eapply left_part_grow; [apply IH; reflexivity|exact Hg].
Qed.

(** Building a tree *)
Fixpoint builds (t : utree Tok) : forall C, exists j, path j C (C ++ [t]).
Proof.
  destruct t as [tok|n p kids].
  - intro C. exists 1. econstructor; constructor.
  - assert (Hk : forall ks C, (forall k, In k ks -> forall D, exists j, path j D (D ++ [k])) -> exists j, path j C (C ++ ks)).
    { clear. induction ks as [|k ks IH]; intros C H; [exists 0; rewrite app_nil_r; constructor|].
      destruct (H k (or_introl eq_refl) C) as (j1 & H1). destruct (IH (C ++ [k])) as (j2 & H2); [intros; apply H; right; auto|].
      exists (j1 + j2). eapply path_trans; [exact H1|]. rewrite <- app_assoc in H2. exact H2. }
    assert (Hb : forall k, In k kids -> forall D, exists j, path j D (D ++ [k])).
    { clear Hk. induction kids as [|k0 kids IH]; [intros k []|]. intros k [<-|Hin] D; [apply builds|exact (IH k Hin D)]. }
    intro C. destruct (Hk kids C Hb) as (j & Hj). exists (j + 1). eapply path_trans; [exact Hj|]. econstructor; [apply gr_reduce|constructor].
Qed.
Lemma builds_all ks : forall C, exists j, path j C (C ++ ks).
Proof.
  induction ks as [|k ks IH]; intros C; [exists 0; rewrite app_nil_r; constructor|].
  destruct (builds k C) as (j1 & H1). destruct (IH (C ++ [k])) as (j2 & H2).
  exists (j1 + j2). eapply path_trans; [exact H1|]. rewrite <- app_assoc in H2. exact H2.
Qed.
Lemma left_part_reaches t f : left_part t f -> forall C, exists j, path j (C ++ f) (C ++ [t]).
Proof.
  induction 1 as [t|t|n p done k rest f Hf IH]; intro C.
  - rewrite app_nil_r. apply builds.
  - exists 0. constructor.
  - destruct (IH (C ++ done)) as (j1 & H1). destruct (builds_all rest ((C ++ done) ++ [k])) as (j2 & H2). exists (j1 + (j2 + 1)). rewrite app_assoc.
    eapply path_trans; [exact H1|]. eapply path_trans; [exact H2|]. rewrite <- !app_assoc. cbn. econstructor; [apply gr_reduce|constructor].
Qed.
End Grow.

Section Machine.
Context {A Tok E V St : Type}.
Variable nts : list (ast_non_terminal A).
Variable first : list ast_symbol -> option string -> option string -> Prop.
Variable entries : list string.
Variable class : Tok -> option string.
Variable fields : Tok -> list V.
Variable sem : A -> list (string * bval V) -> St -> completion V * St.
Variable next : St -> option (option (Tok + E)) * St.
Variable clone : E -> St -> option E * St.
Variable start : string.
Notation plays_all := (plays_all nts fields sem next).
Notation moves := (emoves_by nts first entries class fields sem next clone start).
Notation econf := (econf Tok E V St).

Section Walk.
Variables (tk0 : option (Tok + E)) (u0 : St).
Definition holds (c : econf) (F : list (utree Tok)) : Prop :=
  uforest_of nts class F (rev (map fst (ec_stack c))) /\ plays_all F tk0 u0 (rev (map snd (ec_stack c))) (ec_token c) (ec_user c).
Lemma holds_length c F : holds c F -> List.length F = List.length (ec_stack c).
Proof. intros (H & _). rewrite (uforest_length _ _ _ _ H), rev_length, map_length. reflexivity. Qed.
Lemma grow_step c d c' F : holds c F -> decides_by nts first entries class start (ec_stack c) (ec_token c) d -> perform fields sem next clone d c = inl c' ->
  exists F', holds c' F' /\ grow F F'.
Proof.
  destruct c as [st tk u]. unfold holds. cbn [ec_stack ec_token ec_user]. intros (Hf & Hp) Hdec Hperf.
  inversion Hdec; subst; cbn [perform ec_stack ec_token ec_user] in Hperf; try discriminate.
  - destruct (next u) as [[tk'|] u'] eqn:En; [|discriminate]. injection Hperf as <-. cbn.
    exists (F ++ [ULeaf tok]). split; [split|constructor].
    + apply uforest_join; [exact Hf|]. constructor; [constructor; auto|constructor].
    + eapply plays_app; [exact Hp|]. econstructor; [constructor; exact En|constructor].
  - rewrite !map_app, !map_rev, !rev_app_distr, !rev_involutive in *.
    match goal with Hx : kreduces_by _ _ _ _ _ _ _ |- _ => destruct Hx as (Hred & _ & _) end.
    match goal with Hx : uproduction _ _ _ = Some _ |- _ => rename Hx into Hpr end.
    match goal with Hx : List.length args = _ |- _ => rename Hx into Hlen end.
    destruct (reduces_shape nts first start _ n p la pr Hred Hpr) as (alpha & rest' & Eg & _).
    assert (Ea : map fst rest = rev alpha /\ map fst args = map unnamed (ap_symbols pr)).
    { pose proof (f_equal (@List.length _) Eg) as Hl. rewrite !app_length, !map_length, Hlen in Hl.
      assert (Hl' : List.length (rev (map fst rest)) = List.length alpha) by lia.
      destruct (app_inj_length _ _ _ _ Eg Hl') as (E1 & E2). split; [rewrite <- E1, rev_involutive; reflexivity|exact E2]. }
    destruct Ea as (Er & Ea). rewrite Ea in Hf. destruct (uforest_split nts class _ _ _ Hf) as (f1 & f2 & -> & Hf1 & Hf2). apply uforest_named in Hf2.
    destruct (plays_split _ _ _ _ _ _ _ _ _ _ _ Hp) as (vs1 & vs2 & tk1 & u1 & Ev & Hp1 & Hp2).
    assert (Ev2 : vs1 = rev (map snd rest) /\ vs2 = map snd args).
    { assert (Hl : List.length vs1 = List.length (rev (map snd rest))).
      { rewrite (plays_length _ _ _ _ _ _ _ _ _ _ Hp1), (uforest_length _ _ _ _ Hf1), !rev_length, !map_length. reflexivity. }
      destruct (app_inj_length _ _ _ _ (eq_sym Ev) Hl) as (-> & ->). auto. }
    destruct Ev2 as (-> & ->).
    destruct (sem (action_expr (ap_action pr)) (ubindings (ap_symbols pr) (map snd args)) u) as [[v| |] u'] eqn:Es; try discriminate.
    injection Hperf as <-. cbn. exists (f1 ++ [UNode n p f2]). split; [split|constructor].
    + apply uforest_join; [exact Hf1|]. constructor; [econstructor; eauto|constructor].
    + eapply plays_app; [exact Hp1|]. econstructor; [econstructor; eauto|constructor].
  - destruct (clone er u) as [[er'|] u']; discriminate.
Qed.
Lemma history k : forall c0 ck F0, moves k (inl c0) (inl ck) -> holds c0 F0 ->
  exists Fk, holds ck Fk /\ forall n, n <= k -> exists cn Fn, moves n (inl c0) (inl cn) /\ holds cn Fn /\ path n F0 Fn /\ path (k - n) Fn Fk.
Proof.
  induction k as [|k IH]; intros c0 ck F0 Hm Hh.
  - inversion Hm; subst. exists F0. split; auto. intros n Hn. assert (n = 0) by lia. subst n. exists ck, F0. repeat split; try constructor; apply Hh.
  - inversion Hm as [| |n c d r Hd Hm']; subst. destruct (perform fields sem next clone d c0) as [c1|o] eqn:Ep; [|inversion Hm'].
    destruct (grow_step _ _ _ _ Hh Hd Ep) as (F1 & Hh1 & Hg). destruct (IH c1 ck F1 Hm' Hh1) as (Fk & Hk & Hall).
    exists Fk. split; auto. intros n Hn. destruct n as [|n].
    + destruct (Hall 0) as (cn & Fn & H1 & _ & H3 & H4); [lia|]. inversion H3; subst. exists c0, F0. split; [constructor|]. split; [exact Hh|]. split; [constructor|].
      rewrite Nat.sub_0_r in *. econstructor; eauto.
    + destruct (Hall n) as (cn & Fn & H1 & H2 & H3 & H4); [lia|]. exists cn, Fn. split; [econstructor; [exact Hd|rewrite Ep; exact H1]|]. split; auto. split; [econstructor; eauto|exact H4].
Qed.
End Walk.

(** The configuration before accepting *)
Lemma accepts_from m : forall x v u', moves m x (inr (XOutcome (POk v) u')) -> (exists c, x = inl c) ->
  exists k ck, moves (S k) x (inr (XOutcome (POk v) u')) /\ moves k x (inl ck) /\ ec_stack ck = [(ASNonTerminal start, BVal v)] /\ ec_token ck = None /\ ec_user ck = u'.
Proof.
  induction m as [|m IH]; intros x v u' H (c & ->); [inversion H|].
  inversion H as [| |n c' d r Hd Hm]; subst. destruct (perform fields sem next clone d c) as [c1|o] eqn:Ep.
  - destruct (IH _ _ _ Hm) as (k & ck & Hk & H1 & H2); [eauto|]. exists (S k), ck. split; [econstructor; [exact Hd|rewrite Ep; exact Hk]|]. split; [econstructor; [exact Hd|rewrite Ep; exact H1]|exact H2].
  - assert (o = XOutcome (POk v) u') by (inversion Hm; congruence). subst o. exists 0, c. split; [econstructor; [exact Hd|rewrite Ep; constructor]|]. split; [constructor|].
    destruct c as [st tk u]. cbn in *. inversion Hd; subst; cbn in Ep.
    + destruct (next u) as [[?|] ?]; discriminate.
    + destruct (sem _ _ _) as [[?| |] ?]; discriminate.
    + injection Ep as <- <-. auto.
    + discriminate.
    + destruct (clone er u) as [[?|] ?]; discriminate.
    + discriminate.
Qed.
Lemma moves_done n o : moves n (inr o) (inr o).
Proof. destruct n; constructor. Qed.
Lemma moves_longer m : forall x o, moves m x (inr o) -> forall n, m <= n -> moves n x (inr o).
Proof.
  induction m as [|m IH]; intros x o H n Hn.
  - inversion H; subst. apply moves_done.
  - destruct n as [|n]; [lia|]. inversion H; subst; [constructor|]. econstructor; eauto. apply IH; auto. lia.
Qed.

(** ** Heights *)
Section Height.
Variable B : nat.
Hypothesis HB : forall k n, inside nts start k n -> k < B /\ forall p pr, uproduction nts n p = Some pr -> k + List.length (ap_symbols pr) <= B.
Lemma inside_trans a i b j c : inside nts a i b -> inside nts b j c -> inside nts a (i + j) c.
Proof. induction 1; auto. intro. rewrite <- Nat.add_assoc. econstructor; eauto. Qed.
Lemma valid_inside gamma lhs p k la : uvalid_by nts first start gamma lhs p k la ->
  match lhs with
  | Some n => exists alpha l, urhs nts start lhs p = Some l /\ k <= List.length l /\ gamma = alpha ++ firstn k l /\ inside nts start (List.length alpha) n
  | None => List.length gamma = k
  end.
Proof.
  induction 1 as [|gamma lhs p k la l C q l' x Hv IH Hl Hn Hl' _|gamma lhs p k la l X Hv IH Hl Hn].
  - reflexivity.
  - exists gamma, l'. split; [exact Hl'|]. split; [lia|]. split; [cbn; rewrite app_nil_r; reflexivity|].
    destruct lhs as [n|].
    + destruct IH as (alpha & l0 & Hl0 & Hk & -> & H1). assert (l0 = l) by congruence. subst l0.
      cbn in Hl. destruct (uproduction nts n p) as [pr|] eqn:Hpr; [|discriminate]. cbn in Hl. injection Hl as <-.
      rewrite app_length, firstn_length, Nat.min_l by exact Hk. eapply inside_trans; [exact H1|].
      rewrite <- (Nat.add_0_r k). econstructor; [exact Hpr|exact Hn|constructor].
    + cbn in Hl. destruct (Nat.eqb p 0); [|discriminate]. injection Hl as <-. destruct k as [|[|k]]; try discriminate. cbn in Hn. injection Hn as <-. rewrite IH. constructor.
  - destruct lhs as [n|].
    + destruct IH as (alpha & l0 & Hl0 & Hk & -> & H1). assert (l0 = l) by congruence. subst l0. exists alpha, l. split; [exact Hl|].
      assert (Hlt : k < List.length l) by (apply nth_error_Some; congruence). split; [lia|]. split; [|auto]. rewrite <- app_assoc. f_equal. clear - Hn. revert l Hn.
      induction k as [|k IH]; intros [|y l] Hn; try discriminate; cbn in *; [congruence|f_equal; auto].
    + rewrite app_length, IH. reflexivity.
Qed.
Lemma height_step (c : econf) d c' : List.length (ec_stack c) <= B -> decides_by nts first entries class start (ec_stack c) (ec_token c) d ->
  perform fields sem next clone d c = inl c' -> List.length (ec_stack c') <= B.
Proof.
  destruct c as [st tk u]. cbn [ec_stack ec_token]. intros Hb Hdec Hperf.
  inversion Hdec; subst; cbn [perform ec_stack ec_token ec_user] in Hperf; try discriminate.
  - destruct (next u) as [[tk'|] u'] eqn:En; [|discriminate]. injection Hperf as <-. cbn [ec_stack List.length].
    match goal with Hx : kshifts_by _ _ _ _ _ |- _ => destruct Hx as (t0 & Et & lhs & p & k & la & l & Hv & Hl & Hn) end. injection Et as <-.
    pose proof (valid_inside _ _ _ _ _ Hv) as Hw. destruct lhs as [n|].
    + destruct Hw as (alpha & l0 & Hl0 & Hk & Eg & H1). assert (l0 = l) by congruence. subst l0.
      assert (Hlt : k < List.length l) by (apply nth_error_Some; congruence).
      apply (f_equal (@List.length _)) in Eg. rewrite rev_length, map_length, app_length, firstn_length in Eg.
      cbn in Hl. destruct (uproduction nts n p) as [pr|] eqn:Hpr; [|discriminate]. cbn in Hl. injection Hl as <-.
      pose proof (proj2 (HB _ _ H1) _ _ Hpr) as Hlen. unfold body in *. rewrite map_length in *. lia.
    + exfalso. cbn in Hl. destruct (Nat.eqb p 0); [|discriminate]. injection Hl as <-. destruct k as [|[|k]]; discriminate.
  - match goal with Hx : kreduces_by _ _ _ _ _ _ _ |- _ => destruct Hx as ((l & Hl & Hv) & _ & _) end.
    destruct (sem _ _ _) as [[v| |] u'] eqn:Es; try discriminate. injection Hperf as <-. cbn [ec_stack List.length].
    destruct (valid_inside _ _ _ _ _ Hv) as (alpha & l0 & Hl0 & _ & Eg & Hin). assert (l0 = l) by congruence. subst l0.
    apply (f_equal (@List.length _)) in Eg. rewrite firstn_all, rev_length, map_length, !app_length, rev_length in Eg.
    cbn in Hl. match goal with Hx : uproduction _ _ _ = Some _ |- _ => rewrite Hx in Hl end. cbn in Hl. injection Hl as <-. unfold body in Eg. rewrite map_length in Eg.
    pose proof (proj1 (HB _ _ Hin)). lia.
  - destruct (clone er u) as [[er'|] u']; discriminate.
Qed.
Lemma height_moves n : forall c c', moves n (inl c) (inl c') -> List.length (ec_stack c) <= B -> List.length (ec_stack c') <= B.
Proof.
  induction n as [|n IH]; intros c c' H Hc; inversion H as [| |n0 c0 d r Hd Hm]; subst; auto.
  destruct (perform fields sem next clone d c) as [c1|o] eqn:Ep; [|inversion Hm]. eapply IH; [exact Hm|]. eapply height_step; eauto.
Qed.
End Height.

Lemma moves_grow n : forall c c', moves n (inl c) (inl c') -> List.length (ec_stack c') <= List.length (ec_stack c) + n.
Proof.
  induction n as [|n IH]; intros c c' H; inversion H as [| |n0 c0 d r Hd Hm]; subst; [lia|].
  destruct (perform fields sem next clone d c) as [c1|o] eqn:Ep; [|inversion Hm]. specialize (IH _ _ Hm).
  assert (List.length (ec_stack c1) <= S (List.length (ec_stack c))); [|lia].
  destruct c as [st tk u]. cbn [ec_stack ec_token] in *. clear - Hd Ep. inversion Hd; subst; cbn in Ep; try discriminate.
  - destruct (next u) as [[tk'|] u']; [|discriminate]. injection Ep as <-. cbn. lia.
  - destruct (sem _ _ _) as [[v| |] u']; try discriminate. injection Ep as <-. cbn. rewrite app_length. lia.
  - destruct (clone er u) as [[er'|] u']; discriminate.
Qed.

(** ** Counting tokens *)
Section Count.
Hypothesis Hne : no_empty_production nts.
Lemma yield_nonempty :
  (forall t s, utree_of nts class t s -> 1 <= List.length (uyield t)) /\
  (forall ts ss, uforest_of nts class ts ss -> List.length ts <= List.length (flat_map uyield ts)).
Proof.
  apply utree_uforest_ind.
  - auto.
  - cbn. auto.
  - intros nt p kids pr Hpr Hk IH. cbn. pose proof (Hne _ _ _ Hpr) as Hn. apply uforest_length in Hk. destruct (ap_symbols pr); [contradiction|]. cbn in Hk. lia.
  - auto.
  - intros t ts s ss _ H1 _ H2. cbn. rewrite app_length. lia.
Qed.
End Count.
Lemma plays_log log : records sem next clone log ->
  (forall t tk u b tk' u', plays nts fields sem next t tk u b tk' u' -> exists rs, log u' = log u ++ rs /\ List.length rs = List.length (uyield t)) /\
  (forall ts tk u vs tk' u', plays_all ts tk u vs tk' u' -> exists rs, log u' = log u ++ rs /\ List.length rs = List.length (flat_map uyield ts)).
Proof.
  intro Hr. apply (plays_both_ind _ _ _ _ _ nts fields sem next
    (fun t tk u b tk' u' _ => exists rs, log u' = log u ++ rs /\ List.length rs = List.length (uyield t))
    (fun ts tk u vs tk' u' _ => exists rs, log u' = log u ++ rs /\ List.length rs = List.length (flat_map uyield ts))).
  - intros tok u tk' u' Hn. exists [tk']. split; [exact (rc_next _ _ _ _ Hr _ _ _ Hn)|reflexivity].
  - intros n p pr kids vs v tk u tk' u1 u' _ _ (rs & E1 & E2) Hs. exists rs. rewrite (rc_sem _ _ _ _ Hr _ _ _ _ _ Hs). auto.
  - intros tk u. exists []. rewrite app_nil_r. auto.
  - intros t ts tk u b vs tk1 u1 tk' u' _ (rs1 & E1 & L1) _ (rs2 & E2 & L2). exists (rs1 ++ rs2). cbn. rewrite E2, E1, !app_length, app_assoc. split; auto.
Qed.
End Machine.

(** ** Heights and nesting *)
Section Nests.
Context {A : Type}.
Variable nts : list (ast_non_terminal A).
Lemma height_inside h : stack_height nts h -> forall n k m, inside nts n k m -> k + h m <= h n.
Proof.
  intros Hh n k m H. induction H as [n|n p pr k c j m Hp Hn _ IH]; [lia|]. pose proof (proj2 (Hh _ _ _ Hp) _ _ Hn). lia.
Qed.
Lemma height_below h : stack_height nts h -> forall n k m, inside nts n k m -> k + 1 <= Nat.max 1 (h n).
Proof.
  intros Hh n k m H. induction H as [n|n p pr k c j m Hp Hn _ IH]; [lia|]. destruct (Hh _ _ _ Hp) as (Hl & Hc). specialize (Hc _ _ Hn).
  assert (k < List.length (body pr)) by (apply nth_error_Some; congruence). unfold body in *. rewrite map_length in *. lia.
Qed.
Lemma height_bound h start : stack_height nts h -> forall k n, inside nts start k n ->
  k < Nat.max 1 (h start) /\ forall p pr, uproduction nts n p = Some pr -> k + List.length (ap_symbols pr) <= Nat.max 1 (h start).
Proof.
  intros Hh k n H. split; [pose proof (height_below h Hh _ _ _ H); lia|]. intros p pr Hp.
  pose proof (height_inside h Hh _ _ _ H). pose proof (proj1 (Hh _ _ _ Hp)). lia.
Qed.

(** Without nesting: positions are bounded. *)
Inductive inside_in (L : list string) : string -> nat -> string -> Prop :=
| ii_here : forall n, inside_in L n 0 n
| ii_down : forall n p pr k c j m, In n L -> uproduction nts n p = Some pr -> nth_error (body pr) k = Some (ASNonTerminal c) ->
    inside_in L c j m -> inside_in L n (k + j) m.
Lemma inside_in_inside L n k m : inside_in L n k m -> inside nts n k m.
Proof. induction 1; econstructor; eauto. Qed.
Lemma inside_named n k m : inside nts n k m -> inside_in (map an_name nts) n k m.
Proof.
  induction 1 as [|n p pr k c j m Hp Hn _ IH]; [constructor|]. econstructor; eauto.
  destruct (Decide.uproduction_In nts _ _ _ Hp) as (N & HN & <- & _). apply in_map. exact HN.
Qed.
Definition without (x : string) (L : list string) : list string := remove string_dec x L.
Lemma inside_last L x : forall n k m, inside_in L n k m -> inside_in (without x L) n k m \/
  exists j p pr i c r, inside nts n j x /\ In x L /\ uproduction nts x p = Some pr /\ nth_error (body pr) i = Some (ASNonTerminal c) /\
    inside_in (without x L) c r m /\ k = j + (i + r).
Proof.
  intros n k m H. induction H as [n|n p pr k c j m Hin Hp Hn _ [IH|(j' & p' & pr' & i & c' & r & H1 & H2 & H3 & H4 & H5 & ->)]].
  - left. constructor.
  - destruct (string_dec x n) as [<-|Hne].
    + right. exists 0, p, pr, k, c, j. split; [constructor|]. auto.
    + left. econstructor; eauto. apply in_in_remove; auto.
  - right. exists (k + j'), p', pr', i, c', r. split; [econstructor; eauto|]. repeat split; auto. lia.
Qed.
Lemma inside_bounded M : (forall n p pr, uproduction nts n p = Some pr -> List.length (ap_symbols pr) <= M) ->
  forall len L, List.length L <= len -> forall n k m, (forall j i x, inside nts n j x -> inside nts x (S i) x -> False) ->
  inside_in L n k m -> k <= len * M.
Proof.
  intros HM. induction len as [|len IH]; intros L HL n k m Hno H.
  - destruct L; [|cbn in HL; lia]. inversion H; subst; [lia|]. contradiction.
  - destruct (inside_last L n _ _ _ H) as [H'|(j & p & pr & i & c & r & H1 & H2 & H3 & H4 & H5 & ->)].
    + inversion H' as [|? p pr k' c j m' Hin]; subst; [lia|]. destruct (remove_In string_dec L n Hin).
    + assert (j = 0). { destruct j as [|j]; auto. exfalso. exact (Hno 0 j n (in_here _ _) H1). } subst j.
      assert (Hi : i < List.length (body pr)) by (apply nth_error_Some; congruence). unfold body in Hi. rewrite map_length in Hi. specialize (HM _ _ _ H3).
      pose proof (remove_length_lt string_dec L n H2) as Hr.
      assert (r <= len * M); [|cbn; lia]. apply (IH (without n L)) with (n := c) (m := m); [unfold without; lia| |exact H5].
      intros j' i' x Hx. apply (Hno (i + j') i' x). econstructor; eauto.
Qed.
Lemma productions_bounded : exists M, forall n p pr, uproduction nts n p = Some pr -> List.length (ap_symbols pr) <= M.
Proof.
  exists (list_max (map (fun q => List.length (ap_symbols q)) (flat_map an_productions nts))). intros n p pr H.
  destruct (Decide.uproduction_In nts _ _ _ H) as (N & HN & _ & Hin).
  assert (Hm := proj1 (list_max_le (map (fun q => List.length (ap_symbols q)) (flat_map an_productions nts)) _) (le_n _)).
  rewrite Forall_forall in Hm. apply Hm. apply in_map_iff. exists pr. split; auto. apply in_flat_map. eauto.
Qed.
Lemma flat_bound start : ~ nests nts start -> exists B, forall k n, inside nts start k n ->
  k < B /\ forall p pr, uproduction nts n p = Some pr -> k + List.length (ap_symbols pr) <= B.
Proof.
  intro Hno. destruct productions_bounded as (M & HM). exists (S (List.length (map an_name nts) * M + M)). intros k n H.
  assert (Hk : k <= List.length (map an_name nts) * M).
  { apply (inside_bounded M HM _ (map an_name nts) (le_n _) start k n); [|apply inside_named; exact H].
    intros j i x H1 H2. apply Hno. exists j, x, i. auto. }
  split; [lia|]. intros p pr Hp. specialize (HM _ _ _ Hp). lia.
Qed.

(** With nesting: trees with long left parts. *)
Context {Tok : Type}.
Variable class : Tok -> option string.
Hypothesis Huse : no_useless_symbol nts class.
Lemma symbols_forest l : (forall s, In s l -> exists t, utree_of nts class t s) -> exists f, uforest_of nts class f l.
Proof.
  induction l as [|s l IH]; intro H; [exists []; constructor|]. destruct (H s (or_introl eq_refl)) as (t & Ht).
  destruct IH as (f & Hf); [intros; apply H; right; auto|]. exists (t :: f). constructor; auto.
Qed.
Lemma inside_tree n k m : inside nts n k m -> forall tm, utree_of nts class tm (ASNonTerminal m) ->
  exists t, utree_of nts class t (ASNonTerminal n) /\ forall f, left_part tm f -> exists f', left_part t f' /\ List.length f' = k + List.length f.
Proof.
  induction 1 as [n|n p pr k c j m Hp Hn _ IH]; intros tm Htm.
  - exists tm. split; auto. intros f Hf. exists f. auto.
  - destruct (IH _ Htm) as (tc & Htc & Hlp). unfold body in Hn.
    destruct (nth_error (ap_symbols pr) k) as [s|] eqn:Es.
    2:{ rewrite nth_error_None in Es. assert (Hx : nth_error (map unnamed (ap_symbols pr)) k = None) by (apply nth_error_None; rewrite map_length; exact Es). congruence. }
    rewrite (map_nth_error unnamed _ _ Es) in Hn. injection Hn as Hs.
    destruct (nth_error_split _ _ Es) as (l1 & l2 & El & Hk).
    destruct (symbols_forest l1) as (f1 & Hf1); [intros x Hx; apply (Huse _ _ _ x Hp); rewrite El; apply in_or_app; auto|].
    destruct (symbols_forest l2) as (f2 & Hf2); [intros x Hx; apply (Huse _ _ _ x Hp); rewrite El; apply in_or_app; right; right; auto|].
    exists (UNode n p (f1 ++ tc :: f2)). split.
    + econstructor; [exact Hp|]. rewrite El. apply uforest_join; auto. constructor; auto. apply utree_named. rewrite Hs. exact Htc.
    + intros f Hf. destruct (Hlp f Hf) as (f' & Hf' & Hlen). exists (f1 ++ f'). split; [constructor; exact Hf'|].
      rewrite app_length, (uforest_length _ _ _ _ Hf1). lia.
Qed.
Lemma inside_symbol n i m : inside nts n i m -> (m = n /\ i = 0) \/ exists n' p pr s, uproduction nts n' p = Some pr /\ In s (ap_symbols pr) /\ unnamed s = ASNonTerminal m.
Proof.
  induction 1 as [n|n p pr k c j m Hp Hn _ IH]; [auto|]. right. destruct IH as [(-> & ->)|IH]; [|exact IH].
  apply nth_error_In in Hn. unfold body in Hn. apply in_map_iff in Hn. destruct Hn as (s & Hs & Hin'). eauto 8.
Qed.
Lemma utree_unnamed (t : utree Tok) s : utree_of nts class t s -> utree_of nts class t (unnamed s).
Proof. intro H. induction H; cbn; auto; econstructor; eauto. Qed.
Lemma nested_tree n k : inside nts n (S k) n -> forall B, exists t, utree_of nts class t (ASNonTerminal n) /\ exists f, left_part t f /\ B <= List.length f.
Proof.
  intros H. induction B as [|B (t & Ht & f & Hf & Hl)].
  - destruct (inside_symbol _ _ _ H) as [(_ & Hx)|(n' & p & pr & s & Hp & Hin & Hs)]; [discriminate|].
    destruct (Huse _ _ _ _ Hp Hin) as (t & Ht). exists t. split; [|exists []; split; [constructor|cbn; lia]].
    apply utree_unnamed in Ht. rewrite Hs in Ht. exact Ht.
  - destruct (inside_tree _ _ _ H t Ht) as (t' & Ht' & Hlp). destruct (Hlp f Hf) as (f' & Hf' & Hlen). exists t'. split; auto. exists f'. split; auto. lia.
Qed.
End Nests.

(** ** Walking a tree with user code that only reads tokens from an iterator *)
Section Pure.
Context {A Tok E V W I : Type}.
Variable nts : list (ast_non_terminal A).
Variable class : Tok -> option string.
Variable fields : Tok -> list V.
Variable usem : A -> list (string * bval V) -> W -> option (V * W).
Variable next : I -> option (Tok + E) * I.
Notation plays := (plays nts fields (pure_sem usem) (pure_next next)).
Notation plays_all := (plays_all nts fields (pure_sem usem) (pure_next next)).
Lemma pure_next_eq it w tk it' : next it = (tk, it') -> pure_next (W := W) next (it, w) = (Some tk, (it', w)).
Proof. intro H. unfold pure_next. cbn. rewrite H. reflexivity. Qed.
Lemma feeds_join it a it1 b it2 : feeds next it a it1 -> feeds next it1 b it2 -> feeds next it (a ++ b) it2.
Proof. induction 1; cbn; auto. intro. econstructor; eauto. Qed.
Lemma feeds_ends it a it1 b it2 x y : feeds next it a it1 -> next it1 = (None, x) -> feeds next it b it2 -> next it2 = (None, y) -> a = b.
Proof.
  intros H. revert b. induction H as [it|it tok it1 toks it3 Hn Hf IH]; intros b H1 H2 H3.
  - inversion H2; subst; congruence.
  - inversion H2 as [|? tok' it1' toks' ? Hn' Hf']; subst; [congruence|]. rewrite Hn in Hn'. injection Hn' as <- <-. f_equal. eauto.
Qed.
Lemma pure_plays : (forall a b w, usem a b w <> None) ->
  (forall t s, utree_of nts class t s -> forall it it1 tk it0 w, feeds next it (uyield t) it1 -> next it = (tk, it0) ->
     exists b w', plays t tk (it0, w) b (fst (next it1)) (snd (next it1), w') /\ (forall n, unnamed s = ASNonTerminal n -> exists v, b = BVal v)) /\
  (forall ts ss, uforest_of nts class ts ss -> forall it it1 tk it0 w, feeds next it (flat_map uyield ts) it1 -> next it = (tk, it0) ->
     exists vs w', plays_all ts tk (it0, w) vs (fst (next it1)) (snd (next it1), w')).
Proof.
  intro Htot. apply utree_uforest_ind.
  - intros t b s _ IH it it1 tk it0 w Hf Hn. exact (IH it it1 tk it0 w Hf Hn).
  - intros tok s Hc it it1 tk it0 w Hf Hn. cbn in Hf. inversion Hf as [|? ? it2 ? ? Hx Hy]; subst. inversion Hy; subst. rewrite Hn in Hx. injection Hx as -> ->.
    exists (BTok (fields tok)), w. split; [|discriminate]. constructor. apply pure_next_eq. destruct (next it1); reflexivity.
  - intros n p kids pr Hpr _ IH it it1 tk it0 w Hf Hn. destruct (IH it it1 tk it0 w Hf Hn) as (vs & w1 & Hp).
    destruct (usem (action_expr (ap_action pr)) (ubindings (ap_symbols pr) vs) w1) as [[v w']|] eqn:Es; [|destruct (Htot _ _ _ Es)].
    exists (BVal v), w'. split; [|eauto]. econstructor; eauto. unfold pure_sem. cbn. rewrite Es. reflexivity.
  - intros it it1 tk it0 w Hf Hn. inversion Hf; subst. rewrite Hn. exists [], w. constructor.
  - intros t ts s ss _ IH1 _ IH2 it it1 tk it0 w Hf Hn. cbn in Hf.
    assert (exists itm, feeds next it (uyield t) itm /\ feeds next itm (flat_map uyield ts) it1) as (itm & F1 & F2).
    { revert Hf. generalize (uyield t) as a, (flat_map uyield ts) as b. clear. intros a b. revert it. induction a as [|x a IH]; intros it H.
      - exists it. split; [constructor|exact H].
      - inversion H; subst. match goal with Hx : feeds _ _ (a ++ b) _ |- _ => destruct (IH _ Hx) as (itm & H1 & H2) end. exists itm. split; [econstructor; eauto|exact H2]. }
    destruct (IH1 it itm tk it0 w F1 Hn) as (b & w1 & P1 & _). destruct (IH2 itm it1 (fst (next itm)) (snd (next itm)) w1 F2) as (vs & w2 & P2); [destruct (next itm); reflexivity|].
    exists (b :: vs), w2. econstructor; eauto.
Qed.
Lemma pure_plays_feeds :
  (forall t tk u b tk' u', plays t tk u b tk' u' -> forall it, next it = (tk, fst u) -> exists it1, feeds next it (uyield t) it1 /\ next it1 = (tk', fst u')) /\
  (forall ts tk u vs tk' u', plays_all ts tk u vs tk' u' -> forall it, next it = (tk, fst u) -> exists it1, feeds next it (flat_map uyield ts) it1 /\ next it1 = (tk', fst u')).
Proof.
  apply (plays_both_ind _ _ _ _ _ nts fields (pure_sem usem) (pure_next next)
    (fun t tk u b tk' u' _ => forall it, next it = (tk, fst u) -> exists it1, feeds next it (uyield t) it1 /\ next it1 = (tk', fst u'))
    (fun ts tk u vs tk' u' _ => forall it, next it = (tk, fst u) -> exists it1, feeds next it (flat_map uyield ts) it1 /\ next it1 = (tk', fst u'))).
  - intros tok [i w] tk' [i' w'] Hn it Hit. cbn in *. unfold pure_next in Hn. cbn in Hn. destruct (next i) as [r j] eqn:Ej. injection Hn as <- <- <-.
    exists i. split; [econstructor; [exact Hit|constructor]|exact Ej].
  - intros n p pr kids vs v tk u tk' u1 u' _ _ IH Hs it Hit. destruct (IH it Hit) as (it1 & H1 & H2). exists it1. split; [exact H1|].
    unfold pure_sem in Hs. destruct (usem _ _ (snd u1)) as [[x w]|]; [|discriminate]. injection Hs as _ <-. exact H2.
  - intros tk u it Hit. exists it. split; [constructor|exact Hit].
  - intros t ts tk u b vs tk1 u1 tk' u' _ IH1 _ IH2 it Hit. destruct (IH1 it Hit) as (it1 & F1 & N1). destruct (IH2 it1 N1) as (it2 & F2 & N2).
    exists it2. split; [|exact N2]. cbn. eapply feeds_join; eauto.
Qed.
Lemma pure_no_return : no_return (St := I * W) (pure_sem usem).
Proof. intros a b u. unfold pure_sem. destruct (usem a b (snd u)) as [[v w]|]; discriminate. Qed.
End Pure.
