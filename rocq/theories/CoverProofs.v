(** * CoverProofs: machines that know fewer lookaheads (C75) *)
From Verif Require Import UserPrefix InterleaveProofs LrProofs PropertiesRefactor.
From Verif Require Export CoverSpec.
Local Open Scope list_scope.

Section Generic.
Context {A Tok : Type}.
Variable nts : list (ast_non_terminal A).
Variable class : Tok -> option string.
Variable reduces : list ast_symbol -> option string -> string -> nat -> Prop.
Notation covered := (covered nts class reduces).
Notation covered_all := (covered_all nts class reduces).
Lemma next_entry_app (t1 t2 : list (utree Tok)) la : next_entry class (t1 ++ t2) la = next_entry class t1 (next_entry class t2 la).
Proof. unfold next_entry. rewrite flat_map_app. destruct (flat_map uyield t1); reflexivity. Qed.
Lemma covered_app t1 : forall gamma la s1 t2 s2, List.length t1 = List.length s1 ->
  (covered_all gamma la (t1 ++ t2) (s1 ++ s2) <-> covered_all gamma (next_entry class t2 la) t1 s1 /\ covered_all (gamma ++ s1) la t2 s2).
Proof.
  induction t1 as [|t t1 IH]; intros gamma la [|s s1] t2 s2 Hl; try discriminate; cbn.
  - rewrite app_nil_r. split; [intro H; split; [constructor|exact H]|intros (_ & H); exact H].
  - injection Hl as Hl. split.
    + intro H. inversion H as [|g la' t0 ts0 s0 ss0 H1 H2]; subst. rewrite next_entry_app in H1. apply (IH _ _ _ _ _ Hl) in H2. destruct H2 as (H2 & H3). rewrite <- app_assoc in H3.
      split; [constructor; assumption|exact H3].
    + intros (H & H3). inversion H as [|g la' t0 ts0 s0 ss0 H1 H2]; subst. constructor; [rewrite next_entry_app; exact H1|]. apply (IH _ _ _ _ _ Hl). split; [exact H2|]. rewrite <- app_assoc. exact H3.
Qed.
Lemma covered_mono (reduces' : list ast_symbol -> option string -> string -> nat -> Prop) : (forall g la n p, reduces g la n p -> reduces' g la n p) ->
  (forall gamma la t, covered gamma la t -> CoverSpec.covered nts class reduces' gamma la t) /\
  (forall gamma la ts ss, covered_all gamma la ts ss -> CoverSpec.covered_all nts class reduces' gamma la ts ss).
Proof.
  intro H. apply (covered_both_ind _ _ nts class reduces (fun gamma la t _ => CoverSpec.covered nts class reduces' gamma la t) (fun gamma la ts ss _ => CoverSpec.covered_all nts class reduces' gamma la ts ss)); intros; econstructor; eauto.
Qed.
End Generic.

Section Machine.
Context {A Tok E V St : Type}.
Variable nts : list (ast_non_terminal A).
Variable first : list ast_symbol -> option string -> option string -> Prop.
Variable entries : list string.
Variable class : Tok -> option string.
Variable fields : Tok -> list V.
Variable sem : A -> list (string * bval V) -> St -> completion V * St.
Variable next : St -> option (option (Tok + E)) * St.
Variable clone : E -> St -> option E * St.
Variable start : string.
Hypothesis Hnr : no_return sem.
Notation plays := (plays nts fields sem next).
Notation plays_all := (plays_all nts fields sem next).
Notation moves := (emoves_by nts first entries class fields sem next clone start).
Notation look := (klook class).
Notation reduces := (kreduces_by nts first start).
Notation chosen := (covered nts class reduces).
Notation chosen_all := (covered_all nts class reduces).
Notation valid_f := (uvalid_by nts first start).
Notation valid := (ulr1_valid nts start).

(** Going back in a right-hand side. *)
Lemma valid_back g X lhs p k la l : valid_f (g ++ [X]) lhs p (k + 1) la -> urhs nts start lhs p = Some l -> nth_error l k = Some X /\ valid_f g lhs p k la.
Proof.
  intros H Hl. remember (g ++ [X]) as g' eqn:Eg. remember (k + 1) as k' eqn:Ek. destruct H as [|g' lhs p k0 la l1 C q l' x Hv Hl1 Hk Hq Hf|g' lhs p k0 la l1 Y Hv Hl1 Hk].
  - destruct g; discriminate.
  - clear - Ek. lia.
  - apply app_inj_tail in Eg. destruct Eg as (<- & <-). assert (k0 = k) by (clear - Ek; lia). subst k0. split; [congruence|exact Hv].
Qed.
Lemma valid_start ss : forall g lhs p k la l, valid_f (g ++ ss) lhs p (k + List.length ss) la -> urhs nts start lhs p = Some l -> valid_f g lhs p k la.
Proof.
  induction ss as [|X ss IH]; intros g lhs p k la l H Hl.
  - cbn in H. rewrite app_nil_r, Nat.add_0_r in H. exact H.
  - replace (g ++ X :: ss) with ((g ++ [X]) ++ ss) in H by (rewrite <- app_assoc; reflexivity).
    replace (k + List.length (X :: ss)) with ((k + 1) + List.length ss) in H by (cbn [List.length]; clear; lia).
    exact (proj2 (valid_back _ _ _ _ _ _ _ (IH _ _ _ _ _ _ H Hl) Hl)).
Qed.

(** ** A covered tree that can be walked is walked *)
Lemma look_walk :
  (forall t s, utree_of nts class t s -> forall tk u b tk' u' x, plays t tk u b tk' u' -> look tk' x -> look tk (next_entry class [t] x)) /\
  (forall ts ss, uforest_of nts class ts ss -> forall tk u vs tk' u' x, plays_all ts tk u vs tk' u' -> look tk' x -> look tk (next_entry class ts x)).
Proof.
  apply utree_uforest_ind.
  - intros t b s _ IH. exact IH.
  - intros tok s Hc tk u b tk' u' x H Hx. inversion H; subst. cbn. rewrite Hc. constructor. exact Hc.
  - intros n p kids pr Hpr _ IH tk u b tk' u' x H Hx. inversion H; subst.
    match goal with Hk : InterleaveSpec.plays_all _ _ _ _ _ _ _ _ _ _ |- _ => pose proof (IH _ _ _ _ _ _ Hk Hx) as Q end.
    unfold next_entry in *. cbn. rewrite app_nil_r. exact Q.
  - intros tk u vs tk' u' x H Hx. inversion H; subst. exact Hx.
  - intros t ts s ss _ IHt _ IHs tk u vs tk' u' x H Hx. inversion H; subst.
    match goal with Hk : InterleaveSpec.plays_all _ _ _ _ ts _ _ _ _ _ |- _ => pose proof (IHs _ _ _ _ _ _ Hk Hx) as Q end.
    match goal with Hk : InterleaveSpec.plays _ _ _ _ t _ _ _ _ _ |- _ => pose proof (IHt _ _ _ _ _ _ Hk Q) as Q2 end.
    unfold next_entry in *. cbn in *. rewrite app_nil_r in Q2. destruct (uyield t); exact Q2.
Qed.
Lemma combine_fst {X Y} (a : list X) (b : list Y) : List.length b = List.length a -> map fst (combine a b) = a.
Proof. revert b. induction a as [|x a IH]; intros [|y b] H; try discriminate; cbn; [reflexivity|]. f_equal. apply IH. cbn in H. lia. Qed.
Lemma combine_snd {X Y} (a : list X) (b : list Y) : List.length b = List.length a -> map snd (combine a b) = b.
Proof. revert b. induction a as [|x a IH]; intros [|y b] H; try discriminate; cbn; [reflexivity|]. f_equal. apply IH. cbn in H. lia. Qed.
Lemma forest_uforest_length ts ss tk u vs tk' u' : uforest_of nts class ts ss -> plays_all ts tk u vs tk' u' -> List.length vs = List.length ss.
Proof. intros H1 H2. rewrite (plays_length nts fields sem next _ _ _ _ _ _ H2). exact (uforest_length _ _ _ _ H1). Qed.

Lemma cover_walk :
  (forall t s, utree_of nts class t s -> forall st tk u b tk' u' x, plays t tk u b tk' u' ->
     match t with ULeaf tok => exists e, class tok = Some e /\ kshifts_by nts first start (rev (map fst st)) (Some e) | _ => True end ->
     look tk' x -> chosen (rev (map fst st)) x t ->
     exists m, moves m (inl (EConf st tk u)) (inl (EConf ((unnamed s, b) :: st) tk' u'))) /\
  (forall ts ss, uforest_of nts class ts ss -> forall st tk u vs tk' u' lhs p k la l, plays_all ts tk u vs tk' u' ->
     valid_f (rev (map fst st)) lhs p k la -> urhs nts start lhs p = Some l -> skipn k l = map unnamed ss ->
     valid_f (rev (map fst st) ++ map unnamed ss) lhs p (k + List.length ss) la ->
     look tk' la -> chosen_all (rev (map fst st)) la ts (map unnamed ss) ->
     exists m, moves m (inl (EConf st tk u)) (inl (EConf (rev (combine (map unnamed ss) vs) ++ st) tk' u'))).
Proof.
  apply utree_uforest_ind.
  - cbn. auto.
  - intros tok s Hc st tk u b tk' u' x H (e & Ee & Hs) Hx _. assert (e = s) by congruence. subst e. inversion H; subst. exists 1. cbn.
    eapply em_S; [apply (dec_shift nts first entries class start st tok s Hc Hs)|].
    cbn. match goal with Hq : next u = _ |- _ => rewrite Hq end. constructor.
  - intros nt q kids pr Hpr Hk IH st tk u b tk' u' x H _ Hx Hcov. inversion H; subst. assert (pr0 = pr) by congruence. subst pr0.
    inversion Hcov as [|g la n0 p0 pr0 kids0 Hpr0 Hcall Hred]; subst. assert (pr0 = pr) by congruence. subst pr0.
    assert (Hr : urhs nts start (Some nt) q = Some (map unnamed (ap_symbols pr))) by (cbn; rewrite Hpr; reflexivity).
    pose proof (proj1 Hred) as (l & Hl & Hv). assert (l = body pr) by (unfold body in *; congruence). subst l.
    match goal with Hkk : InterleaveSpec.plays_all _ _ _ _ _ _ _ _ _ _ |- _ => rename Hkk into Hkids end.
    assert (Hv0 : valid_f (rev (map fst st)) (Some nt) q 0 x) by (apply (valid_start (body pr) _ _ _ 0 _ _ Hv Hl)).
    assert (Hve : valid_f (rev (map fst st) ++ map unnamed (ap_symbols pr)) (Some nt) q (0 + List.length (ap_symbols pr)) x).
    { unfold body in Hv. rewrite map_length in Hv. exact Hv. }
    destruct (IH st _ _ _ _ _ _ _ _ _ _ Hkids Hv0 Hr eq_refl Hve Hx Hcall) as (m & Hm).
    pose proof (forest_uforest_length _ _ _ _ _ _ _ Hk Hkids) as Hlen.
    assert (Hlen' : List.length vs = List.length (map unnamed (ap_symbols pr))) by (rewrite map_length; exact Hlen).
    pose proof (combine_fst _ _ Hlen') as Ef. pose proof (combine_snd _ _ Hlen') as Es.
    exists (m + 1). eapply moves_trans; [exact Hm|]. eapply em_S.
    + cbn [ec_stack ec_token]. apply (dec_reduce nts first entries class start (combine (map unnamed (ap_symbols pr)) vs) st tk' x nt q pr Hx).
      * rewrite map_app, rev_app_distr, map_rev, rev_involutive, Ef. exact Hred.
      * exact Hpr.
      * rewrite combine_length, map_length. clear - Hlen. lia.
    + cbn [perform ec_user ec_token]. rewrite Es. match goal with Hq : sem _ _ u1 = _ |- _ => rewrite Hq end. constructor.
  - intros st tk u vs tk' u' lhs p k la l H Hv Hl Hs Hve Hx Hcov. inversion H; subst. exists 0. constructor.
  - intros t ts s ss Ht IHt Hts IHs st tk u vs tk' u' lhs p k la l H Hv Hl Hs Hve Hx Hcov. inversion H; subst. cbn in Hs.
    inversion Hcov as [|g la0 t0 ts0 s0 ss0 Hc1 Hc2]; subst.
    assert (Hn : nth_error l k = Some (unnamed s) /\ skipn (k + 1) l = map unnamed ss).
    { clear - Hs. revert l Hs. induction k as [|k IH]; intros [|y l] Hs; cbn in *; try discriminate; [injection Hs as -> ->; auto|auto]. }
    destruct Hn as (Hn & Hs').
    match goal with Hkk : InterleaveSpec.plays_all _ _ _ _ ts _ _ _ _ _ |- _ => rename Hkk into Hrest end.
    match goal with Hkk : InterleaveSpec.plays _ _ _ _ t _ _ _ _ _ |- _ => rename Hkk into Hone end.
    pose proof (proj2 look_walk ts ss Hts _ _ _ _ _ _ Hrest Hx) as Hy.
    destruct (IHt st _ _ _ _ _ (next_entry class ts la) Hone) as (m1 & Hm1); [|exact Hy|exact Hc1|].
    { destruct t as [tok|]; [|exact Logic.I]. clear - Ht Hv Hl Hn. remember (ULeaf tok) as t eqn:Et. revert tok Et Hn. induction Ht as [t b s Ht IH|tok' e Hc|]; intros tok Et Hn; [exact (IH tok Et Hn)| |discriminate].
      injection Et as ->. exists e. split; [exact Hc|]. exists e. split; [reflexivity|]. exists lhs, p, k, la, l. auto. }
    destruct (IHs ((unnamed s, b) :: st) _ _ _ _ _ lhs p (k + 1) la l Hrest) as (m2 & Hm2); auto.
    { cbn. eapply ulv_move; eauto. }
    { cbn [map List.length rev fst] in *. rewrite <- app_assoc. cbn [app]. replace (k + 1 + List.length ss) with (k + Datatypes.S (List.length ss)) by (clear; lia). exact Hve. }
    exists (m1 + m2). eapply moves_trans; [exact Hm1|]. cbn. rewrite <- app_assoc. exact Hm2.
Qed.
Lemma cover_entry t tk0 u0 v u' : utree_of nts class t (ASNonTerminal start) -> plays t tk0 u0 (BVal v) None u' -> chosen [] None t ->
  exists m, moves m (inl (EConf [] tk0 u0)) (inr (XOutcome (POk v) u')).
Proof.
  intros Ht Hp Hc. destruct (proj1 cover_walk t _ Ht [] tk0 u0 (BVal v) None u' None Hp) as (m & Hm).
  - inversion Ht; subst. exact Logic.I.
  - constructor.
  - exact Hc.
  - exists (m + 1). eapply moves_trans; [exact Hm|]. cbn. eapply em_S; [apply dec_accept|constructor].
    exists [ASNonTerminal start]. split; [reflexivity|]. change [ASNonTerminal start] with ([] ++ [ASNonTerminal start]) at 1. change (List.length [ASNonTerminal start]) with (0 + 1).
    eapply ulv_move; [constructor|reflexivity|reflexivity].
Qed.

(** ** A parser that succeeds has built a covered tree *)
Section Built.
Variables (tk0 : option (Tok + E)) (u0 : St).
(** The stack holds trees, walked from the first token to the current one, with the lookaheads the table has. *)
Definition built (st : list (ast_symbol * bval V)) (tk : option (Tok + E)) (u : St) : Prop :=
  exists forest, uforest_of nts class forest (rev (map fst st)) /\ plays_all forest tk0 u0 (rev (map snd st)) tk u /\
    forall la, look tk la -> chosen_all [] la forest (rev (map fst st)).
Lemma built_step (c : econf Tok E V St) d c' : built (ec_stack c) (ec_token c) (ec_user c) -> decides_by nts first entries class start (ec_stack c) (ec_token c) d ->
  perform fields sem next clone d c = inl c' -> built (ec_stack c') (ec_token c') (ec_user c').
Proof.
  destruct c as [st tk u]. cbn [ec_stack ec_token ec_user]. intros (forest & Hf & Hp & Hc) Hdec Hperf.
  inversion Hdec; subst; cbn [perform ec_stack ec_token ec_user] in Hperf; try discriminate.
  - destruct (next u) as [[tk'|] u'] eqn:En; [|discriminate]. injection Hperf as <-. cbn [ec_stack ec_token ec_user map fst snd rev].
    exists (forest ++ [ULeaf tok]). split; [apply uforest_join; [exact Hf|]; constructor; [constructor; auto|constructor]|].
    split; [eapply plays_app; [exact Hp|]; econstructor; [constructor; exact En|constructor]|].
    intros la _. apply covered_app; [exact (uforest_length _ _ _ _ Hf)|]. split; [|constructor; [constructor|constructor]].
    unfold next_entry. cbn. rewrite H. apply Hc. constructor. exact H.
  - destruct (sem (action_expr (ap_action pr)) (ubindings (ap_symbols pr) (map snd args)) u) as [[v| |] u'] eqn:Es; try discriminate. injection Hperf as <-. cbn [ec_stack ec_token ec_user map fst snd rev].
    rewrite !map_app, !map_rev, !rev_app_distr, !rev_involutive in *.
    pose proof (proj1 H0) as Hred. destruct (reduces_shape nts first start _ n p la pr Hred H1) as (alpha & rest' & Eg & _).
    assert (Ea : map fst args = map unnamed (ap_symbols pr)).
    { pose proof (f_equal (@List.length _) Eg) as Hl. rewrite !app_length, !map_length, H2 in Hl.
      assert (Hl' : List.length (rev (map fst rest)) = List.length alpha) by (clear - Hl; lia).
      destruct (app_inj_length _ _ _ _ Eg Hl') as (_ & E2). exact E2. }
    rewrite Ea in *. destruct (uforest_split nts class _ _ _ Hf) as (f1 & f2 & -> & Hf1 & Hf2). pose proof Hf2 as Hf3. apply uforest_named in Hf2.
    destruct (plays_split nts fields sem next _ _ _ _ _ _ _ Hp) as (vs1 & vs2 & tk1 & u1 & Ev & Hp1 & Hp2).
    assert (Hlv : List.length vs1 = List.length (rev (map snd rest))).
    { rewrite (plays_length nts fields sem next _ _ _ _ _ _ Hp1), (uforest_length _ _ _ _ Hf1), !rev_length, !map_length. reflexivity. }
    symmetry in Ev. destruct (app_inj_length _ _ _ _ Ev Hlv) as (-> & ->).
    exists (f1 ++ [UNode n p f2]). split; [apply uforest_join; [exact Hf1|]; constructor; [econstructor; eauto|constructor]|].
    split; [eapply plays_app; [exact Hp1|]; econstructor; [econstructor; eauto|constructor]|].
    intros la' Hla'. assert (la' = la) by (clear - Hla' H; inversion Hla'; subst; inversion H; subst; congruence). subst la'.
    specialize (Hc la H). apply covered_app in Hc; [|exact (uforest_length _ _ _ _ Hf1)]. destruct Hc as (Hc1 & Hc2).
    apply covered_app; [exact (uforest_length _ _ _ _ Hf1)|]. split.
    + replace (next_entry class [UNode n p f2] la) with (next_entry class f2 la); [exact Hc1|]. unfold next_entry. cbn. rewrite app_nil_r. reflexivity.
    + constructor; [|constructor]. econstructor; [exact H1|exact Hc2|]. exact H0.
  - destruct (clone er u) as [[er'|] u']; discriminate.
Qed.
Lemma built_moves n (c c' : econf Tok E V St) : moves n (inl c) (inl c') -> built (ec_stack c) (ec_token c) (ec_user c) -> built (ec_stack c') (ec_token c') (ec_user c').
Proof.
  intro H. remember (inl c) as x eqn:Ex. remember (inl c') as y eqn:Ey. revert c Ex. induction H as [x|n o|n c0 d r Hd Hm IH]; intros c Ex Hb; subst; [injection Ex as ->; auto|discriminate|].
  injection Ex as ->. destruct (perform fields sem next clone d c) as [c1|o] eqn:Ep; [|inversion Hm].
  apply (IH eq_refl c1 eq_refl). exact (built_step c d c1 Hb Hd Ep).
Qed.
Lemma built_nil : built [] tk0 u0.
Proof. exists []. cbn. split; [constructor|]. split; [constructor|]. intros. constructor. Qed.
Lemma built_ok n (c : econf Tok E V St) v u' : moves n (inl c) (inr (XOutcome (POk v) u')) -> built (ec_stack c) (ec_token c) (ec_user c) ->
  exists t, utree_of nts class t (ASNonTerminal start) /\ plays t tk0 u0 (BVal v) None u' /\ chosen [] None t.
Proof.
  intro H. remember (inl c) as x eqn:Ex. remember (inr (XOutcome (POk v) u')) as y eqn:Ey. revert c Ex. induction H as [x|n o|n c0 d r Hd Hm IH]; intros c Ex Hb; subst; try discriminate.
  injection Ex as ->. destruct (perform fields sem next clone d c) as [c1|o] eqn:Ep; [exact (IH eq_refl c1 eq_refl (built_step c d c1 Hb Hd Ep))|].
  assert (o = XOutcome (POk v) u') by (clear - Hm; inversion Hm; subst; auto). subst o. destruct c as [st tk u]. cbn [ec_stack ec_token ec_user] in *.
  inversion Hd; subst; cbn [perform ec_stack ec_token ec_user] in Ep; try discriminate.
  - destruct (next u) as [[tk'|] u1]; discriminate.
  - destruct (sem (action_expr (ap_action pr)) (ubindings (ap_symbols pr) (map snd args)) u) as [[v1| |] u1]; discriminate.
  - injection Ep as -> ->. destruct Hb as (forest & Hf & Hp & Hc). cbn in Hf, Hp, Hc. inversion Hf as [|t ts s ss Ht Hts]; subst. inversion Hts; subst. inversion Hp; subst.
    match goal with Hx : InterleaveSpec.plays_all _ _ _ _ [] _ _ _ _ _ |- _ => inversion Hx; subst end.
    exists t. split; [exact Ht|]. split; [assumption|]. specialize (Hc None ltac:(constructor)). inversion Hc; subst. assumption.
  - destruct (clone er u) as [[er'|] u1]; discriminate.
Qed.
End Built.
End Machine.

(** ** At most one tree is chosen for given tokens *)
Section Unique.
Context {A Tok : Type}.
Variable nts : list (ast_non_terminal A).
Variable first : list ast_symbol -> option string -> option string -> Prop.
Variable class : Tok -> option string.
Variable start : string.
Notation reduces := (kreduces_by nts first start).
Notation chosen := (covered nts class reduces).
Notation chosen_all := (covered_all nts class reduces).
Notation valid_f := (uvalid_by nts first start).
Hypothesis Hrr : forall g la n p m q, reduces g la n p -> reduces g la m q -> n = m /\ p = q.
(** The machine without values: a stack of trees and the tokens to come. *)
Definition tconf : Type := (list (ast_symbol * utree Tok) * list Tok)%type.
Definition entry (toks : list Tok) : option string := match toks with [] => None | tok :: _ => class tok end.
Inductive tstep : tconf -> tconf -> Prop :=
| ts_shift : forall st tok s toks, class tok = Some s -> kshifts_by nts first start (rev (map fst st)) (Some s) ->
    tstep (st, tok :: toks) ((ASTerminal s, ULeaf tok) :: st, toks)
| ts_reduce : forall args rest toks n p pr, reduces (rev (map fst (rev args ++ rest))) (entry toks) n p -> uproduction nts n p = Some pr ->
    List.length args = List.length (ap_symbols pr) -> tstep (rev args ++ rest, toks) ((ASNonTerminal n, UNode n p (map snd args)) :: rest, toks).
Inductive tsteps : tconf -> tconf -> Prop :=
| tss_nil : forall c, tsteps c c
| tss_cons : forall c c1 c2, tstep c c1 -> tsteps c1 c2 -> tsteps c c2.
Lemma tsteps_trans c c1 c2 : tsteps c c1 -> tsteps c1 c2 -> tsteps c c2.
Proof. induction 1; auto. intro. econstructor; eauto. Qed.
Lemma tstep_deterministic c c1 c2 : tstep c c1 -> tstep c c2 -> c1 = c2.
Proof.
  intros H1 H2. destruct H1 as [st tok s toks Hc Hs|args rest toks n p pr Hr Hpr Hl]; inversion H2 as [st' tok' s' toks' Hc' Hs' [E1 E2] E3|args' rest' toks' n' p' pr' Hr' Hpr' Hl' [E1 E2] E3].
  - congruence.
  - exfalso. apply (proj1 (proj2 Hr')). rewrite E1. cbn. rewrite Hc. exact Hs.
  - exfalso. apply (proj1 (proj2 Hr)). rewrite <- E2. cbn. rewrite Hc'. exact Hs'.
  - rewrite E1 in Hr'. destruct (Hrr _ _ _ _ _ _ Hr Hr') as (<- & <-). assert (pr' = pr) by congruence. subst pr'.
    assert (Hlen : List.length (rev args') = List.length (rev args)) by (rewrite !rev_length; congruence).
    destruct (app_inj_length _ _ _ _ E1 Hlen) as (Ea & ->). apply (f_equal (@rev _)) in Ea. rewrite !rev_involutive in Ea. subst. reflexivity.
Qed.
Lemma tsteps_normal c c1 c2 : tsteps c c1 -> (forall x, ~ tstep c1 x) -> tsteps c c2 -> (forall x, ~ tstep c2 x) -> c1 = c2.
Proof.
  induction 1 as [c|c c1 c2' Hs Hss IH]; intros N1 H2 N2.
  - destruct H2 as [c|c c3 c4 Hs Hss]; [reflexivity|]. exfalso. exact (N1 _ Hs).
  - destruct H2 as [c|c c3 c4 Hs' Hss']; [exfalso; exact (N2 _ Hs)|]. rewrite (tstep_deterministic _ _ _ Hs Hs') in *. auto.
Qed.
Lemma next_entry_entry ts toks : next_entry class ts (entry toks) = entry (flat_map uyield ts ++ toks).
Proof. unfold next_entry. destruct (flat_map uyield ts); reflexivity. Qed.
Lemma tree_walk :
  (forall t s, utree_of nts class t s -> forall st toks,
     match t with ULeaf tok => exists e, class tok = Some e /\ kshifts_by nts first start (rev (map fst st)) (Some e) | _ => True end ->
     chosen (rev (map fst st)) (entry toks) t -> tsteps (st, uyield t ++ toks) ((unnamed s, t) :: st, toks)) /\
  (forall ts ss, uforest_of nts class ts ss -> forall st toks lhs p k l,
     valid_f (rev (map fst st)) lhs p k (entry toks) -> urhs nts start lhs p = Some l -> skipn k l = map unnamed ss ->
     chosen_all (rev (map fst st)) (entry toks) ts (map unnamed ss) ->
     tsteps (st, flat_map uyield ts ++ toks) (rev (combine (map unnamed ss) ts) ++ st, toks)).
Proof.
  apply utree_uforest_ind.
  - cbn. auto.
  - intros tok s Hc st toks (e & Ee & Hs) _. assert (e = s) by congruence. subst e. cbn. econstructor; [apply (ts_shift st tok s toks Hc Hs)|constructor].
  - intros nt q kids pr Hpr Hk IH st toks _ Hcov.
    inversion Hcov as [|g la n0 p0 pr0 kids0 Hpr0 Hcall Hred]; subst. assert (pr0 = pr) by congruence. subst pr0.
    assert (Hr : urhs nts start (Some nt) q = Some (map unnamed (ap_symbols pr))) by (cbn; rewrite Hpr; reflexivity).
    pose proof (proj1 Hred) as (l & Hl & Hv). assert (l = body pr) by (unfold body in *; congruence). subst l.
    assert (Hv0 : valid_f (rev (map fst st)) (Some nt) q 0 (entry toks)) by (apply (valid_start nts first start (body pr) _ _ _ 0 _ _ Hv Hl)).
    pose proof (IH st toks _ _ _ _ Hv0 Hr eq_refl Hcall) as Hm.
    pose proof (uforest_length _ _ _ _ Hk) as Hlen.
    assert (Hlen' : List.length kids = List.length (map unnamed (ap_symbols pr))) by (rewrite map_length; exact Hlen).
    pose proof (combine_fst _ _ Hlen') as Ef. pose proof (combine_snd _ _ Hlen') as Es.
    cbn [uyield]. eapply tsteps_trans; [exact Hm|]. econstructor; [|constructor]. cbn [unnamed]. rewrite <- Es at 2. eapply (ts_reduce _ st toks nt q pr); [|exact Hpr|].
    + rewrite map_app, rev_app_distr, map_rev, rev_involutive, Ef. exact Hred.
    + rewrite combine_length, map_length. clear - Hlen. lia.
  - intros st toks lhs p k l Hv Hl Hs Hcov. constructor.
  - intros t ts s ss Ht IHt Hts IHs st toks lhs p k l Hv Hl Hs Hcov. cbn in Hs.
    inversion Hcov as [|g la0 t0 ts0 s0 ss0 Hc1 Hc2]; subst.
    assert (Hn : nth_error l k = Some (unnamed s) /\ skipn (k + 1) l = map unnamed ss).
    { clear - Hs. revert l Hs. induction k as [|k IH]; intros [|y l] Hs; cbn in *; try discriminate; [injection Hs as -> ->; auto|auto]. }
    destruct Hn as (Hn & Hs'). cbn [flat_map]. rewrite <- app_assoc. eapply tsteps_trans.
    + apply IHt; [|rewrite <- next_entry_entry; exact Hc1].
      destruct t as [tok|]; [|exact Logic.I]. clear - Ht Hv Hl Hn. remember (ULeaf tok) as t eqn:Et. revert tok Et Hn. induction Ht as [t b s Ht IH|tok' e Hc|]; intros tok Et Hn; [exact (IH tok Et Hn)| |discriminate].
      injection Et as ->. exists e. split; [exact Hc|]. exists e. split; [reflexivity|]. exists lhs, p, k, (entry toks), l. auto.
    + cbn [map combine rev]. rewrite <- app_assoc. apply (IHs ((unnamed s, t) :: st) toks lhs p (k + 1) l); [cbn; eapply ulv_move; eauto|exact Hl|exact Hs'|exact Hc2].
Qed.
Lemma tree_entry t : utree_of nts class t (ASNonTerminal start) -> chosen [] None t -> tsteps ([], uyield t) ([(ASNonTerminal start, t)], []).
Proof.
  intros Ht Hc. pose proof (proj1 tree_walk t _ Ht [] []) as H. rewrite app_nil_r in H. apply H; [|exact Hc]. inversion Ht; subst. exact Logic.I.
Qed.
Lemma tree_final t x : ~ tstep ([(ASNonTerminal start, t)], []) x.
Proof.
  intro H. inversion H as [|args rest toks n p pr Hr Hpr Hl E1]; subst. apply (proj2 (proj2 Hr)). rewrite E1. cbn.
  exists [ASNonTerminal start]. split; [reflexivity|]. change [ASNonTerminal start] with ([] ++ [ASNonTerminal start]) at 1. change (List.length [ASNonTerminal start]) with (0 + 1).
  eapply ulv_move; [constructor|reflexivity|reflexivity].
Qed.
Lemma chosen_unique t t' : utree_of nts class t (ASNonTerminal start) -> utree_of nts class t' (ASNonTerminal start) -> uyield t = uyield t' ->
  chosen [] None t -> chosen [] None t' -> t = t'.
Proof.
  intros Ht Ht' Hy Hc Hc'. pose proof (tree_entry t Ht Hc) as H1. pose proof (tree_entry t' Ht' Hc') as H2. rewrite <- Hy in H2.
  pose proof (tsteps_normal _ _ _ H1 (tree_final t) H2 (tree_final t')) as E. injection E. auto.
Qed.
End Unique.

(** ** LR(1) grammars: what is known is chosen *)
Section Known.
Context {A Tok : Type}.
Variable nts : list (ast_non_terminal A).
Variable first : list ast_symbol -> option string -> option string -> Prop.
Variable class : Tok -> option string.
Variable start : string.
(** Fewer lookaheads than there are, and an LR(1) grammar. *)
Hypothesis Hsound : forall l la x, first l la x -> uin_first nts l la x.
Hypothesis Hlr : items_lr1 nts start.
Notation valid_f := (uvalid_by nts first start).
Notation valid := (ulr1_valid nts start).
Lemma f_valid g lhs p k la : valid_f g lhs p k la -> valid g lhs p k la.
Proof. induction 1; [constructor|eapply ulv_closure; eauto|eapply ulv_move; eauto]. Qed.
Lemma f_reduces g lhs p la : ureduces_by nts first start g lhs p la -> ulr1_reduces nts start g lhs p la.
Proof. intros (l & Hl & Hv). exists l. split; auto. apply f_valid. exact Hv. Qed.
Lemma f_shifts g la : kshifts_by nts first start g la -> kshifts_by nts (uin_first nts) start g la.
Proof. intros (t & -> & lhs & p & k & la' & l & Hv & H). exists t. split; [reflexivity|]. exists lhs, p, k, la', l. split; [apply f_valid; exact Hv|exact H]. Qed.
(** A reduction that is known is made. *)
Lemma f_kreduces g n p la : ureduces_by nts first start g (Some n) p la -> kreduces_by nts first start g la n p.
Proof.
  intro H. pose proof (f_reduces _ _ _ _ H) as Ht. split; [exact H|]. split.
  - intro Hs. apply f_shifts in Hs. destruct Hs as (t & -> & Hs). exact (proj2 (Hlr g) _ _ _ Ht Hs).
  - intro Ha. apply f_reduces in Ha. destruct (proj1 (Hlr g) _ _ _ _ _ Ht Ha) as (Ex & _). discriminate.
Qed.

Lemma known_chosen (t : utree Tok) : known_tree nts class first start t <-> chosen_tree nts class first start t.
Proof.
  split; apply covered_mono.
  - intros g la n p. apply f_kreduces.
  - intros g la n p H. apply H.
Qed.
End Known.

(** ** All trees *)
Section All.
Context {A Tok : Type}.
Variable nts : list (ast_non_terminal A).
Variable class : Tok -> option string.
Variable first : list ast_symbol -> option string -> option string -> Prop.
Variable start : string.
Notation reduces := (fun gamma la n p => ureduces_by nts first start gamma (Some n) p la).
Notation covered := (covered nts class reduces).
Notation covered_all := (covered_all nts class reduces).
Notation valid := (ulr1_valid nts start).
Notation T w := (map ASTerminal w).
Notation all_lookaheads := (all_lookaheads nts first start).

Lemma first_next :
  (forall t s, utree_of nts class t s -> forall x, uin_first nts [unnamed s] x (next_entry class [t] x)) /\
  (forall ts ss, uforest_of nts class ts ss -> forall x, uin_first nts (map unnamed ss) x (next_entry class ts x)).
Proof.
  apply utree_uforest_ind.
  - intros t b s _ IH. exact IH.
  - intros tok s Hc x. cbn. rewrite Hc. left. exists s, []. split; [reflexivity|constructor].
  - intros n p kids pr Hpr _ IH x. cbn [unnamed]. replace (next_entry class [UNode n p kids] x) with (next_entry class kids x) by (unfold next_entry; cbn; rewrite app_nil_r; reflexivity).
    eapply first_node; [exact Hpr|]. apply IH.
  - intro x. right. split; [constructor|reflexivity].
  - intros t ts s ss _ IHt _ IHs x. cbn [map]. replace (next_entry class (t :: ts) x) with (next_entry class [t] (next_entry class ts x)).
    + eapply first_cons; [apply IHs|apply IHt].
    + unfold next_entry. cbn. rewrite app_nil_r. destruct (uyield t); reflexivity.
Qed.
Lemma all_covered : all_lookaheads ->
  (forall t s, utree_of nts class t s -> forall gamma lhs p k la l x, valid gamma lhs p k la -> urhs nts start lhs p = Some l -> nth_error l k = Some (unnamed s) ->
     uin_first nts (skipn (k + 1) l) la x -> covered gamma x t) /\
  (forall ts ss, uforest_of nts class ts ss -> forall gamma lhs p k la l, valid gamma lhs p k la -> urhs nts start lhs p = Some l -> skipn k l = map unnamed ss ->
     covered_all gamma la ts (map unnamed ss)).
Proof.
  intro Hall. apply utree_uforest_ind.
  - cbn. auto.
  - constructor.
  - intros nt q kids pr Hpr _ IH gamma lhs p k la l x Hv Hl Hn Hf.
    assert (Hr : urhs nts start (Some nt) q = Some (map unnamed (ap_symbols pr))) by (cbn; rewrite Hpr; reflexivity).
    assert (Hv' : valid gamma (Some nt) q 0 x) by (eapply ulv_closure; eauto).
    apply (cov_node _ _ _ gamma x nt q pr kids Hpr); [exact (IH _ _ _ _ _ _ Hv' Hr eq_refl)|]. apply Hall. exists (body pr). split; [exact Hr|].
    eapply (valid_moves nts (uin_first nts) start); [exact Hv'|exact Hr|reflexivity].
  - constructor.
  - intros t ts s ss Ht IHt Hts IHs gamma lhs p k la l Hv Hl Hs. cbn in Hs.
    assert (Hn : nth_error l k = Some (unnamed s) /\ skipn (k + 1) l = map unnamed ss).
    { clear - Hs. revert l Hs. induction k as [|k IH]; intros [|y l] Hs; cbn in *; try discriminate; [injection Hs as -> ->; auto|auto]. }
    destruct Hn as (Hn & Hs'). cbn [map]. constructor.
    + eapply IHt; [exact Hv|exact Hl|exact Hn|]. rewrite Hs'. apply (proj2 first_next). exact Hts.
    + eapply IHs; [eapply ulv_move; [exact Hv|exact Hl|exact Hn]|exact Hl|exact Hs'].
Qed.
Lemma all_covered_entry t : all_lookaheads -> utree_of nts class t (ASNonTerminal start) -> covered [] None t.
Proof.
  intros Hall Ht. eapply (proj1 (all_covered Hall) t _ Ht [] None 0 0 None [ASNonTerminal start]); [constructor|reflexivity|reflexivity|]. right. split; [constructor|reflexivity].
Qed.

Lemma sentential_tree z : rderives nts [ASNonTerminal start] z -> forall ts, uforest_of nts class ts z ->
  exists t, utree_of nts class t (ASNonTerminal start) /\ uyield t = flat_map uyield ts /\ (covered [] None t -> covered_all [] None ts z).
Proof.
  intro H. remember [ASNonTerminal start] as a eqn:Ea. induction H as [a|a b c H IH Hs]; intros ts Hf.
  - subst a. inversion Hf as [|t ts' s ss Ht Hts]; subst. inversion Hts; subst. exists t. cbn. rewrite app_nil_r. split; [exact Ht|]. split; [reflexivity|].
    intro Hc. constructor; [exact Hc|constructor].
  - destruct Hs as [l n p pr w Hpr].
    destruct (uforest_split nts class _ _ _ Hf) as (k1 & k2 & -> & G1 & G2). destruct (uforest_split nts class _ _ _ G2) as (k3 & k4 & -> & G3 & G4).
    destruct (IH Ea (k1 ++ UNode n p k3 :: k4)) as (t & Ht & Hy & Hc).
    { apply uforest_join; [exact G1|]. constructor; [|exact G4]. econstructor; [exact Hpr|]. apply uforest_named. exact G3. }
    exists t. split; [exact Ht|]. split; [rewrite Hy, !flat_map_app; cbn; rewrite ?flat_map_app; reflexivity|]. intro Hcov. specialize (Hc Hcov).
    pose proof (uforest_length _ _ _ _ G1) as L1. pose proof (uforest_length _ _ _ _ G3) as L3.
    apply covered_app in Hc; [|exact L1]. destruct Hc as (C1 & C2). inversion C2 as [|g la t' ts' s' ss' C3 C4]; subst. inversion C3 as [|g la n' p' pr' kids Hpr' C5 _]; subst.
    assert (pr' = pr) by congruence. subst pr'. apply covered_app; [exact L1|].
    replace (next_entry class (k3 ++ k4) None) with (next_entry class (UNode n p k3 :: k4) None) by (change (UNode n p k3 :: k4) with ([UNode n p k3] ++ k4); rewrite !next_entry_app; unfold next_entry; cbn; rewrite app_nil_r; reflexivity).
    split; [exact C1|]. apply covered_app; [exact L3|]. split; [exact C5|].
    clear - C4 G4. (* leaves *)
    assert (Hleaves : forall g g', covered_all g None k4 (T w) -> covered_all g' None k4 (T w)).
    { clear C4. revert k4 G4. induction w as [|s w IH]; intros k4 G4 g g' H; inversion H; subst; [constructor|]. inversion G4 as [|t' ts' s' ss' Ht Hts]; subst.
      inversion Ht; subst. constructor; [constructor|]. eapply IH; eauto. }
    eapply Hleaves. exact C4.
Qed.
Lemma classes_of w : (forall s, In s w -> exists tok, class tok = Some s) -> exists toks, Forall2 (fun tok s => class tok = Some s) toks w.
Proof.
  induction w as [|s w IH]; intro H; [exists []; constructor|]. destruct (H s (or_introl eq_refl)) as (tok & Ht). destruct IH as (toks & Hts); [intros; apply H; right; auto|].
  exists (tok :: toks). constructor; auto.
Qed.
(** Terminals of sentential forms are used somewhere. *)
Lemma used_terminals a b : uderives nts a b -> forall t, In (ASTerminal t) b -> In (ASTerminal t) a \/ exists n p pr, uproduction nts n p = Some pr /\ In (ASTerminal t) (body pr).
Proof.
  induction 1 as [|a b c Hs Hd IH]; intros t Ht; auto. destruct (IH t Ht) as [Hi|?]; [|auto]. destruct Hs as [l n p pr r Hpr]. rewrite !in_app_iff in *. cbn. destruct Hi as [Hi|[Hi|Hi]]; auto.
  right. exists n, p, pr. auto.
Qed.
(** If every tree is covered, every lookahead is known. *)
Lemma covered_lookaheads : productive_symbols nts -> (forall n p pr t, uproduction nts n p = Some pr -> In (ASTerminal t) (body pr) -> exists tok, class tok = Some t) ->
  (forall t, utree_of nts class t (ASNonTerminal start) -> covered [] None t) -> all_lookaheads.
Proof.
  intros Hprod Hcl Hcov gamma n p la (l & Hl & Hv). destruct (urhs_some _ _ _ _ _ Hl) as (pr & Hpr & Hb).
  destruct (valid_handle nts start Hprod _ _ _ _ _ _ Hv Hl) as (alpha & w & E & Hs & Hw). rewrite firstn_all in E. cbn in Hs. subst l.
  assert (Hterm : forall t, In (ASTerminal t) (alpha ++ ASNonTerminal n :: T w) -> exists tok, class tok = Some t).
  { intros t Ht. destruct (used_terminals _ _ (rd_ud nts _ _ Hs) t Ht) as [Hi|(n' & p' & pr' & H1 & H2)]; [destruct Hi as [Hi|[]]; discriminate|eauto]. }
  assert (Hforest : forall ss, Forall (fun s => exists v, uderives nts [s] (T v)) ss -> (forall t, In (ASTerminal t) ss -> exists tok, class tok = Some t) -> exists ts, uforest_of nts class ts ss).
  { intros ss Hp Ht. destruct (prods_string nts ss Hp) as (v & Hd).
    destruct (classes_of v) as (toks & Htoks).
    - intros s Hs'. destruct (used_terminals _ _ Hd s (in_map _ _ _ Hs')) as [Hi|(n' & p' & pr' & H1 & H2)]; eauto.
    - destruct (derives_forest nts class _ _ Hd _ (leaves nts class _ _ Htoks)) as (ts & F & _). eauto. }
  assert (Hal : alpha ++ ASNonTerminal n :: T w = [ASNonTerminal start] \/ Forall (fun s => exists v, uderives nts [s] (T v)) (alpha ++ ASNonTerminal n :: T w)).
  { pose proof (rd_ud nts _ _ Hs) as Hd. remember [ASNonTerminal start] as a eqn:Ea. destruct Hd as [x|x y z Hst Hd]; [left; reflexivity|right].
    apply (prods_ud nts Hprod _ _ Hd). destruct Hst as [l0 n0 p0 pr0 r0 Hpr0]. destruct l0 as [|? l0]; [|destruct l0; discriminate]. cbn in Ea. injection Ea as -> ->.
    cbn. rewrite app_nil_r. exact (body_prods nts Hprod _ _ _ Hpr0). }
  assert (Ha : exists ts, uforest_of nts class ts alpha).
  { destruct Hal as [Ea|Ha]; [destruct alpha as [|? alpha]; [exists []; constructor|destruct alpha; discriminate]|].
    apply Hforest; [apply Forall_app in Ha; apply Ha|]. intros t Ht. apply Hterm. apply in_or_app. auto. }
  destruct Ha as (ta & Fa).
  destruct (Hforest (body pr) (body_prods nts Hprod _ _ _ Hpr)) as (kids & Fk); [intros t Ht; eapply Hcl; eauto|].
  destruct (classes_of w) as (tw & Ftw); [intros s Hi; apply Hterm; apply in_or_app; right; right; apply in_map; exact Hi|].
  destruct (sentential_tree _ Hs (ta ++ UNode n p kids :: map ULeaf tw)) as (t & Ht & _ & Hc).
  { apply uforest_join; [exact Fa|]. constructor; [econstructor; [exact Hpr|apply uforest_named; exact Fk]|]. exact (leaves nts class _ _ Ftw). }
  specialize (Hc (Hcov t Ht)). apply covered_app in Hc; [|exact (uforest_length _ _ _ _ Fa)]. destruct Hc as (_ & Hc).
  inversion Hc as [|g la' t' ts' s' ss' C3 C4]; subst. inversion C3 as [|g la' n' p' pr' kids' Hpr' C5 C6]; subst. assert (pr' = pr) by congruence. subst pr'.
  cbn [app] in C6. replace (next_entry class (map ULeaf tw) None) with (hd_error w) in C6; [exact C6|].
  clear - Ftw. unfold next_entry. destruct Ftw as [|tok s toks w Ht]; cbn; congruence.
Qed.
End All.
