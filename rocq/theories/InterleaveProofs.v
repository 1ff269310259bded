(** * InterleaveProofs: Knuth's machine walks parse trees *)
From Verif Require Import UserPrefix UserLr1 UserProofs.
From Verif Require Export InterleaveSpec EffectsProofs.

Section Forests.
Context {A Tok : Type}.
Variable nts : list (ast_non_terminal A).
Variable class : Tok -> option string.
Lemma utree_named (t : utree Tok) s : utree_of nts class t (unnamed s) -> utree_of nts class t s.
Proof. induction s; cbn; auto. intro H. constructor. auto. Qed.
Lemma uforest_join (t1 : list (utree Tok)) s1 t2 s2 : uforest_of nts class t1 s1 -> uforest_of nts class t2 s2 -> uforest_of nts class (t1 ++ t2) (s1 ++ s2).
Proof. revert s1. induction t1 as [|t t1 IH]; intros s1 H H2; inversion H; subst; cbn; auto. constructor; auto. Qed.
Lemma uforest_named (ts : list (utree Tok)) ss : uforest_of nts class ts (map unnamed ss) -> uforest_of nts class ts ss.
Proof. revert ts. induction ss as [|s ss IH]; cbn; intros ts H; inversion H; subst; constructor; auto using utree_named. Qed.
Lemma uforest_split (ts : list (utree Tok)) s1 : forall s2, uforest_of nts class ts (s1 ++ s2) ->
  exists t1 t2, ts = t1 ++ t2 /\ uforest_of nts class t1 s1 /\ uforest_of nts class t2 s2.
Proof.
  revert ts. induction s1 as [|s s1 IH]; cbn; intros ts s2 H.
  - exists [], ts. repeat split; auto. constructor.
  - inversion H; subst. destruct (IH _ _ H4) as (t1 & t2 & -> & H1 & H2). exists (t :: t1), t2. repeat split; auto. constructor; auto.
Qed.
Lemma uforest_length (ts : list (utree Tok)) ss : uforest_of nts class ts ss -> List.length ts = List.length ss.
Proof. revert ss. induction ts as [|t ts IH]; intros ss H; inversion H; subst; cbn; auto. Qed.

(** What valid items say of the symbols read so far. *)
Lemma valid_shape first S gamma lhs p k la : uvalid_by nts first S gamma lhs p k la ->
  exists l alpha rest, urhs nts S lhs p = Some l /\ k <= List.length l /\ gamma = alpha ++ firstn k l /\
    match lhs with
    | Some n => uderives nts [ASNonTerminal S] (alpha ++ ASNonTerminal n :: rest)
    | None => alpha = [] /\ rest = []
    end.
Proof.
  induction 1 as [|gamma lhs p k la l C q l' x _ IH Hl Hn Hl' _|gamma lhs p k la l X _ IH Hl Hn].
  - exists [ASNonTerminal S], [], []. cbn. repeat split; auto.
  - destruct IH as (l0 & alpha & rest & Hl0 & Hk & -> & Hd). assert (l0 = l) by congruence. subst l0. clear Hl0.
    exists l', (alpha ++ firstn k l), (skipn (Datatypes.S k) l ++ rest). split; [exact Hl'|]. split; [lia|]. split; [cbn; rewrite app_nil_r; reflexivity|].
    assert (El : l = firstn k l ++ ASNonTerminal C :: skipn (Datatypes.S k) l).
    { rewrite <- (firstn_skipn k l) at 1. f_equal. clear - Hn. revert l Hn. induction k as [|k IH]; intros [|y l] Hn; try discriminate; cbn in *; [congruence|auto]. }
    destruct lhs as [n|].
    + cbn in Hl. destruct (uproduction nts n p) as [pr|] eqn:Hpr; [|discriminate]. cbn in Hl. injection Hl as Hb.
      eapply uderives_trans; [exact Hd|]. eapply ud_step; [apply (uds nts alpha n p pr rest Hpr)|]. unfold body in Hb. rewrite Hb.
      rewrite El at 1. rewrite <- !app_assoc. cbn. apply ud_refl.
    + destruct Hd as (-> & ->). cbn in Hl. destruct (Nat.eqb p 0); [|discriminate]. injection Hl as <-.
      destruct k as [|k]; [|destruct k; discriminate]. cbn in Hn. injection Hn as <-. cbn. apply ud_refl.
  - destruct IH as (l0 & alpha & rest & Hl0 & Hk & -> & Hd). assert (l0 = l) by congruence. subst l0. clear Hl0.
    exists l, alpha, rest. split; [exact Hl|]. assert (Hlt : k < List.length l) by (apply nth_error_Some; congruence).
    split; [lia|]. split; [|exact Hd]. rewrite <- app_assoc. f_equal. clear - Hn. revert l Hn.
    induction k as [|k IH]; intros [|y l] Hn; try discriminate; cbn in *; [congruence|f_equal; auto].
Qed.
Lemma reduces_shape first S gamma n p la pr : ureduces_by nts first S gamma (Some n) p la -> uproduction nts n p = Some pr ->
  exists alpha rest, gamma = alpha ++ map unnamed (ap_symbols pr) /\ uderives nts [ASNonTerminal S] (alpha ++ ASNonTerminal n :: rest).
Proof.
  intros (l & Hl & Hv) Hpr. destruct (valid_shape _ _ _ _ _ _ _ Hv) as (l0 & alpha & rest & Hl0 & _ & -> & Hd). assert (l0 = l) by congruence. subst l0.
  exists alpha, rest. rewrite firstn_all. cbn in Hl. rewrite Hpr in Hl. cbn in Hl. injection Hl as <-. auto.
Qed.
Lemma shifts_shape first S gamma t : ushifts_by nts first S gamma t -> exists rest, uderives nts [ASNonTerminal S] (gamma ++ ASTerminal t :: rest).
Proof.
  intros (lhs & p & k & la & l & Hv & Hl & Hn). destruct (valid_shape _ _ _ _ _ _ _ Hv) as (l0 & alpha & rest & Hl0 & _ & -> & Hd). assert (l0 = l) by congruence. subst l0.
  assert (El : l = firstn k l ++ ASTerminal t :: skipn (Datatypes.S k) l).
  { rewrite <- (firstn_skipn k l) at 1. f_equal. clear - Hn. revert l Hn. induction k as [|k IH]; intros [|y l] Hn; try discriminate; cbn in *; [congruence|auto]. }
  destruct lhs as [n|].
  - cbn in Hl. destruct (uproduction nts n p) as [pr|] eqn:Hpr; [|discriminate]. cbn in Hl. injection Hl as Hb.
    exists (skipn (Datatypes.S k) l ++ rest). eapply uderives_trans; [exact Hd|]. eapply ud_step; [apply (uds nts alpha n p pr rest Hpr)|]. unfold body in Hb. rewrite Hb.
    rewrite El at 1. rewrite <- !app_assoc. cbn. apply ud_refl.
  - cbn in Hl. destruct (Nat.eqb p 0); [|discriminate]. injection Hl as <-. destruct k as [|[|k]]; discriminate.
Qed.
End Forests.

Section Machine.
Context {A Tok E V St : Type}.
Variable nts : list (ast_non_terminal A).
Variable first : list ast_symbol -> option string -> option string -> Prop.
Variable entries : list string.
Variable class : Tok -> option string.
Variable fields : Tok -> list V.
Variable sem : A -> list (string * bval V) -> St -> completion V * St.
Variable next : St -> option (option (Tok + E)) * St.
Variable clone : E -> St -> option E * St.
Variable start : string.
Hypothesis Hnr : no_return sem.
Notation plays := (plays nts fields sem next).
Notation plays_all := (plays_all nts fields sem next).
Notation moves := (emoves_by nts first entries class fields sem next clone start).
Notation econf := (econf Tok E V St).

Lemma plays_app ts1 ts2 tk u vs1 tk1 u1 vs2 tk2 u2 : plays_all ts1 tk u vs1 tk1 u1 -> plays_all ts2 tk1 u1 vs2 tk2 u2 ->
  plays_all (ts1 ++ ts2) tk u (vs1 ++ vs2) tk2 u2.
Proof. intros H H2. induction H; cbn; [auto|econstructor; eauto]. Qed.
Lemma plays_split ts1 ts2 : forall tk u vs tk2 u2, plays_all (ts1 ++ ts2) tk u vs tk2 u2 ->
  exists vs1 vs2 tk1 u1, vs = vs1 ++ vs2 /\ plays_all ts1 tk u vs1 tk1 u1 /\ plays_all ts2 tk1 u1 vs2 tk2 u2.
Proof.
  induction ts1 as [|t ts1 IH]; cbn; intros tk u vs tk2 u2 H.
  - exists [], vs, tk, u. repeat split; auto. constructor.
  - inversion H; subst. match goal with Hk : InterleaveSpec.plays_all _ _ _ _ (ts1 ++ ts2) _ _ _ _ _ |- _ => destruct (IH _ _ _ _ _ Hk) as (vs1 & vs2 & tk1' & u1' & -> & Hp1 & Hp2) end. exists (b :: vs1), vs2, tk1', u1'. repeat split; auto. econstructor; eauto.
Qed.
Lemma plays_length ts tk u vs tk' u' : plays_all ts tk u vs tk' u' -> List.length vs = List.length ts.
Proof. induction 1; cbn; auto. Qed.

(** ** What has been done is the walk of a forest *)
Section Sound.
Variables (tk0 : option (Tok + E)) (u0 : St).
Definition walked (st : list (ast_symbol * bval V)) (tk : option (Tok + E)) (u : St) : Prop :=
  exists forest rest, uforest_of nts class forest (rev (map fst st)) /\ plays_all forest tk0 u0 (rev (map snd st)) tk u /\
    uderives nts [ASNonTerminal start] (rev (map fst st) ++ rest).
Notation finished := (finished nts class sem next clone start).
Lemma sound_step (c : econf) d : walked (ec_stack c) (ec_token c) (ec_user c) -> decides_by nts first entries class start (ec_stack c) (ec_token c) d ->
  match perform fields sem next clone d c with
  | inl c' => walked (ec_stack c') (ec_token c') (ec_user c')
  | inr o => exists forest rest, uforest_of nts class forest (rev (map fst (ec_stack c))) /\
      plays_all forest tk0 u0 (rev (map snd (ec_stack c))) (ec_token c) (ec_user c) /\
      uderives nts [ASNonTerminal start] (rev (map fst (ec_stack c)) ++ rest) /\
      finished forest (rev (map fst (ec_stack c))) (rev (map snd (ec_stack c))) (ec_token c) (ec_user c) o
  end.
Proof.
  destruct c as [st tk u]. cbn [ec_stack ec_token ec_user]. intros (forest & rest & Hf & Hp & Hd) Hdec.
  inversion Hdec; subst; cbn [perform ec_stack ec_token ec_user].
  - destruct (next u) as [[tk'|] u'] eqn:En.
    + cbn. destruct H0 as (t0 & E0 & Hs). injection E0 as <-. destruct (shifts_shape nts first start _ t Hs) as (rest' & Hd').
      exists (forest ++ [ULeaf tok]), rest'. repeat split.
      * cbn. apply uforest_join; [exact Hf|]. constructor; [constructor; auto|constructor].
      * cbn. eapply plays_app; [exact Hp|]. econstructor; [constructor; exact En|constructor].
      * cbn. rewrite <- app_assoc. exact Hd'.
    + exists forest, rest. repeat split; auto. cbn. left. eauto.
  - rewrite !map_app, !map_rev, !rev_app_distr, !rev_involutive in *.
    destruct H0 as (Hred & _ & _). destruct (reduces_shape nts first start _ n p la pr Hred H1) as (alpha & rest' & Eg & Hd').
    assert (Ea : map fst rest0 = rev alpha /\ map fst args = map unnamed (ap_symbols pr)).
    { pose proof (f_equal (@List.length _) Eg) as Hl. rewrite !app_length, !map_length, H2 in Hl.
      assert (Hl' : List.length (rev (map fst rest0)) = List.length alpha) by lia.
      destruct (app_inj_length _ _ _ _ Eg Hl') as (E1 & E2). split; [rewrite <- E1, rev_involutive; reflexivity|exact E2]. }
    destruct Ea as (Er & Ea). rewrite Ea in Hf. destruct (uforest_split nts class _ _ _ Hf) as (f1 & f2 & -> & Hf1 & Hf2). apply uforest_named in Hf2.
    destruct (plays_split _ _ _ _ _ _ _ Hp) as (vs1 & vs2 & tk1 & u1 & Ev & Hp1 & Hp2).
    assert (Ev2 : vs1 = rev (map snd rest0) /\ vs2 = map snd args).
    { assert (Hl : List.length vs1 = List.length (rev (map snd rest0))).
      { rewrite (plays_length _ _ _ _ _ _ Hp1), (uforest_length _ _ _ _ Hf1), !rev_length, !map_length. reflexivity. }
      destruct (app_inj_length _ _ _ _ (eq_sym Ev) Hl) as (-> & ->). auto. }
    destruct Ev2 as (-> & ->).
    destruct (sem (action_expr (ap_action pr)) (ubindings (ap_symbols pr) (map snd args)) u) as [[v| |] u'] eqn:Es.
    + exists (f1 ++ [UNode n p f2]), rest'. cbn. repeat split.
      * apply uforest_join; [exact Hf1|]. constructor; [econstructor; eauto|constructor].
      * eapply plays_app; [exact Hp1|]. econstructor; [econstructor; eauto|constructor].
      * rewrite Er, rev_involutive, <- app_assoc. exact Hd'.
    + exists (f1 ++ f2), rest. repeat split; auto.
      * rewrite Ea. exact Hf.
      * cbn. right. right. exists n, p, pr, f1, f2, (rev (map snd rest0)), (map snd args). repeat split; auto.
        rewrite rev_length, map_length, (uforest_length _ _ _ _ Hf1), rev_length, map_length. reflexivity.
    + exfalso. apply (Hnr (action_expr (ap_action pr)) (ubindings (ap_symbols pr) (map snd args)) u). rewrite Es. reflexivity.
  - exists forest, rest. repeat split; auto.
  - exists forest, rest. repeat split; auto. inversion H; subst; cbn; auto.
  - destruct (clone er u) as [[er'|] u'] eqn:Ec; exists forest, rest; repeat split; auto; cbn; eauto.
  - exists forest, rest. repeat split; auto. cbn. eauto.
Qed.
Lemma sound_moves n (c : econf) r : moves n (inl c) r -> walked (ec_stack c) (ec_token c) (ec_user c) ->
  match r with
  | inl c' => walked (ec_stack c') (ec_token c') (ec_user c')
  | inr o => exists forest syms vs tk u rest, uforest_of nts class forest syms /\ plays_all forest tk0 u0 vs tk u /\
      uderives nts [ASNonTerminal start] (syms ++ rest) /\ finished forest syms vs tk u o
  end.
Proof.
  intro H. remember (inl c) as x eqn:Ex. revert c Ex. induction H as [x|n o|n c0 d r Hd Hm IH]; intros c Ex; subst; [auto|discriminate|].
  injection Ex as ->. intro Hw. pose proof (sound_step c d Hw Hd) as Hs. destruct (perform fields sem next clone d c) as [c'|o] eqn:Ep.
  - apply (IH c' eq_refl). exact Hs.
  - assert (r = inr o) by (clear - Hm; inversion Hm; auto). subst r.
    destruct Hs as (forest & rest & H1 & H2 & H3 & H4). do 6 eexists. repeat split; eauto.
Qed.
Lemma walked_nil : walked [] tk0 u0.
Proof. exists [], [ASNonTerminal start]. cbn. repeat split; constructor. Qed.
End Sound.

(** ** On an LR(1) grammar, a tree that can be walked is walked *)
Section Complete.
Hypothesis Hfirst : forall l la x, first l la x <-> uin_first nts l la x.
Hypothesis Hlr : forall gamma,
  (forall a p b q la, ureduces_by nts first start gamma a p la -> ureduces_by nts first start gamma b q la -> a = b /\ p = q) /\
  (forall a p t, ureduces_by nts first start gamma a p (Some t) -> ushifts_by nts first start gamma t -> False).
Notation look := (klook class).

Lemma first_cons s ss x y z : uin_first nts ss x y -> uin_first nts [s] y z -> uin_first nts (s :: ss) x z.
Proof.
  intros H [(t & r & -> & Hd)|(Hd & ->)].
  - left. exists t, (r ++ ss). split; [reflexivity|]. exact (uderives_ctx nts [] ss _ _ Hd).
  - destruct H as [(t & r & -> & H)|(H & ->)].
    + left. exists t, r. split; [reflexivity|]. eapply uderives_trans; [exact (uderives_ctx nts [] ss _ _ Hd)|exact H].
    + right. split; [|reflexivity]. eapply uderives_trans; [exact (uderives_ctx nts [] ss _ _ Hd)|exact H].
Qed.
Lemma first_node n p pr x y : uproduction nts n p = Some pr -> uin_first nts (map unnamed (ap_symbols pr)) x y -> uin_first nts [ASNonTerminal n] x y.
Proof.
  intros Hp [(t & r & -> & Hd)|(Hd & ->)]; [left; exists t, r; split; [reflexivity|]|right; split; [|reflexivity]];
    (eapply ud_step; [exact (uds nts [] n p pr [] Hp)|cbn; rewrite app_nil_r; exact Hd]).
Qed.
Lemma first_walk :
  (forall t s, utree_of nts class t s -> forall tk u b tk' u' x, plays t tk u b tk' u' -> look tk' x ->
     exists y, look tk y /\ uin_first nts [unnamed s] x y) /\
  (forall ts ss, uforest_of nts class ts ss -> forall tk u vs tk' u' x, plays_all ts tk u vs tk' u' -> look tk' x ->
     exists y, look tk y /\ uin_first nts (map unnamed ss) x y).
Proof.
  apply utree_uforest_ind.
  - cbn. auto.
  - intros tok s Hc tk u b tk' u' x H Hx. inversion H; subst. exists (Some s). split; [constructor; auto|]. left. exists s, []. split; [reflexivity|constructor].
  - intros nt p kids pr Hpr _ IH tk u b tk' u' x H Hx. inversion H; subst. assert (pr0 = pr) by congruence. subst pr0.
    match goal with Hk : InterleaveSpec.plays_all _ _ _ _ _ _ _ _ _ _ |- _ => destruct (IH _ _ _ _ _ _ Hk Hx) as (y & Hy1 & Hy2) end.
    exists y. split; [exact Hy1|]. cbn. eapply first_node; eauto.
  - intros tk u vs tk' u' x H Hx. inversion H; subst. exists x. split; [exact Hx|]. right. split; [constructor|reflexivity].
  - intros t ts s ss _ IHt _ IHs tk u vs tk' u' x H Hx. inversion H; subst.
    match goal with Hk : InterleaveSpec.plays_all _ _ _ _ ts _ _ _ _ _ |- _ => destruct (IHs _ _ _ _ _ _ Hk Hx) as (y & Hy1 & Hy2) end.
    match goal with Hk : InterleaveSpec.plays _ _ _ _ t _ _ _ _ _ |- _ => destruct (IHt _ _ _ _ _ _ Hk Hy1) as (z & Hz1 & Hz2) end.
    exists z. split; [exact Hz1|]. cbn. eapply first_cons; eauto.
Qed.
Lemma moves_trans m n a b c : moves m a b -> moves n b c -> moves (m + n) a c.
Proof.
  intros H1 H2. induction H1 as [x|m o|m x d r Hd Hm IH]; cbn.
  - exact H2.
  - clear - H2. assert (c = inr o) by (inversion H2; auto). subst c. constructor.
  - econstructor; eauto.
Qed.
Lemma valid_moves ss : forall gamma lhs p k la l, uvalid_by nts first start gamma lhs p k la -> urhs nts start lhs p = Some l ->
  skipn k l = ss -> uvalid_by nts first start (gamma ++ ss) lhs p (List.length l) la.
Proof.
  induction ss as [|X ss IH]; intros gamma lhs p k la l Hv Hl Hs.
  - destruct (valid_shape _ _ _ _ _ _ _ _ Hv) as (l0 & alpha & rest & Hl0 & Hk & _). assert (l0 = l) by congruence. subst l0.
    assert (Hlen : List.length (skipn k l) = 0) by (rewrite Hs; reflexivity). rewrite skipn_length in Hlen. rewrite app_nil_r. assert (k = List.length l) by lia. subst k. exact Hv.
  - assert (Hn : nth_error l k = Some X /\ skipn (k + 1) l = ss).
    { clear - Hs. revert l Hs. induction k as [|k IH]; intros [|y l] Hs; cbn in *; try discriminate; [injection Hs as -> ->; auto|auto]. }
    destruct Hn as (Hn & Hs'). replace (gamma ++ X :: ss) with ((gamma ++ [X]) ++ ss) by (rewrite <- app_assoc; reflexivity).
    eapply IH; [eapply ulv_move; eauto|exact Hl|exact Hs'].
Qed.
Lemma walk :
  (forall t s, utree_of nts class t s -> forall st tk u b tk' u' lhs p k la l x, plays t tk u b tk' u' ->
     uvalid_by nts first start (rev (map fst st)) lhs p k la -> urhs nts start lhs p = Some l -> nth_error l k = Some (unnamed s) ->
     look tk' x -> first (skipn (k + 1) l) la x ->
     exists m, moves m (inl (EConf st tk u)) (inl (EConf ((unnamed s, b) :: st) tk' u'))) /\
  (forall ts ss, uforest_of nts class ts ss -> forall st tk u vs tk' u' lhs p k la l, plays_all ts tk u vs tk' u' ->
     uvalid_by nts first start (rev (map fst st)) lhs p k la -> urhs nts start lhs p = Some l -> skipn k l = map unnamed ss ->
     look tk' la ->
     exists m, moves m (inl (EConf st tk u)) (inl (EConf (rev (combine (map unnamed ss) vs) ++ st) tk' u'))).
Proof.
  apply utree_uforest_ind.
  - cbn. auto.
  - intros tok s Hc st tk u b tk' u' lhs p k la l x H Hv Hl Hn Hx Hfi. inversion H; subst. exists 1. cbn.
    eapply em_S; [apply (dec_shift nts first entries class start st tok s Hc)|].
    + exists s. split; [reflexivity|]. exists lhs, p, k, la, l. auto.
    + cbn. match goal with Hq : next u = _ |- _ => rewrite Hq end. constructor.
  - intros nt q kids pr Hpr Hk IH st tk u b tk' u' lhs p k la l x H Hv Hl Hn Hx Hfi. inversion H; subst. assert (pr0 = pr) by congruence. subst pr0.
    assert (Hr : urhs nts start (Some nt) q = Some (map unnamed (ap_symbols pr))) by (cbn; rewrite Hpr; reflexivity).
    assert (Hv' : uvalid_by nts first start (rev (map fst st)) (Some nt) q 0 x) by (eapply ulv_closure; eauto).
    match goal with Hkk : InterleaveSpec.plays_all _ _ _ _ _ _ _ _ _ _ |- _ => rename Hkk into Hkids end.
    destruct (IH st _ _ _ _ _ _ _ _ _ _ Hkids Hv' Hr eq_refl Hx) as (m & Hm).
    assert (Hlen : List.length vs = List.length (ap_symbols pr)).
    { rewrite (plays_length _ _ _ _ _ _ Hkids). exact (uforest_length _ _ _ _ Hk). }
    assert (Ef : map fst (combine (map unnamed (ap_symbols pr)) vs) = map unnamed (ap_symbols pr)).
    { clear - Hlen. revert vs Hlen. induction (ap_symbols pr) as [|s ss IH]; intros [|v vs] Hl; try discriminate; cbn; [reflexivity|]. f_equal. apply IH. cbn in Hl. lia. }
    assert (Es : map snd (combine (map unnamed (ap_symbols pr)) vs) = vs).
    { clear - Hlen. revert vs Hlen. induction (ap_symbols pr) as [|s ss IH]; intros [|v vs] Hl; try discriminate; cbn; [reflexivity|]. f_equal. apply IH. cbn in Hl. lia. }
    exists (m + 1). eapply moves_trans; [exact Hm|]. eapply em_S.
    + cbn [ec_stack ec_token]. apply (dec_reduce nts first entries class start (combine (map unnamed (ap_symbols pr)) vs) st tk' x nt q pr Hx).
      * rewrite map_app, rev_app_distr, map_rev, rev_involutive, Ef.
        assert (Hred : ureduces_by nts first start (rev (map fst st) ++ map unnamed (ap_symbols pr)) (Some nt) q x).
        { exists (map unnamed (ap_symbols pr)). split; [exact Hr|]. eapply valid_moves; [exact Hv'|exact Hr|reflexivity]. }
        split; [exact Hred|]. split.
        -- intros (t & -> & Ht). exact (proj2 (Hlr _) _ _ _ Hred Ht).
        -- intro Ha. destruct (proj1 (Hlr _) _ _ _ _ _ Hred Ha) as (He & _). discriminate He.
      * exact Hpr.
      * rewrite combine_length, map_length. lia.
    + cbn [perform ec_user ec_token]. rewrite Es. match goal with Hq : sem _ _ u1 = _ |- _ => rewrite Hq end. constructor.
  - intros st tk u vs tk' u' lhs p k la l H Hv Hl Hs Hx. inversion H; subst. exists 0. constructor.
  - intros t ts s ss Ht IHt Hts IHs st tk u vs tk' u' lhs p k la l H Hv Hl Hs Hx. inversion H; subst. cbn in Hs.
    assert (Hn : nth_error l k = Some (unnamed s) /\ skipn (k + 1) l = map unnamed ss).
    { clear - Hs. revert l Hs. induction k as [|k IH]; intros [|y l] Hs; cbn in *; try discriminate; [injection Hs as -> ->; auto|auto]. }
    destruct Hn as (Hn & Hs').
    match goal with Hkk : InterleaveSpec.plays_all _ _ _ _ ts _ _ _ _ _ |- _ => rename Hkk into Hrest end.
    match goal with Hkk : InterleaveSpec.plays _ _ _ _ t _ _ _ _ _ |- _ => rename Hkk into Hone end.
    destruct (proj2 first_walk ts ss Hts _ _ _ _ _ _ Hrest Hx) as (y & Hy1 & Hy2).
    destruct (IHt st _ _ _ _ _ lhs p k la l y Hone Hv Hl Hn Hy1) as (m1 & Hm1); [apply Hfirst; rewrite Hs'; exact Hy2|].
    destruct (IHs ((unnamed s, b) :: st) _ _ _ _ _ lhs p (k + 1) la l Hrest) as (m2 & Hm2); auto.
    { cbn. eapply ulv_move; eauto. }
    exists (m1 + m2). eapply moves_trans; [exact Hm1|]. cbn. rewrite <- app_assoc. exact Hm2.
Qed.
Lemma walk_entry t tk0 u0 v u' : utree_of nts class t (ASNonTerminal start) -> plays t tk0 u0 (BVal v) None u' ->
  exists m, moves m (inl (EConf [] tk0 u0)) (inr (XOutcome (POk v) u')).
Proof.
  intros Ht Hp. destruct (proj1 walk t _ Ht [] tk0 u0 (BVal v) None u' None 0 0 None [ASNonTerminal start] None Hp) as (m & Hm).
  - constructor.
  - reflexivity.
  - reflexivity.
  - constructor.
  - apply Hfirst. right. split; [constructor|reflexivity].
  - exists (m + 1). eapply moves_trans; [exact Hm|]. cbn. eapply em_S; [apply dec_accept|constructor].
    exists [ASNonTerminal start]. split; [reflexivity|]. change [ASNonTerminal start] with ([] ++ [ASNonTerminal start]) at 1. change (List.length [ASNonTerminal start]) with (0 + 1).
    eapply ulv_move; [constructor|reflexivity|reflexivity].
Qed.
End Complete.
End Machine.
