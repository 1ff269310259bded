(** * PropertiesSimulate: C80, parsing with the SLR(1) tables of src/lr0.rs

    [simulate] (src/lr_common.rs) with the table that [build_slr_table] (src/lr0.rs) makes from the LR(0) automaton and the FOLLOW
    table: what it accepts.  Vocabulary: [derives] (GSpec.v), [follows] (FollowSpec.v), [lr0_valid] (Lr0Spec.v). *)
From Verif Require Import FirstProofs PropertiesSlr PropertiesLr0 SlrProofs PropertiesFollow Decide PropertiesGen UnitTests.
From Verif Require Export Simulate.
Local Open Scope list_scope.

Lemma skipn_next {X} k : forall (l : list X) x r, skipn k l = x :: r -> skipn (k + 1) l = r.
Proof.
  induction k as [|k IH]; intros [|y l] x r H; try discriminate; cbn in *; [congruence|eauto].
Qed.

Section Any.
Context {A : Type}.
Variable g : grammar A.

(** The first non-terminal has one production, of one symbol, and is not used below itself. *)
Definition augmented : Prop :=
  (exists pr X, get_production g 0 0 = Some pr /\ rhs pr = [X]) /\ (forall p pr, get_production g 0 p = Some pr -> p = 0) /\
  forall gamma n p k, lr0_valid g gamma n p k -> ~ at_symbol g n p k (NT 0).
(** The grammar is SLR(1): where a valid item can be reduced, the next terminal being in FOLLOW of its non-terminal, no other valid
    item can be, and none has that terminal next. *)
Definition reducible (gamma : list symbol) (la : option nat) (n p k : nat) : Prop := lr0_valid g gamma n p k /\ at_end g n p k /\ follows g n la.
Definition slr1 : Prop := forall gamma la n p k n' p' k', reducible gamma la n p k ->
  reducible gamma la n' p' k' \/ asks_shift g gamma la n' p' k' -> n' = n /\ p' = p /\ k' = k.

(** ** Derivations of terminals, left to right *)
Inductive yields : list symbol -> list nat -> Prop :=
| y_nil : yields [] []
| y_t : forall t r u, yields r u -> yields (T t :: r) (t :: u)
| y_nt : forall n p pr r u v, get_production g n p = Some pr -> yields (rhs pr) u -> yields r v -> yields (NT n :: r) (u ++ v).
Lemma yields_derives l u : yields l u -> derives g l (map T u).
Proof.
  induction 1 as [|t r u _ IH|n p pr r u v Hp _ IH1 _ IH2]; cbn.
  - constructor.
  - change (T t :: r) with ([T t] ++ r). change (T t :: map T u) with ([T t] ++ map T u). apply derives_app; [constructor|exact IH].
  - rewrite map_app. change (NT n :: r) with ([NT n] ++ r). apply derives_app; [|exact IH2]. eapply derives_trans; [eapply derives_prod; eauto|exact IH1].
Qed.
Lemma yields_app a b u v : yields a u -> yields b v -> yields (a ++ b) (u ++ v).
Proof.
  intros Ha Hb. induction Ha as [|t r u _ IH|n p pr r u w Hp H1 _ _ IH2]; cbn; [exact Hb|constructor; exact IH|rewrite <- app_assoc; econstructor; eauto].
Qed.
Lemma yields_split a b w : yields (a ++ b) w -> exists u v, w = u ++ v /\ yields a u /\ yields b v.
Proof.
  revert w. induction a as [|X a IH]; cbn; intros w H; [exists [], w; split; [reflexivity|split; [constructor|exact H]]|].
  inversion H as [|t r u H1|n p pr r u v Hp H1 H2]; subst.
  - destruct (IH _ H1) as (u1 & v1 & -> & K1 & K2). exists (t :: u1), v1. split; [reflexivity|split; [constructor; exact K1|exact K2]].
  - destruct (IH _ H2) as (u1 & v1 & -> & K1 & K2). exists (u ++ u1), v1. split; [apply app_assoc|split; [econstructor; eauto|exact K2]].
Qed.
Lemma yields_terminals w : yields (map T w) w.
Proof. induction w; cbn; constructor; auto. Qed.
Lemma derives_yields l m : derives g l m -> forall w, m = map T w -> yields l w.
Proof.
  induction 1 as [l|l l1 m Hs _ IH]; intros w E; [subst; apply yields_terminals|]. specialize (IH w E). destruct Hs as [a n p pr r Hp].
  apply yields_split in IH. destruct IH as (u & v & -> & Ha & Hb). apply yields_split in Hb. destruct Hb as (v1 & v2 & -> & Hr & Hrest).
  apply yields_app; [exact Ha|]. econstructor; eauto.
Qed.

(** An item valid for [gamma]: [gamma] ends in what is before the cursor. *)
Lemma valid_suffix gamma n p k : lr0_valid g gamma n p k -> exists d pr, get_production g n p = Some pr /\ k <= List.length (rhs pr) /\ gamma = d ++ firstn k (rhs pr).
Proof.
  induction 1 as [pr H|gamma n p k pr m q pr' _ _ _ _ Hq|gamma n p k pr X _ (d & pr' & Hp' & Hk & E) Hp Hn].
  - exists [], pr. split; [exact H|split; [lia|reflexivity]].
  - exists gamma, pr'. split; [exact Hq|split; [lia|symmetry; apply app_nil_r]].
  - rewrite Hp in Hp'. injection Hp' as <-. exists d, pr. split; [exact Hp|]. assert (Hl : k < List.length (rhs pr)) by (apply nth_error_Some; congruence). split; [lia|].
    rewrite E, <- app_assoc. f_equal. apply nth_error_split in Hn. destruct Hn as (l1 & l2 & El & Hlen). rewrite El.
    replace (k + 1) with (List.length l1 + 1) by lia. rewrite firstn_app_2. cbn. replace k with (List.length l1) by auto.
    rewrite firstn_app, Nat.sub_diag, firstn_all. cbn. rewrite app_nil_r. reflexivity.
Qed.
Lemma valid_moves gamma n p pr k : lr0_valid g gamma n p k -> get_production g n p = Some pr -> lr0_valid g (gamma ++ skipn k (rhs pr)) n p (List.length (rhs pr)).
Proof.
  intros Hv Hp. assert (Hk : k <= List.length (rhs pr)) by (destruct (valid_suffix _ _ _ _ Hv) as (_ & pr' & Hp' & Hk & _); congruence).
  remember (skipn k (rhs pr)) as l eqn:El. revert gamma k Hv Hk El. induction l as [|X l IH]; intros gamma k Hv Hk El.
  - rewrite app_nil_r. assert (Hl : List.length (skipn k (rhs pr)) = 0) by (rewrite <- El; reflexivity). rewrite skipn_length in Hl.
    replace (List.length (rhs pr)) with k by lia. exact Hv.
  - assert (Hn : nth_error (rhs pr) k = Some X) by (rewrite <- (firstn_skipn k (rhs pr)), <- El, nth_error_app2; rewrite firstn_length_le by lia; [rewrite Nat.sub_diag; reflexivity|lia]).
    assert (Hs : skipn (k + 1) (rhs pr) = l) by (exact (skipn_next _ _ _ _ (eq_sym El))).
    assert (Hlt : k < List.length (rhs pr)) by (apply nth_error_Some; congruence).
    specialize (IH (gamma ++ [X]) (k + 1) (l0_move g _ _ _ _ _ _ Hv Hp Hn) ltac:(lia) (eq_sym Hs)). rewrite <- app_assoc in IH. exact IH.
Qed.

Section Result.
Variables (ho : hash_order) (hs : list symbol -> list symbol) (fuel ffuel : nat) (first : first_table) (follow : follow_table) (states : list lr1_state) (tb : lr_table A).
Hypothesis Hho : hash_order_ok ho.
Hypothesis Hhs : forall l, Permutation (hs l) l.
Hypothesis Ha : compute_lr0_automaton ho hs fuel g = Ok states.
Hypothesis Hf : generate_follow_table ho first ffuel g = Ok follow.
Hypothesis Hb : build_slr_table ho follow g states = Ok tb.
Hypothesis Haug : augmented.

(** The stack of states for a string of symbols. *)
Inductive on_path : list symbol -> list nat -> Prop :=
| op_nil : on_path [] [0]
| op_snoc : forall gamma X st j, on_path gamma st -> reads states 0 (gamma ++ [X]) = Some j -> on_path (gamma ++ [X]) (j :: st).
Lemma path_top gamma st : on_path gamma st -> exists s rest, st = s :: rest /\ reads states 0 gamma = Some s.
Proof. destruct 1 as [|gamma X st j H E]; [exists 0, []; auto|exists j, st; auto]. Qed.
Lemma path_pop delta : forall gamma st, on_path (gamma ++ delta) st -> on_path gamma (skipn (List.length delta) st).
Proof.
  induction delta as [|X delta IH] using rev_ind; intros gamma st H; [rewrite app_nil_r in H; exact H|].
  rewrite app_assoc in H. inversion H as [E|gamma' Y st' j Hp Hr E]; [destruct (gamma ++ delta); discriminate|].
  apply app_inj_tail in E. destruct E as (-> & _). rewrite app_length, Nat.add_comm. cbn. apply IH. exact Hp.
Qed.

(** ** Only sentences are accepted *)
Lemma run_sound n : forall stack a input gamma u, on_path gamma stack -> derives g gamma (map T u) -> (a = None -> input = []) ->
  forall st rest, simulate n tb g stack a input = Done st rest -> rest = [] /\ derives g [NT 0] (map T (u ++ match a with Some t => t :: input | None => [] end)).
Proof.
  induction n as [|n IH]; intros stack a input gamma u Hp Hd Hn st rest H; [discriminate|]. cbn [simulate] in H.
  destruct (path_top _ _ Hp) as (s & below & -> & Hs).
  destruct (get_action tb s a) as [[j|nt p act|]|] eqn:E; [| | |discriminate]; apply (c79_actions g ho hs fuel follow states Hho Hhs Ha tb gamma s a _ Hb Hs) in E.
  - destruct E as (t & -> & _ & Hj). destruct (IH (j :: s :: below) (hd_error input) (tl input) (gamma ++ [T t]) (u ++ [t])) with (st := st) (rest := rest) as (R1 & R2); auto.
    + constructor; auto.
    + rewrite map_app. apply derives_app; [exact Hd|constructor].
    + destruct input; [auto|discriminate].
    + split; auto. rewrite <- app_assoc in R2. destruct input; exact R2.
  - destruct E as ((k & Hv & (pr & Hpr & Hk) & _) & _). rewrite Hpr in H. subst k. destruct (valid_suffix _ _ _ _ Hv) as (d & pr' & Hpr' & _ & Eg).
    rewrite Hpr in Hpr'. injection Hpr' as <-. rewrite firstn_all in Eg. subst gamma. apply path_pop in Hp. unfold rhs in Hp. rewrite map_length in Hp.
    destruct (path_top _ _ Hp) as (s' & below' & E' & Hs'). rewrite E' in H, Hp. rewrite (c79_gotos g ho hs fuel follow states Hho Hhs Ha tb d s' nt Hb Hs') in H.
    destruct (reads states 0 (d ++ [NT nt])) as [j|] eqn:Ej; [|discriminate].
    destruct (IH (j :: s' :: below') a input (d ++ [NT nt]) u) with (st := st) (rest := rest) as (R1 & R2); auto.
    + constructor; auto.
    + eapply derives_trans; [|exact Hd]. apply derives_app; [constructor|]. eapply derives_prod; eauto.
  - destruct E as (n0 & p0 & k0 & Hv & -> & -> & -> & ->). injection H as <- <-. split; [auto|]. rewrite app_nil_r.
    destruct Haug as ((pr & X & Hpr & Hrhs) & _ & _). destruct (valid_suffix _ _ _ _ Hv) as (d & pr' & Hpr' & _ & Eg). rewrite Hpr in Hpr'. injection Hpr' as <-.
    rewrite Hrhs in Eg. cbn in Eg. assert (Hd0 : d = []).
    { clear - Hv Eg Haug Hpr Hrhs.
      assert (H : forall gm n p k, lr0_valid g gm n p k -> n = 0 -> p = 0 -> gm = firstn k (rhs pr)).
      { clear Hv Eg. intros gm n p k Hv. induction Hv as [pr0 H|gm n p k pr0 m q pr' Hv0 _ Hp Hn Hq|gm n p k pr0 Y Hv0 IH Hp Hn]; intros En Ep; subst.
        - reflexivity.
        - exfalso. apply (proj2 (proj2 Haug) _ _ _ _ Hv0). exists pr0. auto.
        - rewrite Hpr in Hp. injection Hp as <-. rewrite IH by auto. rewrite Hrhs in *. destruct k as [|[|k]]; cbn in Hn; [|discriminate|destruct k; discriminate]. injection Hn as ->. reflexivity. }
      specialize (H _ _ _ _ Hv eq_refl eq_refl). rewrite Hrhs in H. rewrite Eg in H. cbn in H. destruct d as [|Y d]; [reflexivity|]. destruct d; discriminate. }
    subst d. cbn in Eg. subst gamma. eapply derives_trans; [eapply derives_prod; eauto|]. rewrite Hrhs. exact Hd.
Qed.
(** If it comes to an end, the input is a sentence and was read to its end. *)
Theorem c80_sound n w stack rest : simulates n tb g w = Done stack rest -> rest = [] /\ derives g [NT 0] (map T w).
Proof.
  intro H. destruct (run_sound n [0] (hd_error w) (tl w) [] [] op_nil) with (st := stack) (rest := rest) as (R1 & R2); auto.
  - constructor.
  - destruct w; [auto|discriminate].
  - split; auto. destruct w; exact R2.
Qed.

(** ** Every sentence is accepted if the grammar is SLR(1) *)
Hypothesis Hslr : slr1.
Hypothesis Hfollow : forall n la, has follow n la <-> follows g n la.

Definition config := (list symbol * list nat)%type.
(** The machine gets from symbols [gamma] and input [v] to [gamma'] and [v']. *)
Definition gets (gamma : list symbol) (v : list nat) (gamma' : list symbol) (v' : list nat) : Prop :=
  forall st, on_path gamma st -> exists c st', on_path gamma' st' /\
    forall n, simulate (c + n) tb g st (hd_error v) (tl v) = simulate n tb g st' (hd_error v') (tl v').
Lemma gets_refl gamma v : gets gamma v gamma v.
Proof. intros st H. exists 0, st. auto. Qed.
Lemma gets_trans a u b v c w : gets a u b v -> gets b v c w -> gets a u c w.
Proof.
  intros H1 H2 st Hst. destruct (H1 st Hst) as (c1 & st1 & K1 & K2). destruct (H2 st1 K1) as (c2 & st2 & K3 & K4). exists (c1 + c2), st2. split; auto.
  intro n. rewrite <- Nat.add_assoc, K2. apply K4.
Qed.
Lemma gets_shift gamma t v m q k : asks_shift g gamma (Some t) m q k -> gets gamma (t :: v) (gamma ++ [T t]) v.
Proof.
  intros Has st Hst. destruct (path_top _ _ Hst) as (s & below & -> & Hs). pose proof Has as (Hv & t' & E & pr & Hp & Hn). injection E as <-.
  destruct (valid_reads g ho hs fuel states Hho Hhs Ha _ _ _ _ (l0_move g _ _ _ _ _ _ Hv Hp Hn)) as (j & Hj). exists 1, (j :: s :: below). split; [constructor; auto|].
  intro n. cbn [simulate Nat.add hd_error tl]. replace (get_action tb s (Some t)) with (Some (@Shift A j)); [reflexivity|].
  symmetry. apply (c79_actions g ho hs fuel follow states Hho Hhs Ha tb gamma s (Some t) (Shift j) Hb Hs). exists t. eauto 6.
Qed.
Lemma end_follows_start : follows g 0 None.
Proof. exists []. constructor. Qed.
Lemma gets_reduce gamma v n p pr m q k : lr0_valid g gamma m q k -> at_symbol g m q k (NT n) -> get_production g n p = Some pr -> follows g n (hd_error v) ->
  gets (gamma ++ rhs pr) v (gamma ++ [NT n]) v.
Proof.
  intros Hv (prm & Hpm & Hnm) Hp Hfol st Hst. destruct (path_top _ _ Hst) as (s & below & -> & Hs).
  pose proof (l0_predict g _ _ _ _ _ _ _ _ Hv Hpm Hnm Hp) as Hv0. pose proof (valid_moves _ _ _ _ _ Hv0 Hp) as Hve. cbn [skipn] in Hve.
  destruct (valid_reads g ho hs fuel states Hho Hhs Ha _ _ _ _ (l0_move g _ _ _ _ _ _ Hv Hpm Hnm)) as (j & Hj).
  pose proof (path_pop _ _ _ Hst) as Hst'. unfold rhs in Hst'. rewrite map_length in Hst'. destruct (path_top _ _ Hst') as (s' & below' & E' & Hs'). rewrite E' in Hst'.
  assert (Hr : reducible (gamma ++ rhs pr) (hd_error v) n p (List.length (rhs pr))) by (split; [exact Hve|split; [exists pr; auto|exact Hfol]]).
  exists 1, (j :: s' :: below'). split; [constructor; auto|]. intro c. cbn [simulate Nat.add].
  assert (E : get_action tb s (hd_error v) = Some (Reduce n p (p_action pr))).
  { apply (c79_actions g ho hs fuel follow states Hho Hhs Ha tb (gamma ++ rhs pr) s (hd_error v) _ Hb Hs). split; [|split; [eauto|split]].
    - exists (List.length (rhs pr)). split; [exact Hve|]. split; [exists pr; auto|]. apply Hfollow. exact Hfol.
    - intros n' p' k' Hsh. destruct (Hslr _ _ _ _ _ _ _ _ Hr (or_intror Hsh)) as (-> & -> & ->). destruct Hsh as (_ & t & _ & pr' & Hp' & Hn').
      rewrite Hp in Hp'. injection Hp' as <-. assert (List.length (rhs pr) < List.length (rhs pr)) by (apply nth_error_Some; congruence). lia.
    - intros n' p' k' (Hva & -> & -> & -> & Hla). destruct Haug as ((pr0 & X & Hp0 & Hr0) & _ & Haug').
      destruct (Hslr _ _ _ _ _ 0 0 1 Hr) as (<- & <- & _).
      + left. split; [exact Hva|]. split; [exists pr0; split; [exact Hp0|rewrite Hr0; reflexivity]|]. rewrite Hla. exact end_follows_start.
      + apply (Haug' _ _ _ _ Hv). exists prm. auto. }
  rewrite E, Hp, E'. rewrite (c79_gotos g ho hs fuel follow states Hho Hhs Ha tb gamma s' n Hb Hs'), Hj. reflexivity.
Qed.
Lemma follows_child m q pr k n l v v' : get_production g m q = Some pr -> skipn k (rhs pr) = NT n :: l -> derives g l (map T v) -> follows g m (hd_error v') ->
  follows g n (hd_error (v ++ v')).
Proof.
  intros Hp Hs Hd Hf'. assert (E : rhs pr = firstn k (rhs pr) ++ NT n :: l) by (rewrite <- Hs, firstn_skipn; reflexivity).
  destruct v as [|t v]; cbn [app hd_error].
  - destruct (hd_error v') as [t|]; cbn in Hf' |- *.
    + destruct Hf' as (m' & l1 & r & Hd'). exists m', (l1 ++ firstn k (rhs pr)), r. eapply derives_trans; [exact Hd'|].
      rewrite <- app_assoc. apply derives_app; [constructor|]. change (NT m :: T t :: r) with ([NT m] ++ T t :: r).
      change (NT n :: T t :: r) with ([NT n] ++ T t :: r). rewrite app_assoc. apply derives_app; [|constructor].
      eapply derives_trans; [eapply derives_prod; eauto|]. rewrite E at 1. apply derives_app; [constructor|]. change (NT n :: l) with ([NT n] ++ l).
      rewrite <- (app_nil_r [NT n]) at 2. apply derives_app; [constructor|exact Hd].
    + destruct Hf' as (l1 & Hd'). exists (l1 ++ firstn k (rhs pr)). eapply derives_trans; [exact Hd'|]. rewrite <- app_assoc. apply derives_app; [constructor|].
      eapply derives_trans; [eapply derives_prod; eauto|]. rewrite E at 1. apply derives_app; [constructor|]. change (NT n :: l) with ([NT n] ++ l).
      rewrite <- (app_nil_r [NT n]) at 2. apply derives_app; [constructor|exact Hd].
  - cbn. exists m, (firstn k (rhs pr)), (map T v). eapply derives_trans; [eapply derives_prod; eauto|]. rewrite E at 1. apply derives_app; [constructor|].
    change (NT n :: l) with ([NT n] ++ l). change (NT n :: T t :: map T v) with ([NT n] ++ T t :: map T v). apply derives_app; [constructor|exact Hd].
Qed.
Lemma run_complete l u : yields l u -> forall gamma m q k pr v, lr0_valid g gamma m q k -> get_production g m q = Some pr -> skipn k (rhs pr) = l -> follows g m (hd_error v) ->
  gets gamma (u ++ v) (gamma ++ l) v.
Proof.
  induction 1 as [|t r u _ IH|n p prn r u w Hp Hy1 IH1 Hy2 IH2]; intros gamma m q k pr v Hv Hpr Hs Hfol.
  - rewrite app_nil_r. apply gets_refl.
  - assert (Hn : nth_error (rhs pr) k = Some (T t)) by (rewrite <- (firstn_skipn k (rhs pr)), Hs; assert (Hk : k <= List.length (rhs pr)) by (destruct (valid_suffix _ _ _ _ Hv) as (_ & pr' & Hp' & Hk & _); congruence);
      rewrite nth_error_app2; rewrite firstn_length_le by lia; [rewrite Nat.sub_diag; reflexivity|lia]).
    cbn [app]. eapply gets_trans; [apply (gets_shift gamma t (u ++ v) m q k); split; [exact Hv|exists t; split; [reflexivity|exists pr; auto]]|].
    replace (gamma ++ T t :: r) with ((gamma ++ [T t]) ++ r) by (rewrite <- app_assoc; reflexivity).
    apply (IH (gamma ++ [T t]) m q (k + 1) pr v); [eapply l0_move; eauto|exact Hpr|exact (skipn_next _ _ _ _ Hs)|exact Hfol].
  - assert (Hn : nth_error (rhs pr) k = Some (NT n)) by (rewrite <- (firstn_skipn k (rhs pr)), Hs; assert (Hk : k <= List.length (rhs pr)) by (destruct (valid_suffix _ _ _ _ Hv) as (_ & pr' & Hp' & Hk & _); congruence);
      rewrite nth_error_app2; rewrite firstn_length_le by lia; [rewrite Nat.sub_diag; reflexivity|lia]).
    assert (Hfn : follows g n (hd_error (w ++ v))) by (eapply follows_child; eauto; apply yields_derives; exact Hy2).
    rewrite <- app_assoc. eapply gets_trans; [apply (IH1 gamma n p 0 prn (w ++ v)); [eapply l0_predict; eauto|exact Hp|reflexivity|exact Hfn]|].
    eapply gets_trans; [apply (gets_reduce gamma (w ++ v) n p prn m q k Hv); [exists pr; auto|exact Hp|exact Hfn]|].
    replace (gamma ++ NT n :: r) with ((gamma ++ [NT n]) ++ r) by (rewrite <- app_assoc; reflexivity).
    apply (IH2 (gamma ++ [NT n]) m q (k + 1) pr v); [eapply l0_move; eauto|exact Hpr|exact (skipn_next _ _ _ _ Hs)|exact Hfol].
Qed.
(** Every sentence is accepted. *)
Theorem c80_complete w : derives g [NT 0] (map T w) -> exists n stack, simulates n tb g w = Done stack [].
Proof.
  intro Hd. destruct Haug as ((pr & X & Hp & Hr) & Hone & _). pose proof (l0_start g pr Hp) as Hv.
  pose proof (derives_yields _ _ Hd w eq_refl) as Hy. inversion Hy as [|? ? ? ?|n p prn r u v Hpn H1 H2]; subst. inversion H2; subst. rewrite app_nil_r.
  pose proof (Hone _ _ Hpn) as ->. rewrite Hp in Hpn. injection Hpn as <-.
  pose proof (run_complete (rhs pr) u H1 [] 0 0 0 pr [] Hv Hp eq_refl end_follows_start) as Hg. rewrite app_nil_r in Hg.
  destruct (Hg [0] op_nil) as (c & st & Hpath & Hrun). exists (c + 1), st. unfold simulates. rewrite Hrun. cbn [simulate Nat.add hd_error tl].
  destruct (path_top _ _ Hpath) as (s & below & -> & Hs). replace (get_action tb s None) with (Some (@Accept A)); [reflexivity|]. symmetry.
  apply (c79_actions g ho hs fuel follow states Hho Hhs Ha tb _ s None Accept Hb Hs). exists 0, 0, 1.
  pose proof (valid_moves _ _ _ _ _ Hv Hp) as Hve. cbn [skipn] in Hve. rewrite Hr in Hve. split; [|auto]. rewrite Hr. exact Hve.
Qed.
Theorem c80_exact w : (exists n stack rest, simulates n tb g w = Done stack rest) <-> derives g [NT 0] (map T w).
Proof.
  split; [intros (n & stack & rest & H); apply (c80_sound n w stack rest H)|]. intro H. destruct (c80_complete w H) as (n & stack & E). eauto.
Qed.
End Result.

(** For such a grammar the table can be built. *)
Theorem c80_builds ho hs fuel ffuel first follow states : hash_order_ok ho -> (forall l, Permutation (hs l) l) ->
  compute_lr0_automaton ho hs fuel g = Ok states -> generate_follow_table ho first ffuel g = Ok follow ->
  augmented -> slr1 -> (forall n la, has follow n la -> follows g n la) ->
  exists tb, build_slr_table ho follow g states = Ok tb.
Proof.
  intros Hho Hhs Ha Hf ((pr0 & X & Hp0 & Hr0) & _) Hslr Hfol. apply (c79_builds g ho hs fuel ffuel first follow states Hho Hhs Ha Hf).
  intros gamma la n p k n' p' k' (Hv & He & Hh) Ho Hlt. assert (Hr : reducible gamma la n p k) by (split; [exact Hv|split; [exact He|apply Hfol, Hh]]).
  assert (E : n' = n /\ p' = p /\ k' = k); [|destruct E as (-> & -> & ->); unfold before in Hlt; lia].
  apply (Hslr _ _ _ _ _ _ _ _ Hr). destruct Ho as [Ho|[(Hv' & He' & Hh')|(Hv' & -> & -> & -> & ->)]]; [right; exact Ho|left; split; [exact Hv'|split; [exact He'|apply Hfol, Hh']]|].
  left. split; [exact Hv'|]. split; [exists pr0; split; [exact Hp0|rewrite Hr0; reflexivity]|exact end_follows_start].
Qed.
End Any.

(** ** Deciding whether a grammar is SLR(1), for the cases *)
Section Check.
Context {A : Type}.
Variables (g : grammar A) (follow : follow_table).
Definition clash (it it' : item) : bool :=
  match next_symbol g it, next_symbol g it' with
  | None, None => (existsb (fun t => set_mem Nat.eqb t (fo_terminals (get_follow follow (it_nt it')))) (fo_terminals (get_follow follow (it_nt it)))) ||
                  (fo_end (get_follow follow (it_nt it)) && fo_end (get_follow follow (it_nt it')))
  | None, Some (T t) => set_mem Nat.eqb t (fo_terminals (get_follow follow (it_nt it)))
  | _, _ => false
  end.
Definition slr1_check (states : list lr1_state) : bool :=
  forallb (fun st => forallb (fun it => forallb (fun it' => item_eqb it it' || negb (clash it it')) (st_items st)) (st_items st)) states.
Lemma next_end it : at_end g (it_nt it) (it_prod it) (it_cursor it) -> next_symbol g it = None.
Proof. intros (pr & Hp & Hk). unfold next_symbol, item_rhs. rewrite Hp. apply nth_error_None. lia. Qed.
Lemma slr1_checked ho hs fuel states : hash_order_ok ho -> (forall l, Permutation (hs l) l) -> compute_lr0_automaton ho hs fuel g = Ok states ->
  (forall n la, follows g n la -> has follow n la) -> slr1_check states = true -> slr1 g.
Proof.
  intros Hho Hhs Ha Hf Hc gamma la n p k n' p' k' (Hv & He & Hfol) Ho.
  destruct (valid_reads g ho hs fuel states Hho Hhs Ha _ _ _ _ Hv) as (s & Hs). destruct (reads_items g ho hs fuel states Hho Hhs Ha gamma s Hs) as (st & Hst & Hg).
  unfold slr1_check in Hc. rewrite forallb_forall in Hc. specialize (Hc st (nth_error_In _ _ Hst)). rewrite forallb_forall in Hc.
  assert (Hv' : lr0_valid g gamma n' p' k') by (destruct Ho as [Ho|Ho]; apply Ho).
  set (it := {| it_nt := n; it_prod := p; it_cursor := k; it_la := None |}). set (it' := {| it_nt := n'; it_prod := p'; it_cursor := k'; it_la := None |}).
  specialize (Hc it (proj2 (proj2 Hg it) (conj eq_refl Hv))). rewrite forallb_forall in Hc. specialize (Hc it' (proj2 (proj2 Hg it') (conj eq_refl Hv'))).
  apply orb_true_iff in Hc. destruct Hc as [Hc|Hc]; [apply item_eqb_spec in Hc; injection Hc as -> -> ->; auto|].
  exfalso. apply negb_true_iff in Hc. unfold clash in Hc. rewrite (next_end it He) in Hc. apply Hf in Hfol. destruct Ho as [(_ & He' & Hfol')|(_ & t & -> & Ht)].
  - rewrite (next_end it' He') in Hc. apply Hf in Hfol'. apply orb_false_iff in Hc. destruct Hc as (Hc1 & Hc2). destruct la as [t|]; cbn in Hfol, Hfol'.
    + assert (Hx : existsb (fun t => set_mem Nat.eqb t (fo_terminals (get_follow follow (it_nt it')))) (fo_terminals (get_follow follow (it_nt it))) = true); [|congruence].
      apply existsb_exists. exists t. split; [exact Hfol|]. apply (set_mem_In Nat.eqb Nat.eqb_eq). exact Hfol'.
    + cbn in Hc2. rewrite Hfol, Hfol' in Hc2. discriminate.
  - assert (E : next_symbol g it' = Some (T t)) by (apply next_symbol_at; exact Ht). rewrite E in Hc. apply (set_mem_not_In Nat.eqb Nat.eqb_eq) in Hc. exact (Hc Hfol).
Qed.
End Check.

(** ** Cases: [grammar6] of src/test_grammars.rs (E0 -> E, E -> E + T | T, T -> T * F | F, F -> ( E ) | id) *)
Definition first6 : first_table := Eval vm_compute in match generate_first_table ho_id 200 grammar6 with Ok t => t | _ => [] end.
Definition follow6 : follow_table := Eval vm_compute in match generate_follow_table ho_id first6 200 grammar6 with Ok t => t | _ => [] end.
Definition slr6 : lr_table unit := Eval vm_compute in match slr_of grammar6 with Ok t => t | _ => table_new 0 end.
Lemma first6_ok : generate_first_table ho_id 200 grammar6 = Ok first6. Proof. vm_compute. reflexivity. Qed.
Lemma follow6_ok : generate_follow_table ho_id first6 200 grammar6 = Ok follow6. Proof. vm_compute. reflexivity. Qed.
Lemma states6_ok : compute_lr0_automaton ho_id hs_id 200 grammar6 = Ok states6. Proof. vm_compute. reflexivity. Qed.
Lemma slr6_ok : build_slr_table ho_id follow6 grammar6 states6 = Ok slr6. Proof. vm_compute. reflexivity. Qed.
Lemma grammar6_productions n p pr : get_production grammar6 n p = Some pr ->
  In (n, p, rhs pr) [(0, 0, [NT 1]); (1, 0, [NT 1; T 0; NT 2]); (1, 1, [NT 2]); (2, 0, [NT 2; T 1; NT 3]); (2, 1, [NT 3]); (3, 0, [T 2; NT 1; T 3]); (3, 1, [T 4])].
Proof.
  intro H. unfold get_production in H. destruct n as [|[|[|[|n]]]]; [..|destruct n; discriminate];
    destruct p as [|[|p]]; cbn in H; try (destruct p; discriminate); try discriminate; injection H as <-; cbn; tauto.
Qed.
Lemma grammar6_augmented : augmented grammar6.
Proof.
  split; [eexists; eexists; split; reflexivity|]. split.
  - intros p pr H. apply grammar6_productions in H. cbn in H. repeat destruct H as [H|H]; try contradiction; congruence.
  - intros gamma n p k _ (pr & H & Hn). apply grammar6_productions in H. cbn in H. apply nth_error_In in Hn.
    repeat destruct H as [H|H]; try contradiction; injection H as E1 E2 E3; rewrite <- E3 in Hn; cbn in Hn; repeat destruct Hn as [Hn|Hn]; try contradiction; discriminate.
Qed.
Lemma grammar6_closed : closed_grammar grammar6.
Proof.
  intros m p pr n H Hn. apply grammar6_productions in H. cbn in H. unfold n_non_terminals. cbn.
  repeat destruct H as [H|H]; try contradiction; injection H as E1 E2 E3; rewrite <- E3 in Hn; cbn in Hn; repeat destruct Hn as [Hn|Hn]; try contradiction; try discriminate; injection Hn as Hn; lia.
Qed.
Lemma grammar6_eps_free : eps_free grammar6.
Proof. intros n p pr H E. apply grammar6_productions in H. cbn [In] in H; unfold rhs in H, E; rewrite E in H. cbn in H. repeat destruct H as [H|H]; try contradiction; discriminate. Qed.
Lemma grammar6_follow n la : has follow6 n la <-> follows grammar6 n la.
Proof.
  apply (c77_plain grammar6 ho_id 200 200 first6 follow6 n la ho_id_ok grammar6_closed first6_ok); [|exact follow6_ok|unfold n_non_terminals; cbn; lia].
  intros m p pr k r _ _ H. apply nullable_iff in H. exact (eps_free_not_nullable grammar6 grammar6_eps_free k H).
Qed.
Example case_c80_slr1 : slr1 grammar6.
Proof. apply (slr1_checked grammar6 follow6 ho_id hs_id 200 states6 ho_id_ok hs_id_ok states6_ok (fun n la H => proj2 (grammar6_follow n la) H)). vm_compute. reflexivity. Qed.
Example case_c80_exact w : (exists n stack rest, simulates n slr6 grammar6 w = Done stack rest) <-> derives grammar6 [NT 0] (map T w).
Proof. exact (c80_exact grammar6 ho_id hs_id 200 follow6 states6 slr6 ho_id_ok hs_id_ok states6_ok slr6_ok grammar6_augmented case_c80_slr1 grammar6_follow w). Qed.
Example case_c80_sentence : derives grammar6 [NT 0] (map T [4; 0; 4; 1; 4]).
Proof. apply case_c80_exact. exists 100. eexists. eexists. vm_compute. reflexivity. Qed.
Example case_c80_builds : exists tb, build_slr_table ho_id follow6 grammar6 states6 = Ok tb.
Proof.
  exact (c80_builds grammar6 ho_id hs_id 200 200 first6 follow6 states6 ho_id_ok hs_id_ok states6_ok follow6_ok grammar6_augmented case_c80_slr1 (fun n la H => proj1 (grammar6_follow n la) H)).
Qed.
(** Production 0 of the first non-terminal must have one symbol: for [P = "a" "b"] the input "a" is accepted. *)
Example case_c80_not_augmented : exists g tb n stack, lower (declared_nts ab) (token_entries ab) = Ok g /\
  (let* first := generate_first_table ho_id 100 g in let* follow := generate_follow_table ho_id first 100 g in
   let* states := compute_lr0_automaton ho_id hs_id 100 g in build_slr_table ho_id follow g states) = Ok tb /\
  simulates n tb g [0] = Done stack [] /\ ~ derives g [NT 0] (map T [0]).
Proof.
  eexists. eexists. exists 10. eexists. split; [vm_compute; reflexivity|]. split; [vm_compute; reflexivity|]. split; [vm_compute; reflexivity|].
  intro H. pose proof (derives_yields _ _ _ H [0] eq_refl) as Hy. inversion Hy as [|? ? ? ?|n p prn r u v Hpn H1 H2 E1 E2]; subst. inversion H2; subst. rewrite app_nil_r in E2. subst u.
  destruct p as [|p]; cbn in Hpn; [|destruct p; discriminate]. injection Hpn as <-. cbn in H1. inversion H1 as [|? ? ? H3|]; subst. inversion H3.
Qed.
