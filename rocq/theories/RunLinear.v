(** * RunLinear: the number of iterations of a generated parser is linear in the number of tokens it reads.

    Between two shifts the parser only looks at its state stack.  From every stack, the reductions on one
    lookahead end (the conditions of C05); so from every pair of adjacent states on the stack there is a bound
    on the number of reductions before the parser looks below the pair, and there are finitely many pairs. *)
From Verif Require Export RunTerm.

(** ** Machines that replace a prefix of a stack *)
Section Chain.
Variable red : list nat -> option (list nat).
(** One step replaces the first [k] entries by one. *)
Hypothesis Hshape : forall a b, red a = Some b -> exists k s1, b = s1 :: skipn k a /\ skipn k a <> [].
(** A step does not look below the entry it ends on. *)
Hypothesis Hmono : forall a b r, red a = Some b -> red (a ++ r) = Some (b ++ r).
(** A step that a prefix of the stack does not allow ends below the prefix. *)
Hypothesis Hdeep : forall a b r, a <> [] -> red a = None -> red (a ++ r) = Some b ->
  exists s1 s0 ss0, b = s1 :: s0 :: ss0 /\ List.length ss0 < List.length r.

Fixpoint reds (k : nat) (ss : list nat) : option (list nat) :=
  match k with
  | 0 => Some ss
  | S k' => match red ss with Some ss' => reds k' ss' | None => None end
  end.

Lemma reds_snoc k : forall a b c, reds k a = Some b -> red b = Some c -> reds (S k) a = Some c.
Proof.
  induction k as [|k IH]; intros a b c Ha Hb.
  - inversion Ha; subst. simpl. rewrite Hb. reflexivity.
  - simpl in Ha. destruct (red a) as [a1|] eqn:E; [|discriminate]. specialize (IH _ _ _ Ha Hb).
    change (match red a with Some ss' => reds (S k) ss' | None => None end = Some c). rewrite E. exact IH.
Qed.
Lemma reds_mono k : forall a b r, reds k a = Some b -> reds k (a ++ r) = Some (b ++ r).
Proof.
  induction k as [|k IH]; simpl; intros a b r H; [inversion H; reflexivity|].
  destruct (red a) as [a1|] eqn:E; [|discriminate]. rewrite (Hmono _ _ r E). apply IH. exact H.
Qed.
Lemma reds_none_mono k a r : reds k (a ++ r) = None -> reds k a = None.
Proof. intros H. destruct (reds k a) eqn:E; [|reflexivity]. rewrite (reds_mono _ _ _ r E) in H. discriminate. Qed.
Lemma reds_none_le k : forall k' a, k <= k' -> reds k a = None -> reds k' a = None.
Proof.
  induction k as [|k IH]; simpl; intros k' a Hle H; [discriminate|]. destruct k' as [|k']; [lia|]. simpl.
  destruct (red a); [|reflexivity]. apply IH; [lia|exact H].
Qed.
Lemma red_length a b : red a = Some b -> List.length b <= S (List.length a) /\ b <> [].
Proof. intros H. destruct (Hshape _ _ H) as (k & s1 & -> & _). simpl. rewrite skipn_length. split; [lia|discriminate]. Qed.
Lemma reds_length k : forall a b, reds k a = Some b -> List.length b <= k + List.length a.
Proof.
  induction k as [|k IH]; simpl; intros a b H; [inversion H; lia|].
  destruct (red a) as [a1|] eqn:E; [|discriminate]. apply red_length in E. apply IH in H. lia.
Qed.
Lemma reds_nonempty k a b : a <> [] -> reds k a = Some b -> b <> [].
Proof.
  revert a. induction k as [|k IH]; simpl; intros a Ha H; [inversion H; subst; exact Ha|].
  destruct (red a) as [a1|] eqn:E; [|discriminate]. eapply IH; [|exact H]. eapply red_length; eauto.
Qed.
End Chain.

(** A family of machines, one per lookahead, with a bound [K] on the reductions from the stacks [start]. *)
Section Amortise.
Variable L : Type.
Variable red : L -> list nat -> option (list nat).
Hypothesis Hshape : forall la a b, red la a = Some b -> exists k s1, b = s1 :: skipn k a /\ skipn k a <> [].
Hypothesis Hmono : forall la a b r, red la a = Some b -> red la (a ++ r) = Some (b ++ r).
Hypothesis Hdeep : forall la a b r, a <> [] -> red la a = None -> red la (a ++ r) = Some b ->
  exists s1 s0 ss0, b = s1 :: s0 :: ss0 /\ List.length ss0 < List.length r.
Variable start : list nat -> Prop.
Hypothesis Hstart : forall a, start a -> a <> [] /\ List.length a <= 2.
Variable K : nat.
Variable okla : L -> Prop.
Hypothesis HK : forall la a, okla la -> start a -> reds (red la) K a = None.

(** [T] iterations, [S] of them shifts, lead to the stack [ss]. *)
Definition account (la : L) (T S : nat) (ss : list nat) : Prop :=
  exists st a r j, start st /\ reds (red la) j st = Some a /\ ss = a ++ r /\
    T + K * List.length r <= j + K * (K + 2) * S.

Lemma account_init la e : start [e] -> account la 0 0 [e].
Proof. intros H. exists [e], [e], [], 0. split; [exact H|]. split; [reflexivity|]. split; [reflexivity|]. simpl. lia. Qed.

Lemma account_j la j st a : okla la -> start st -> reds (red la) j st = Some a -> j < K.
Proof.
  intros Ho Hs Ha. destruct (Nat.lt_ge_cases j K) as [H|H]; [exact H|].
  rewrite (reds_none_le _ _ _ _ H (HK _ _ Ho Hs)) in Ha. discriminate.
Qed.

Lemma account_red la T S ss ss' : okla la -> account la T S ss -> red la ss = Some ss' ->
  (forall s1 s0 ss0, ss' = s1 :: s0 :: ss0 -> start [s1; s0]) -> account la (1 + T) S ss'.
Proof.
  intros Ho (st & a & r & j & H1 & H2 & -> & H3) Hr Hst.
  pose proof (account_j _ _ _ _ Ho H1 H2) as Hj.
  destruct (red la a) as [b|] eqn:Ea.
  - rewrite (Hmono _ _ _ r Ea) in Hr. inversion Hr; subst ss'. exists st, b, r, (1 + j).
    split; [exact H1|]. split; [eapply reds_snoc; eauto|]. split; [reflexivity|]. lia.
  - destruct (Hdeep la a ss' r) as (s1 & s0 & ss0 & -> & Hl); auto.
    { eapply reds_nonempty; [intros x y; apply Hshape| |exact H2]. apply Hstart; auto. }
    exists [s1; s0], [s1; s0], ss0, 0. split; [eapply Hst; reflexivity|]. split; [reflexivity|]. split; [reflexivity|].
    assert (K * List.length ss0 + K <= K * List.length r).
    { replace (K * List.length ss0 + K) with (K * (List.length ss0 + 1)) by lia. apply Nat.mul_le_mono_l. lia. }
    lia.
Qed.

Lemma account_shift la la' T S s ss n : okla la -> account la T S (s :: ss) -> start [n; s] ->
  account la' (1 + T) (1 + S) (n :: s :: ss).
Proof.
  intros Ho (st & a & r & j & H1 & H2 & Hs & H3) Hst. pose proof (account_j _ _ _ _ Ho H1 H2) as Hj.
  exists [n; s], [n; s], ss, 0. split; [exact Hst|]. split; [reflexivity|]. split; [reflexivity|].
  assert (Hl : List.length a <= K + 1).
  { pose proof (reds_length (red la) (fun a b => Hshape la a b) _ _ _ H2). pose proof (proj2 (Hstart _ H1)). lia. }
  assert (Hls : List.length ss + 1 = List.length a + List.length r).
  { rewrite <- app_length, <- Hs. simpl. lia. }
  assert (Hm : K * List.length ss <= K * List.length r + K * K).
  { rewrite <- Nat.mul_add_distr_l. apply Nat.mul_le_mono_l. lia. }
  assert (Hx : K * (K + 2) * (1 + S) = K * (K + 2) * S + K * K + 2 * K) by ring. rewrite Hx. lia.
Qed.

Lemma account_total la T S ss : okla la -> account la T S ss -> T <= K + K * (K + 2) * S.
Proof. intros Ho (st & a & r & j & H1 & H2 & _ & H3). pose proof (account_j _ _ _ _ Ho H1 H2). lia. Qed.
End Amortise.

(** ** The parser *)
Section Linear.
Context {A : Type}.
Variable g : grammar A.
Hypothesis Hwf : wf_grammar g.
Variable conv : list conversion.
Variable tbl : first_table.
Variable states : list lr1_state.
Variable entries : list (nat * nat).
Variable act : nat -> option nat -> option aact.
Variable gp : generated A.
Hypothesis Hgen : generated_ok g conv tbl states entries act gp.
Notation Haut := (gn_aut _ _ _ _ _ _ _ Hgen).
Notation Hact := (gn_act _ _ _ _ _ _ _ Hgen).

(** One reduction, as it acts on the state stack. *)
Definition cred (la : option nat) (ss : list nat) : option (list nat) :=
  match ss with
  | [] => None
  | s :: _ =>
      match act s la with
      | Some (AReduce n p) =>
          match get_production g n p with
          | Some q =>
              match skipn (List.length (rhs q)) ss with
              | s0 :: ss0 => match trans states s0 (NT n) with Some s1 => Some (s1 :: s0 :: ss0) | None => None end
              | [] => None
              end
          | None => None
          end
      | _ => None
      end
  end.

Lemma cred_inv la ss ss' : cred la ss = Some ss' -> exists s ss0 n p q s0 ss1 s1, ss = s :: ss0 /\
  act s la = Some (AReduce n p) /\ get_production g n p = Some q /\ skipn (List.length (rhs q)) ss = s0 :: ss1 /\
  trans states s0 (NT n) = Some s1 /\ ss' = s1 :: s0 :: ss1.
Proof.
  unfold cred. destruct ss as [|s ss0]; [discriminate|]. destruct (act s la) as [[|n p|]|] eqn:Ea; try discriminate.
  destruct (get_production g n p) as [q|] eqn:Eq; [|discriminate].
  destruct (skipn (List.length (rhs q)) (s :: ss0)) as [|s0 ss1] eqn:Es; [discriminate|].
  destruct (trans states s0 (NT n)) as [s1|] eqn:Et; [|discriminate]. intros H; inversion H; subst.
  exists s, ss0, n, p, q, s0, ss1, s1. auto 8.
Qed.
Lemma cred_intro la s ss n p q s0 ss1 s1 : act s la = Some (AReduce n p) -> get_production g n p = Some q ->
  skipn (List.length (rhs q)) (s :: ss) = s0 :: ss1 -> trans states s0 (NT n) = Some s1 ->
  cred la (s :: ss) = Some (s1 :: s0 :: ss1).
Proof. intros H1 H2 H3 H4. unfold cred. rewrite H1, H2, H3, H4. reflexivity. Qed.

Lemma cred_shape la a b : cred la a = Some b -> exists k s1, b = s1 :: skipn k a /\ skipn k a <> [].
Proof.
  intros H. destruct (cred_inv _ _ _ H) as (s & ss0 & n & p & q & s0 & ss1 & s1 & _ & _ & _ & Hs & _ & ->).
  exists (List.length (rhs q)), s1. rewrite Hs. split; [reflexivity|discriminate].
Qed.
Lemma cred_mono la a b r : cred la a = Some b -> cred la (a ++ r) = Some (b ++ r).
Proof.
  intros H. destruct (cred_inv _ _ _ H) as (s & ss0 & n & p & q & s0 & ss1 & s1 & -> & Ha & Hq & Hs & Ht & ->).
  simpl app. eapply cred_intro; eauto. rewrite app_comm_cons, skipn_app, Hs.
  replace (skipn _ r) with r; [reflexivity|].
  assert (Hl : List.length (rhs q) - List.length (s :: ss0) = 0).
  { assert (0 < List.length (skipn (List.length (rhs q)) (s :: ss0))) by (rewrite Hs; simpl; lia).
    rewrite skipn_length in H0. lia. }
  rewrite Hl. reflexivity.
Qed.
Lemma cred_deep la a b r : a <> [] -> cred la a = None -> cred la (a ++ r) = Some b ->
  exists s1 s0 ss0, b = s1 :: s0 :: ss0 /\ List.length ss0 < List.length r.
Proof.
  intros Hne Hn H. destruct (cred_inv _ _ _ H) as (s & ss0 & n & p & q & s0 & ss1 & s1 & Hss & Ha & Hq & Hs & Ht & ->).
  destruct a as [|x a]; [congruence|]. inversion Hss; subst x.
  exists s1, s0, ss1. split; [reflexivity|]. unfold cred in Hn. rewrite Ha, Hq in Hn.
  rewrite skipn_app in Hs. destruct (skipn (List.length (rhs q)) (s :: a)) as [|y l] eqn:Ey.
  - simpl app in Hs. assert (Hl : List.length (s0 :: ss1) <= List.length r) by (rewrite <- Hs, skipn_length; lia).
    simpl in Hl. lia.
  - inversion Hs; subst y. rewrite Ht in Hn. discriminate.
Qed.

(** A reduction follows the automaton. *)
Lemma cred_path nt0 e la pi ss ss' : In (nt0, e) entries -> stack_path states e pi ss -> cred la ss = Some ss' ->
  exists pi', stack_path states e pi' ss'.
Proof.
  intros He Hp H. destruct (cred_inv _ _ _ H) as (s & ss0 & n & p & q & s0 & ss1 & s1 & -> & Ha & Hq & Hs & Ht & ->).
  destruct (reduce_possible g Hwf tbl states entries Haut nt0 e He act Hact pi s ss0 la n p Hp Ha)
    as (q' & pi0 & s0' & ss0' & s1' & d & H1 & _ & _ & H4 & H5 & H6 & _).
  rewrite Hq in H1; inversion H1; subst q'. rewrite Hs in H4; inversion H4; subst s0' ss0'.
  exists (NT n :: pi0). constructor; auto.
Qed.

(** ** Reductions on one lookahead end *)
Definition reductions_end : Prop := forall nt0 e la pi ss, In (nt0, e) entries -> stack_path states e pi ss ->
  exists k, reds (cred la) k ss = None.

Lemma reductions_end_inhabited : inhabited_first g tbl -> reductions_end.
Proof.
  intros Hinh nt0 e la pi ss He Hp. destruct (stack_path_nonempty states e pi ss Hp) as (s & ss' & ->).
  destruct (act s la) as [a|] eqn:Ea.
  - assert (Hg : good g states act la (s :: ss')).
    { eapply (progress g Hwf tbl states entries Haut nt0 e He act Hact Hinh (gn_just _ _ _ _ _ _ _ Hgen)); eauto. congruence. }
    remember (s :: ss') as st eqn:Est. clear - Hg. induction Hg as [s ss n Ha|s ss Ha|s ss n p q s0 ss0 s1 Ha Hq Hs Ht Hg IH].
    + exists 1. simpl. rewrite Ha. reflexivity.
    + exists 1. simpl. rewrite Ha. reflexivity.
    + destruct IH as (k & IH). exists (S k). change (match cred la (s :: ss) with Some ss' => reds (cred la) k ss' | None => None end = None).
      rewrite (cred_intro _ _ _ _ _ _ _ _ _ Ha Hq Hs Ht). exact IH.
  - exists 1. simpl. rewrite Ea. reflexivity.
Qed.

Hypothesis Hsound : (forall n, flag tbl n = true -> nullable g n) /\ (forall n t, In t (terms tbl n) -> first_of g n t).

Lemma cred_rstep nt0 e la pi ss ss' : In (nt0, e) entries -> stack_path states e pi ss -> cred la ss = Some ss' ->
  exists pi', stack_path states e pi' ss' /\ rstep g nt0 la pi pi'.
Proof.
  intros He Hp H. destruct (cred_inv _ _ _ H) as (s & ss0 & n & p & q & s0 & ss1 & s1 & -> & Ha & Hq & Hs & Ht & ->).
  destruct (reduce_possible g Hwf tbl states entries Haut nt0 e He act Hact pi s ss0 la n p Hp Ha)
    as (q' & pi0 & s0' & ss0' & s1' & d & H1 & Hpriv & Hpi & H4 & H5 & H6 & _).
  rewrite Hq in H1; inversion H1; subst q'. rewrite Hs in H4; inversion H4; subst s0' ss0'.
  exists (NT n :: pi0). split; [constructor; auto|].
  destruct (ac_inv _ _ _ Hact _ _ _ Ha) as (st & Hst & it & Hit & (Hc & _) & En & Ep & El).
  destruct (valid_items g tbl states entries Haut nt0 e He _ _ Hp) as (s' & ss' & st' & Heq & Hst' & _ & Hi).
  inversion Heq; subst s' ss'. rewrite Hst in Hst'; inversion Hst'; subst st'.
  apply Hi in Hit. destruct Hit as (d' & Hv). pose proof (valid_lr1 g tbl Hsound nt0 _ _ _ Hv) as Hiv.
  subst n p la. pose proof (complete_reduces g nt0 (rev pi) it q Hiv Hq Hc) as Hr.
  assert (Hsk : pi0 = skipn (List.length (rhs q)) pi).
  { rewrite Hpi, <- rev_length, skipn_app, Nat.sub_diag, skipn_all. reflexivity. }
  rewrite Hsk. apply (rstep_intro g nt0 (it_la it) pi (it_nt it) (it_prod it) q); auto. intro E0. rewrite E0 in Hpriv.
  eapply public_private_excl; [|exact Hpriv]. apply (entry_public g tbl states entries Haut nt0 e He).
Qed.

Lemma reductions_end_lr1 : lr1_grammar g -> tails_productive_g g -> reductions_end.
Proof.
  intros Hlr1 Hprod nt0 e la pi ss He Hp.
  destruct (cred la ss) as [ss'|] eqn:E; [|exists 1; simpl; rewrite E; reflexivity].
  destruct (cred_rstep _ _ _ _ _ _ He Hp E) as (pi' & _ & Hr).
  assert (HS : is_entry g nt0).
  { destruct (entry_public g tbl states entries Haut nt0 e He) as (N & H1 & H2). exists N; auto. }
  assert (Hep : exists m q, get_production g nt0 0 = Some q /\ rhs q = [NT m]).
  { destruct HS as (N & HN & Hpu). destruct (wfg_pub g Hwf _ _ HN Hpu) as (q & m & H1 & H2).
    exists m, q. split; [unfold get_production; rewrite HN, H1; reflexivity|exact H2]. }
  destruct Hep as (m0 & q0 & Hq0 & Hr0).
  destruct (reductions_bounded g Hwf nt0 HS m0 q0 Hq0 Hr0 Hprod Hlr1 _ _ _ Hr) as (N & HN).
  exists (S N). clear E Hr ss' pi'. revert pi ss Hp HN. induction N as [|N IH]; intros pi ss Hp HN.
  - simpl. destruct (cred la ss) as [ss'|] eqn:E; [|reflexivity]. exfalso.
    destruct (cred_rstep _ _ _ _ _ _ He Hp E) as (pi' & _ & Hr).
    assert (1 <= 0); [|lia]. eapply HN. econstructor; [exact Hr|constructor].
  - change (match cred la ss with Some ss' => reds (cred la) (S N) ss' | None => None end = None).
    destruct (cred la ss) as [ss'|] eqn:E; [|reflexivity].
    destruct (cred_rstep _ _ _ _ _ _ He Hp E) as (pi' & Hp' & Hr).
    eapply IH; [exact Hp'|]. intros k c Hk. assert (S k <= S N); [|lia]. eapply HN. econstructor; eauto.
Qed.

(** ** The bound *)
Definition starts : list (list nat) :=
  map (fun x => [x]) (seq 0 (List.length states)) ++
  flat_map (fun y => match nth_error states y with Some st => map (fun e => [snd e; y]) (st_goto st) | None => [] end)
    (seq 0 (List.length states)).
Definition lookaheads : list (option nat) := None :: map Some (seq 0 (n_terminals g)).

Lemma starts_short a : In a starts -> a <> [] /\ List.length a <= 2.
Proof.
  intros H. apply in_app_iff in H. destruct H as [H|H].
  - apply in_map_iff in H. destruct H as (x & <- & _). simpl. split; [discriminate|lia].
  - apply in_flat_map in H. destruct H as (y & _ & H). destruct (nth_error states y); [|destruct H].
    apply in_map_iff in H. destruct H as (x & <- & _). simpl. split; [discriminate|lia].
Qed.
Lemma trans_start y X x : trans states y X = Some x -> In [x; y] starts.
Proof.
  intros H. apply in_app_iff. right. unfold trans in H. destruct (nth_error states y) as [st|] eqn:E; [|discriminate].
  apply in_flat_map. exists y. split.
  - apply in_seq. split; [lia|]. simpl. apply nth_error_Some. congruence.
  - rewrite E. apply in_map_iff. exists (X, x). split; [reflexivity|].
    apply (map_get_In symbol_eqb symbol_eqb_spec) in H. exact H.
Qed.

Lemma finite_bound {X} (P : X -> nat -> Prop) (l : list X) : (forall x k k', k <= k' -> P x k -> P x k') ->
  (forall x, In x l -> exists k, P x k) -> exists K, forall x, In x l -> P x K.
Proof.
  intros Hm. induction l as [|x l IH]; intros H; [exists 0; intros x []|].
  destruct IH as (K & IH); [intros y Hy; apply H; right; exact Hy|].
  destruct (H x (or_introl eq_refl)) as (k & Hk). exists (Nat.max k K). intros y [<-|Hy].
  - eapply Hm; [|exact Hk]. lia.
  - eapply Hm; [|apply IH; exact Hy]. lia.
Qed.

Lemma bound_exists : reductions_end -> exists K, forall la a, In la lookaheads -> In a starts -> reds (cred la) K a = None.
Proof.
  intros Hend.
  destruct (finite_bound (fun la K => forall a, In a starts -> reds (cred la) K a = None) lookaheads) as (K & HK).
  - intros la k k' Hk H a Ha. eapply reds_none_le; [exact Hk|]. auto.
  - intros la _. apply (finite_bound (fun a K => reds (cred la) K a = None)).
    + intros a k k' Hk H. eapply reds_none_le; eauto.
    + intros a Ha. apply in_app_iff in Ha. destruct Ha as [Ha|Ha].
      * apply in_map_iff in Ha. destruct Ha as (x & <- & Hx). apply in_seq in Hx.
        destruct (ao_reach _ _ _ _ Haut x) as (nt & e & pi & ss & He & Hp); [lia|].
        destruct (Hend nt e la pi (x :: ss) He Hp) as (k & Hk). exists k.
        apply (reds_none_mono (cred la) (cred_mono la) k [x] ss). exact Hk.
      * apply in_flat_map in Ha. destruct Ha as (y & Hy & Ha). apply in_seq in Hy.
        destruct (nth_error states y) as [st|] eqn:E; [|destruct Ha].
        apply in_map_iff in Ha. destruct Ha as ([X x] & <- & Hx). simpl.
        destruct (ao_reach _ _ _ _ Haut y) as (nt & e & pi & ss & He & Hp); [lia|].
        assert (Ht : trans states y X = Some x).
        { unfold trans. rewrite E. apply (map_get_NoDup symbol_eqb symbol_eqb_spec); [|exact Hx]. eapply ao_nodup; eauto. apply Haut. }
        assert (Hp2 : stack_path states e (X :: pi) (x :: y :: ss)) by (constructor; auto).
        destruct (Hend nt e la _ _ He Hp2) as (k & Hk). exists k.
        apply (reds_none_mono (cred la) (cred_mono la) k [x; y] ss). exact Hk.
  - exists K. intros la a Hl Ha. apply HK; auto.
Qed.

(** ** Runs *)
Section Run.
Context {Tok E V W I : Type}.
Variable pr : parser_struct.
Variables nt0 e : nat.
Hypothesis Hpf : parser_for g (gp_sem_actions gp) entries pr nt0 e.
Variable env : env_t A Tok E V W I.
Hypothesis Htok : tokens_ok g env.
Variable it0 : I.
Variable w0 : W.
Notation trace := (trace gp pr env it0 w0).
Notation Hent := (Hentry g entries gp pr nt0 e Hpf).
Variable K : nat.
Hypothesis HK : forall la a, In la lookaheads -> In a starts -> reds (cred la) K a = None.
Notation account := (account (option nat) cred (fun a => In a starts) K).

Lemma look_lookahead tk la : look env tk la -> In la lookaheads.
Proof.
  intros H. destruct H as [|tok t Hc]; [left; reflexivity|]. right. apply in_map. apply in_seq. split; [lia|].
  apply (Htok _ _ Hc).
Qed.

Lemma trace_account n st c b : trace n st c b ->
  n <= K + K * (K + 2) * List.length c + 1 /\ forall la, look env (ps_token st) la -> account la n (List.length c) (ps_states st).
Proof.
  induction 1 as [|n st c b tok st' Ht IH Hs Htk Hn Hw (t & fs & Hv)|n st c b st' Ht IH Hs Htk Hit (k & v & r & Hv)].
  - split; [simpl; lia|]. intros la _. assert (Hss : ps_states (init_pstate env pr it0 w0) = [pr_init_state pr]).
    { unfold init_pstate. destruct (e_next env it0). reflexivity. }
    rewrite Hss. apply account_init. apply in_app_iff. left. apply (in_map (fun x => [x])). apply in_seq. split; [lia|].
    assert (He : pr_init_state pr = e) by (destruct Hpf as (? & ? & ? & _ & _ & _ & _ & Hq0 & _); exact Hq0). rewrite He.
    destruct (ao_entry _ _ _ _ Haut nt0 e Hent) as (_ & s & Hsn & _). simpl. apply nth_error_Some. congruence.
  - destruct IH as (_ & IH). destruct (trace_inv g Hwf conv tbl states entries act gp Hgen pr nt0 e Hpf env Htok it0 w0 _ _ _ _ Ht) as (pi & ts & Hi).
    destruct (step_kind g Hwf conv tbl states entries act gp Hgen pr nt0 e Hpf env Htok it0 w0 _ _ _ _ _ Hi Hs)
      as [(tok' & t' & fs' & s & ss & m & H1 & H2 & H3 & H4 & H5 & H6 & H7 & H8 & _)|(_ & _ & (k & v & r & Hv') & _)];
      [|rewrite Hv in Hv'; discriminate].
    assert (Hla : look env (ps_token st) (Some t')) by (rewrite H1; constructor; exact H5).
    assert (Hlc : List.length (c ++ [tok]) = S (List.length c)) by (rewrite app_length; simpl; lia). rewrite Hlc.
    assert (HA : forall la, account la (S n) (S (List.length c)) (ps_states st')).
    { intros la. rewrite H8. destruct (shift_trans g states act Hact _ _ _ H7) as (t'' & _ & Htr).
      eapply (account_shift (option nat) cred cred_shape (fun a => In a starts) starts_short K (fun la => In la lookaheads) HK);
        [eapply look_lookahead; exact Hla|rewrite <- H6; apply IH; exact Hla|eapply trans_start; exact Htr]. }
    split; [|intros la _; apply HA].
    pose proof (account_total (option nat) cred (fun a => In a starts) K (fun la => In la lookaheads) HK None (S n) (S (List.length c)) (ps_states st') (or_introl eq_refl) (HA None)). lia.
  - destruct IH as (_ & IH). destruct (trace_inv g Hwf conv tbl states entries act gp Hgen pr nt0 e Hpf env Htok it0 w0 _ _ _ _ Ht) as (pi & ts & Hi).
    destruct (step_kind g Hwf conv tbl states entries act gp Hgen pr nt0 e Hpf env Htok it0 w0 _ _ _ _ _ Hi Hs)
      as [(tok' & t' & fs' & s & ss & m & _ & _ & _ & Hv' & _)|(_ & _ & _ & (la & s & ss & m & p & q & s0 & ss0 & s1 & kids & rest & pi0 & Hla & Hss & Ha & Hq & Hsk & Htr & Hss' & _))];
      [rewrite Hv in Hv'; discriminate|].
    assert (HA : account la (S n) (List.length c) (ps_states st')).
    { eapply (account_red (option nat) cred cred_shape cred_mono cred_deep (fun a => In a starts) starts_short K (fun la => In la lookaheads) HK);
        [eapply look_lookahead; exact Hla|apply IH; exact Hla| |].
      - rewrite Hss, Hss'. eapply cred_intro; eauto.
      - intros x y l Heq. rewrite Hss' in Heq. inversion Heq; subst. eapply trans_start; eauto. }
    split.
    + pose proof (account_total (option nat) cred (fun a => In a starts) K (fun la => In la lookaheads) HK la (S n) (List.length c) (ps_states st') (look_lookahead _ _ Hla) HA). lia.
    + intros la' Hla'. rewrite Htk in Hla'. rewrite (look_fun env _ _ _ Hla' Hla). exact HA.
Qed.
End Run.
End Linear.
