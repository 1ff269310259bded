(** * EndlessProofs: a parser that makes too many reductions in a row never stops

    Nothing here depends on where the tables come from. *)
From Verif Require Export RunTrace.

(** ** Reductions under one lookahead *)
Section Control.
Variable red : nat -> option (nat * nat).
Variable goto : nat -> nat -> option nat.

Definition cstep (st : list nat) : option (list nat) :=
  match st with
  | [] => None
  | s :: _ => match red s with
              | None => None
              | Some (k, nt) => match skipn k st with
                                | [] => None
                                | s' :: r => match goto s' nt with Some j => Some (j :: s' :: r) | None => None end
                                end
              end
  end.
Inductive csteps : nat -> list nat -> list nat -> Prop :=
| cs_0 st : csteps 0 st st
| cs_S n st st1 st2 : cstep st = Some st1 -> csteps n st1 st2 -> csteps (S n) st st2.
Definition endless (st : list nat) : Prop := forall n, exists st', csteps n st st'.

Lemma csteps_trans n a b : csteps n a b -> forall m c, csteps m b c -> csteps (n + m) a c.
Proof. induction 1; intros; cbn; [auto|econstructor; eauto]. Qed.
Lemma csteps_fun n a b : csteps n a b -> forall c, csteps n a c -> b = c.
Proof. induction 1 as [|n a b c H H1 IH]; intros c' H'; inversion H' as [|? ? ? ? G G1]; subst; [reflexivity|]. apply IH. congruence. Qed.
Lemma csteps_split n : forall m a c, csteps (n + m) a c -> exists b, csteps n a b /\ csteps m b c.
Proof.
  induction n as [|n IH]; cbn; intros m a c H; [exists a; split; [constructor|exact H]|]. inversion H as [|? ? st1 ? G G1]; subst.
  destruct (IH _ _ _ G1) as (b & H1 & H2). exists b. split; [econstructor; eauto|exact H2].
Qed.
Lemma csteps_snoc n a b c : csteps n a b -> cstep b = Some c -> csteps (S n) a c.
Proof. intros H E. replace (S n) with (n + 1) by lia. eapply csteps_trans; [exact H|]. econstructor; [exact E|constructor]. Qed.
Lemma endless_back n a b : csteps n a b -> endless b -> endless a.
Proof.
  intros H He m. destruct (He m) as (c & Hc). pose proof (csteps_trans _ _ _ H _ _ Hc) as H'. replace (n + m) with (m + n) in H' by lia.
  apply csteps_split in H'. destruct H' as (d & Hd & _). eauto.
Qed.
Lemma endless_on n a b : endless a -> csteps n a b -> endless b.
Proof.
  intros He H m. destruct (He (n + m)) as (c & Hc). apply csteps_split in Hc. destruct Hc as (d & H1 & H2). rewrite (csteps_fun _ _ _ H _ H1). eauto.
Qed.
Lemma endless_steps a : endless a -> cstep a <> None.
Proof. intros He E. destruct (He 1) as (c & Hc). inversion Hc; subst. congruence. Qed.

Lemma skipn_app_short {X} k (u v : list X) x r : skipn k u = x :: r -> skipn k (u ++ v) = (x :: r) ++ v.
Proof. revert u. induction k as [|k IH]; intros u H; cbn in *; [subst; reflexivity|]. destruct u as [|y u]; [discriminate|]. cbn. auto. Qed.
Lemma cstep_app u v u' : cstep u = Some u' -> cstep (u ++ v) = Some (u' ++ v).
Proof.
  destruct u as [|s u]; [discriminate|]. cbn [app cstep]. destruct (red s) as [(k, nt)|]; [|discriminate].
  destruct (skipn k (s :: u)) as [|s' r] eqn:E; [discriminate|]. change (s :: u ++ v) with ((s :: u) ++ v). rewrite (skipn_app_short _ _ _ _ _ E). cbn [app].
  destruct (goto s' nt); [|discriminate]. intro H. injection H as <-. reflexivity.
Qed.
Lemma csteps_app n u u' v : csteps n u u' -> csteps n (u ++ v) (u' ++ v).
Proof. induction 1; econstructor; eauto using cstep_app. Qed.
Lemma endless_app u v : endless u -> endless (u ++ v).
Proof. intros He n. destruct (He n) as (c & Hc). eexists. apply csteps_app. exact Hc. Qed.

(** A state that comes back above itself does so forever. *)
Lemma grows_endless n u w : csteps (S n) u (u ++ w) -> endless u.
Proof.
  intro H. assert (Hk : forall k, exists w', csteps (k * S n) u (u ++ w')).
  { induction k as [|k (w' & IH)]; [exists []; rewrite app_nil_r; constructor|]. exists (w' ++ w). cbn [Nat.mul].
    eapply csteps_trans; [exact H|]. rewrite app_assoc. apply csteps_app. exact IH. }
  intro m. destruct (Hk m) as (w' & Hw). replace (m * S n) with (m + m * n) in Hw by lia. apply csteps_split in Hw. destruct Hw as (d & Hd & _). eauto.
Qed.

(** What has been pushed since the bottom of [u] was at the top *)
Definition grown (u : list nat) : Prop := forall a x b y c, u = a ++ x :: b ++ y :: c -> exists n, csteps (S n) [y] (x :: b ++ [y]).
Lemma grown_one x : grown [x].
Proof. intros a x' b y c E. exfalso. apply (f_equal (@List.length _)) in E. rewrite !app_length in E. cbn in E. rewrite app_length in E. cbn in E. lia. Qed.
Lemma skipn_parts {X} k (l : list X) : exists d, l = d ++ skipn k l.
Proof. exists (firstn k l). symmetry. apply firstn_skipn. Qed.
Lemma grown_step u u' : grown u -> cstep u = Some u' -> grown u'.
Proof.
  intros Hg H a x b y c E. destruct u as [|s u]; [discriminate|]. cbn [cstep] in H. destruct (red s) as [(k, nt)|] eqn:Er; [|discriminate].
  destruct (skipn k (s :: u)) as [|s' r] eqn:Ek; [discriminate|]. destruct (goto s' nt) as [j|] eqn:Ej; [|discriminate]. injection H as <-.
  pose proof (firstn_skipn k (s :: u)) as Hd. rewrite Ek in Hd.
  destruct a as [|x0 a]; cbn [app] in E; injection E as E1 E2.
  - (* the new state *) subst x.
    assert (Hstep : cstep (firstn k (s :: u) ++ b ++ [y]) = Some (j :: b ++ [y])).
    { assert (Hh : exists z, firstn k (s :: u) ++ b ++ [y] = s :: z).
      { rewrite E2 in Hd. clear - Hd. destruct (firstn k (s :: u)) as [|q z]; cbn [app] in *; [destruct b as [|q z]; cbn [app] in *|]; injection Hd as -> _; eauto. }
      assert (Hlen : List.length (firstn k (s :: u)) = k).
      { apply firstn_length_le. destruct (Nat.le_gt_cases k (List.length (s :: u))) as [Hle|Hgt]; [exact Hle|]. rewrite skipn_all2 in Ek by lia. discriminate. }
      destruct Hh as (z & Hz). rewrite Hz. cbn [cstep]. rewrite Er. rewrite <- Hz. rewrite skipn_app, Hlen, Nat.sub_diag. rewrite skipn_all2 by lia. cbn [app skipn].
      destruct b as [|b0 b]; cbn [app] in E2 |- *; injection E2 as <- _; rewrite Ej; reflexivity. }
    assert (Hsum : s :: u = (firstn k (s :: u) ++ b) ++ y :: c) by (rewrite <- app_assoc, <- E2; symmetry; exact Hd).
    destruct (firstn k (s :: u) ++ b) as [|q z] eqn:Eq.
    + apply app_eq_nil in Eq. destruct Eq as (Eq & ->). rewrite Eq in Hstep. exists 0. econstructor; [exact Hstep|constructor].
    + destruct (Hg [] q z y c Hsum) as (n & Hn). rewrite app_assoc, Eq in Hstep. exists (S n). eapply csteps_snoc; eauto.
  - (* an old one *) apply (Hg (firstn k (s :: u) ++ a) x b y c). rewrite <- app_assoc, <- E2. symmetry. exact Hd.
Qed.
Lemma grown_endless a x b c : grown (a ++ x :: b ++ x :: c) -> endless (a ++ x :: b ++ x :: c).
Proof.
  intro Hg. destruct (Hg a x b x c eq_refl) as (n & Hn).
  assert (He : endless [x]) by exact (grows_endless n [x] (b ++ [x]) Hn).
  change (a ++ x :: b ++ x :: c) with (a ++ [x] ++ (b ++ x :: c)). rewrite app_assoc. apply endless_app. destruct a as [|x' a]; [exact He|].
  destruct (Hg [] x' a x (b ++ x :: c) eq_refl) as (n' & Hn'). exact (endless_on _ _ _ He Hn').
Qed.

Lemma repeats (u : list nat) : NoDup u \/ exists a x b c, u = a ++ x :: b ++ x :: c.
Proof.
  induction u as [|y u [IH|(a & x & b & c & ->)]]; [left; constructor| |right; exists (y :: a), x, b, c; reflexivity].
  destruct (in_dec Nat.eq_dec y u) as [Hi|Hi]; [|left; constructor; assumption].
  apply in_split in Hi. destruct Hi as (b & c & ->). right. exists [], y, b, c. reflexivity.
Qed.

(** The states that can be pushed *)
Variable vals : list nat.
Hypothesis goto_vals : forall s nt j, goto s nt = Some j -> In j vals.
Fixpoint stacks (n : nat) : list (list nat) :=
  match n with 0 => [[]] | S n' => [] :: flat_map (fun l => map (fun x => x :: l) vals) (stacks n') end.
Lemma in_stacks n : forall u, List.length u <= n -> incl u vals -> In u (stacks n).
Proof.
  induction n as [|n IH]; intros [|x u] Hl Hi; cbn [List.length stacks] in *; try (left; reflexivity); [lia|].
  right. apply in_flat_map. exists u. split; [apply IH; [lia|intros z Hz; apply Hi; right; exact Hz]|].
  apply in_map_iff. exists x. split; [reflexivity|apply Hi; left; reflexivity].
Qed.
Definition height : nat := List.length vals.
Definition rounds : nat := List.length (stacks height).
Lemma stacks_lists : stacks height <> []. Proof. destruct height; discriminate. Qed.

Lemma short u : grown u -> incl u vals -> List.length u <= height \/ endless u.
Proof.
  intros Hg Hi. destruct (repeats u) as [H|(a & x & b & c & ->)]; [left|right; apply grown_endless; exact Hg].
  apply NoDup_incl_length; assumption.
Qed.
Lemma cycle_endless n a : csteps (S n) a a -> endless a.
Proof. intro H. apply (grows_endless n a []). rewrite app_nil_r. exact H. Qed.

Lemma local v n : forall vis u st', (forall w, In w vis -> exists m, csteps (S m) (w ++ v) (u ++ v)) -> NoDup vis -> incl vis (stacks height) ->
  u <> [] -> grown u -> incl u vals -> csteps n (u ++ v) st' ->
  endless (u ++ v) \/
  (exists u', st' = u' ++ v /\ List.length u' <= height /\ n + List.length vis <= rounds) \/
  (exists m v1 v2 j, v = v1 ++ v2 /\ v1 <> [] /\ In j vals /\ csteps (S m) (u ++ v) (j :: v2) /\ S m + List.length vis <= rounds /\ S m <= n /\
     csteps (n - S m) (j :: v2) st').
Proof.
  induction n as [|n IH]; intros vis u st' Hvis Hnd Hinc Hne Hg Hi H.
  - inversion H; subst. destruct (short u Hg Hi) as [Hs|He]; [|left; apply endless_app; exact He].
    right. left. exists u. split; [reflexivity|split; [exact Hs|]]. apply NoDup_incl_length; assumption.
  - inversion H as [|? ? st1 ? Hc Hn]; subst. destruct (short u Hg Hi) as [Hs|He]; [|left; apply endless_app; exact He].
    destruct (in_dec (list_eq_dec Nat.eq_dec) u vis) as [Hin|Hin].
    { left. destruct (Hvis u Hin) as (m & Hm). eapply cycle_endless; exact Hm. }
    assert (Hinc' : incl (u :: vis) (stacks height)) by (intros z [<-|Hz]; [apply in_stacks; assumption|auto]).
    assert (Hnd' : NoDup (u :: vis)) by (constructor; assumption).
    assert (Hlen : S (List.length vis) <= rounds) by (apply (NoDup_incl_length Hnd' Hinc')).
    assert (Hvis' : forall z, cstep (u ++ v) = Some (z ++ v) -> forall w, In w (u :: vis) -> exists m, csteps (S m) (w ++ v) (z ++ v)).
    { intros z Hz w [<-|Hw]; [exists 0; econstructor; [exact Hz|constructor]|]. destruct (Hvis w Hw) as (m & Hm). exists (S m). eapply csteps_snoc; eauto. }
    assert (Hgo : forall z, z <> [] -> grown z -> incl z vals -> st1 = z ++ v ->
      endless (u ++ v) \/ (exists u', st' = u' ++ v /\ List.length u' <= height /\ S n + List.length vis <= rounds) \/
      (exists m v1 v2 j, v = v1 ++ v2 /\ v1 <> [] /\ In j vals /\ csteps (S m) (u ++ v) (j :: v2) /\ S m + List.length vis <= rounds /\ S m <= S n /\
        csteps (S n - S m) (j :: v2) st')).
    { intros z Hz1 Hz2 Hz3 ->. destruct (IH (u :: vis) z st' (Hvis' z Hc) Hnd' Hinc' Hz1 Hz2 Hz3 Hn) as [He|[(u' & E1 & E2 & E3)|(m & v1 & v2 & j & E1 & E2 & E3 & E4 & E5 & E6 & E7)]].
      - left. eapply endless_back; [econstructor; [exact Hc|constructor]|exact He].
      - right. left. exists u'. cbn in E3. repeat split; auto. lia.
      - right. right. exists (S m), v1, v2, j. cbn in E5. repeat split; auto; try lia. econstructor; eauto. }
    destruct u as [|s u0] eqn:Eu; [contradiction|]. rewrite <- Eu in *. assert (Hhd : u ++ v = s :: (u0 ++ v)) by (rewrite Eu; reflexivity).
    pose proof Hc as Hc0. rewrite Hhd in Hc. cbn [cstep] in Hc. destruct (red s) as [(k, nt)|] eqn:Er; [|discriminate]. rewrite <- Hhd in Hc.
    destruct (skipn k u) as [|s1 r1] eqn:Ek.
    + assert (Hk : List.length u <= k).
      { destruct (Nat.le_gt_cases (List.length u) k) as [Hle|Hgt]; [exact Hle|]. apply (f_equal (@List.length _)) in Ek. rewrite skipn_length in Ek. cbn in Ek. lia. }
      rewrite skipn_app, Ek in Hc. cbn [app] in Hc. destruct (skipn (k - List.length u) v) as [|s' r] eqn:Ev; [discriminate|].
      destruct (goto s' nt) as [j|] eqn:Ej; [|discriminate]. injection Hc as <-. pose proof (firstn_skipn (k - List.length u) v) as Hfs. rewrite Ev in Hfs.
      destruct (Nat.eq_dec k (List.length u)) as [E0|E0].
      * apply (Hgo [j]); [discriminate|apply grown_one|intros z [<-|[]]; eapply goto_vals; eauto|]. rewrite E0, Nat.sub_diag in Ev. cbn in Ev. rewrite Ev. reflexivity.
      * right. right. exists 0, (firstn (k - List.length u) v), (s' :: r), j. repeat split; try (cbn; lia).
        -- symmetry. exact Hfs.
        -- intro E. apply (f_equal (@List.length _)) in E. rewrite firstn_length in E. cbn in E. clear - E Ev E0 Hk. destruct v; [rewrite skipn_nil in Ev; discriminate|cbn in E; lia].
        -- eapply goto_vals; eauto.
        -- econstructor; [exact Hc0|constructor].
        -- replace (S n - 1) with n by lia. exact Hn.
    + assert (Hcu : exists z, cstep u = Some z).
      { rewrite (skipn_app_short _ _ _ _ _ Ek) in Hc. cbn [app] in Hc. rewrite Eu. cbn [cstep]. rewrite Er, <- Eu, Ek. destruct (goto s1 nt); [eauto|discriminate]. }
      destruct Hcu as (z & Hz). pose proof (cstep_app u v z Hz) as Hz'. assert (st1 = z ++ v) by congruence. apply (Hgo z); auto.
      * rewrite Eu in Hz. cbn [cstep] in Hz. rewrite Er, <- Eu, Ek in Hz. destruct (goto s1 nt); [|discriminate]. injection Hz as <-. discriminate.
      * eapply grown_step; eauto.
      * rewrite Eu in Hz. cbn [cstep] in Hz. rewrite Er, <- Eu, Ek in Hz. destruct (goto s1 nt) as [j|] eqn:Ej; [|discriminate]. injection Hz as <-.
        intros y [<-|Hy]; [eapply goto_vals; eauto|]. apply Hi. rewrite <- (firstn_skipn k u), Ek. apply in_or_app. right. exact Hy.
Qed.

Lemma phase_parts len : forall v u n st', List.length v <= len -> u <> [] -> grown u -> incl u vals -> csteps n (u ++ v) st' ->
  endless (u ++ v) \/ exists u' v1 v2, st' = u' ++ v2 /\ v = v1 ++ v2 /\ List.length u' <= height /\ n <= rounds * (List.length v1 + 1).
Proof.
  induction len as [|len IH]; intros v u n st' Hl Hne Hg Hi H;
    (destruct (local v n [] u st') as [He|[(u' & E1 & E2 & E3)|(m & v1 & v2 & j & E1 & E2 & E3 & E4 & E5 & E6 & E7)]]; auto;
       [intros w []|constructor|intros w []|right; exists u', [], v; cbn in *; repeat split; auto; lia|]).
  - exfalso. destruct v; [|cbn in Hl; lia]. destruct v1; [contradiction|discriminate].
  - subst v. rewrite app_length in Hl. assert (0 < List.length v1) by (destruct v1; [contradiction|cbn; lia]).
    destruct (IH v2 [j] (n - S m) st') as [He|(u' & w1 & w2 & F1 & F2 & F3 & F4)]; try (lia || discriminate || apply grown_one || exact E7).
    + intros z [<-|[]]. exact E3.
    + left. eapply endless_back; eauto.
    + right. exists u', (v1 ++ w1), w2. subst v2. rewrite <- app_assoc. repeat split; auto. rewrite app_length.
      cbn [List.length] in E5. assert (n <= rounds + rounds * (List.length w1 + 1)) by lia.
      assert (rounds * (List.length w1 + 2) <= rounds * (List.length v1 + List.length w1 + 1)) by (apply Nat.mul_le_mono_l; lia). lia.
Qed.
(** Reductions under one lookahead, from any stack: their number is at most what is paid for by the entries they remove, or there is no end to them. *)
Lemma phase st n st' : st <> [] -> incl (firstn 1 st) vals -> csteps n st st' ->
  endless st \/ n + rounds * List.length st' <= rounds * List.length st + rounds * height /\ n <= rounds * List.length st.
Proof.
  intros Hne Hi H. destruct st as [|s v]; [contradiction|].
  destruct (phase_parts (List.length v) v [s] n st') as [He|(u' & v1 & v2 & E1 & E2 & E3 & E4)]; auto; [discriminate|apply grown_one|].
  right. subst st' v. cbn [List.length]. rewrite !app_length.
  assert (rounds * (List.length u' + List.length v2) <= rounds * (height + List.length v2)) by (apply Nat.mul_le_mono_l; lia).
  split; lia.
Qed.
End Control.
