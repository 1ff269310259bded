(** * AutomatonProofs: the LR(1) automaton built by src/lr1.rs:239-344 *)
From Verif Require Export ClosureProofs.

(** Transition of the finished automaton *)
Definition trans (states : list lr1_state) (s : nat) (X : symbol) : option nat :=
  match nth_error states s with
  | Some st => map_get symbol_eqb X (st_goto st)
  | None => None
  end.

(** A state stack (top first) reached from [e] by the symbols [pi] (last symbol first). *)
Inductive stack_path (states : list lr1_state) (e : nat) : list symbol -> list nat -> Prop :=
| sp_nil : stack_path states e [] [e]
| sp_cons : forall X pi s s' ss,
    stack_path states e pi (s :: ss) -> trans states s X = Some s' ->
    stack_path states e (X :: pi) (s' :: s :: ss).

Lemma foldM_done {X B} (P : B -> Prop) (D : X -> B -> Prop) (f : B -> X -> res B) l :
  (forall b x b', In x l -> P b -> f b x = Ok b' ->
     P b' /\ D x b' /\ forall y, D y b -> D y b') ->
  forall b b', P b -> foldM f l b = Ok b' ->
  P b' /\ (forall x, In x l -> D x b') /\ (forall y, D y b -> D y b').
Proof.
  induction l as [|x l IH]; simpl; intros Hf b b' HP H.
  - inversion H; subst. repeat split; auto. intros x [].
  - apply bind_Ok in H. destruct H as (b1 & H1 & H2).
    destruct (Hf b x b1 (or_introl eq_refl) HP H1) as (H3 & H4 & H5).
    destruct (IH (fun b x b' Hx => Hf b x b' (or_intror Hx)) b1 b' H3 H2) as (H6 & H7 & H8).
    repeat split; auto. intros y [<-|Hy]; auto.
Qed.

Section Automaton.
Context {A : Type}.
Variable g : grammar A.
Variable tbl : first_table.
Variable ho : hash_order.
Hypothesis Hho : hash_order_ok ho.

(** Items are indexed by their position. *)
Record idx_ok (states : list lr1_state) (indices : list (list item * nat)) : Prop := {
  ix_get : forall i s, nth_error states i = Some s -> map_get items_eqb (st_items s) indices = Some i;
  ix_inv : forall S j, map_get items_eqb S indices = Some j ->
           exists s, nth_error states j = Some s /\ st_items s = S
}.

Lemma idx_ok_app states indices S :
  idx_ok states indices -> map_get items_eqb S indices = None ->
  idx_ok (states ++ [{| st_items := S; st_goto := [] |}])
         (map_insert items_eqb S (List.length states) indices).
Proof.
  intros [H1 H2] HS. constructor.
  - intros i s Hi. destruct (Nat.lt_ge_cases i (List.length states)) as [Hlt|Hge].
    + rewrite nth_error_app1 in Hi by auto. apply H1 in Hi.
      rewrite (map_get_insert_other items_eqb items_eqb_spec); auto.
      intro; subst S. congruence.
    + rewrite nth_error_app2 in Hi by auto.
      destruct (i - List.length states) as [|k] eqn:E; simpl in Hi; [|destruct k; discriminate].
      inversion Hi; subst. simpl. rewrite (map_get_insert_same items_eqb items_eqb_spec).
      f_equal; lia.
  - intros S' j Hj. destruct (items_eqb S' S) eqn:E.
    + apply items_eqb_spec in E; subst S'.
      rewrite (map_get_insert_same items_eqb items_eqb_spec) in Hj. inversion Hj; subst j.
      exists {| st_items := S; st_goto := [] |}. split; auto.
      rewrite nth_error_app2, Nat.sub_diag by lia. auto.
    + assert (S' <> S) as Hne.
      { intro; subst. assert (items_eqb S S = true) by (apply items_eqb_spec; auto). congruence. }
      rewrite (map_get_insert_other items_eqb items_eqb_spec) in Hj; auto.
      apply H2 in Hj. destruct Hj as (s & Hs & <-). exists s; split; auto.
      rewrite nth_error_app1; auto. apply nth_error_Some; congruence.
Qed.

(** ** One round *)
Record round_inv (states : list lr1_state) (acc : round_acc) : Prop := {
  ri_next : ra_next acc = List.length (states ++ ra_new acc);
  ri_idx : idx_ok (states ++ ra_new acc) (ra_indices acc);
  ri_gotos : forall i X j, In (i, X, j) (ra_gotos acc) ->
    exists si sj, nth_error states i = Some si /\ nth_error (states ++ ra_new acc) j = Some sj /\
      goto_set g tbl (st_items si) X (st_items sj) /\ st_items sj <> [];
  ri_new : forall k s, nth_error (ra_new acc) k = Some s ->
    st_goto s = [] /\ sorted_items (st_items s) /\
    exists i X, In (i, X, List.length states + k) (ra_gotos acc)
}.

Definition goto_done (states : list lr1_state) (i : nat) (X : symbol) (acc : round_acc) : Prop :=
  forall s it, nth_error states i = Some s -> In it (st_items s) -> next_symbol g it = Some X ->
    exists j, In (i, X, j) (ra_gotos acc).

Lemma round_symbol_ok fuel states i s acc X acc' :
  nth_error states i = Some s -> round_inv states acc ->
  round_symbol ho fuel g tbl i (st_items s) acc X = Ok acc' ->
  round_inv states acc' /\ goto_done states i X acc' /\
  (forall e, In e (ra_gotos acc) -> In e (ra_gotos acc')).
Proof.
  intros Hs [R1 R2 R3 R4] H. unfold round_symbol in H.
  apply bind_Ok in H. destruct H as (gt & Hgt & H).
  pose proof (compute_lr1_goto_spec g tbl ho Hho _ _ _ _ Hgt) as Hset.
  destruct gt as [|x0 gt0]; [|remember (x0 :: gt0) as gt; assert (Hne : gt <> []) by (subst; discriminate); clear Heqgt].
  - inversion H; subst. split; [constructor; auto|]. split; auto.
    intros s' it Hs' Hit Hn. exfalso. rewrite Hs in Hs'. inversion Hs'; subst s'.
    apply (proj2 (goto_set_nonempty g tbl _ _ _ Hset)); eauto.
  - destruct (map_get items_eqb gt (ra_indices acc)) as [j|] eqn:Ej; inversion H; subst; clear H.
    + split; [|split].
      * constructor; simpl; auto.
        -- intros i' X' j' Hin. apply in_app_iff in Hin. destruct Hin as [Hin|[Hin|[]]]; auto.
           inversion Hin; subst. apply (ix_inv _ _ R2) in Ej. destruct Ej as (sj & Hj & <-).
           exists s, sj. auto.
        -- intros k s' Hk. destruct (R4 k s' Hk) as (H1 & H2 & i' & X' & H3). repeat split; auto.
           exists i', X'. apply in_app_iff; auto.
      * intros s' it Hs' _ _. exists j. simpl. apply in_app_iff; right; left; auto.
      * simpl. intros e He. apply in_app_iff; auto.
    + split; [|split].
      * constructor; simpl.
        -- rewrite R1, !app_length. simpl. lia.
        -- rewrite app_assoc, R1. apply idx_ok_app; auto.
        -- intros i' X' j' Hin. rewrite app_assoc. apply in_app_iff in Hin.
           destruct Hin as [Hin|[Hin|[]]].
           ++ destruct (R3 _ _ _ Hin) as (si & sj & H1 & H2 & H3 & H4). exists si, sj. repeat split; try apply H3; auto.
              rewrite nth_error_app1; auto. apply nth_error_Some; congruence.
           ++ inversion Hin; subst. exists s, {| st_items := gt; st_goto := [] |}. simpl.
              repeat split; try apply Hset; auto. rewrite R1, nth_error_app2, Nat.sub_diag by lia. auto.
        -- intros k s' Hk. destruct (Nat.lt_ge_cases k (List.length (ra_new acc))) as [Hlt|Hge].
           ++ rewrite nth_error_app1 in Hk by auto.
              destruct (R4 k s' Hk) as (H1 & H2 & i' & X' & H3). repeat split; auto.
              exists i', X'. apply in_app_iff; auto.
           ++ rewrite nth_error_app2 in Hk by auto.
              destruct (k - List.length (ra_new acc)) as [|k'] eqn:E; simpl in Hk; [|destruct k'; discriminate].
              inversion Hk; subst. simpl. split; auto. split; [apply Hset|].
              exists i, X. apply in_app_iff; right; left. rewrite R1, app_length. repeat f_equal; lia.
      * intros s' it Hs' _ _. exists (ra_next acc). simpl. apply in_app_iff; right; left; auto.
      * simpl. intros e He. apply in_app_iff; auto.
Qed.

Lemma round_state_ok fuel states i s (Hs : nth_error states i = Some s) l : forall acc acc',
  round_inv states acc ->
  foldM (round_symbol ho fuel g tbl i (st_items s)) l acc = Ok acc' ->
  round_inv states acc' /\ (forall X, In X l -> goto_done states i X acc') /\
  (forall e, In e (ra_gotos acc) -> In e (ra_gotos acc')).
Proof.
  induction l as [|X l IH]; simpl; intros acc acc' HP H.
  - inversion H; subst. split; [auto|split; auto]. intros X [].
  - apply bind_Ok in H. destruct H as (acc1 & H1 & H2).
    destruct (round_symbol_ok _ _ _ _ _ _ _ Hs HP H1) as (H3 & H4 & H5).
    destruct (IH _ _ H3 H2) as (H6 & H7 & H8). split; [auto|split; auto].
    intros Y [<-|HY]; auto. intros s' it Hs' Hit Hn.
    destruct (H4 s' it Hs' Hit Hn) as (j & Hj). eauto.
Qed.

Lemma round_ok fuel states indices r :
  idx_ok states indices ->
  foldM (round_state ho fuel g tbl) (enumerate states)
        {| ra_new := []; ra_indices := indices; ra_gotos := []; ra_next := List.length states |} = Ok r ->
  round_inv states r /\
  forall i X, i < List.length states -> In X (all_symbols g) -> goto_done states i X r.
Proof.
  intros Hix H.
  assert (H0 : round_inv states {| ra_new := []; ra_indices := indices; ra_gotos := [];
                                   ra_next := List.length states |}).
  { constructor; simpl; auto.
    - rewrite app_nil_r; auto.
    - rewrite app_nil_r; auto.
    - intros i X j [].
    - intros [|k] s Hk; discriminate. }
  apply (foldM_done (round_inv states)
           (fun x acc => forall X, In X (all_symbols g) -> goto_done states (fst x) X acc)) in H; auto.
  - destruct H as (H1 & H2 & _). split; auto. intros i X Hi HX.
    destruct (nth_error states i) as [s|] eqn:E; [|apply nth_error_None in E; lia].
    apply (H2 (i, s)); auto. apply enumerate_nth_error; auto.
  - intros b [i s] b' Hin HP Hf. apply enumerate_nth_error in Hin. unfold round_state in Hf. simpl in *.
    destruct (round_state_ok _ _ _ _ Hin _ _ _ HP Hf) as (H1 & H2 & H3). split; [auto|split; auto].
    intros [i' s'] Hd X HX s1 it Hs1 Hit Hn. destruct (Hd X HX s1 it Hs1 Hit Hn) as (j & Hj).
    exists j; auto.
Qed.

(** ** Recording the transitions *)
Lemma apply_gotos_ok gs : forall states upd states' upd',
  apply_gotos gs states upd = (states', upd') ->
  List.length states' = List.length states /\
  (forall i s', nth_error states' i = Some s' -> exists s, nth_error states i = Some s /\
     st_items s' = st_items s /\
     (NoDup (map fst (st_goto s)) -> NoDup (map fst (st_goto s'))) /\
     (forall X j, map_get symbol_eqb X (st_goto s') = Some j ->
        In (i, X, j) gs \/ map_get symbol_eqb X (st_goto s) = Some j) /\
     (forall X j, map_get symbol_eqb X (st_goto s) = Some j ->
        exists j', map_get symbol_eqb X (st_goto s') = Some j') /\
     (forall X j, In (i, X, j) gs -> exists j', map_get symbol_eqb X (st_goto s') = Some j')) /\
  (upd = true -> upd' = true).
Proof.
  induction gs as [|[[i X] j] gs IH]; simpl; intros states upd states' upd' H.
  - inversion H; subst. split; auto. split; auto. intros i s Hs. exists s. repeat split; eauto. intros X j [].
  - set (f := fun s => {| st_items := st_items s;
                          st_goto := map_insert symbol_eqb X j (st_goto s) |}) in H.
    apply IH in H. clear IH. destruct H as (H1 & H2 & H3). rewrite update_nth_length in H1.
    split; auto. split.
    + intros i' s' Hs'. destruct (H2 i' s' Hs') as (s1 & Hs1 & G1 & G2 & G3 & G4 & G5).
      rewrite nth_error_update_nth in Hs1.
      destruct (Nat.eqb_spec i i') as [<-|Hne].
      * destruct (nth_error states i) as [s|] eqn:Es; simpl in Hs1; [|discriminate].
        inversion Hs1; subst s1; clear Hs1. exists s. simpl in *. split; auto. split; auto. split; [|split; [|split]].
        -- intro Hnd. apply G2. apply map_insert_NoDup; auto. apply symbol_eqb_spec.
        -- intros Y k Hk. apply G3 in Hk. destruct Hk as [Hk|Hk]; auto.
           destruct (symbol_eq_dec Y X) as [->|HXY].
           ++ rewrite (map_get_insert_same symbol_eqb symbol_eqb_spec) in Hk. inversion Hk; auto.
           ++ rewrite (map_get_insert_other symbol_eqb symbol_eqb_spec) in Hk; auto.
        -- intros Y k Hk. destruct (symbol_eq_dec Y X) as [->|HXY].
           ++ apply (G4 X j). apply (map_get_insert_same symbol_eqb symbol_eqb_spec).
           ++ apply (G4 Y k). rewrite (map_get_insert_other symbol_eqb symbol_eqb_spec); auto.
        -- intros Y k [Hk|Hk]; eauto. inversion Hk; subst. apply (G4 Y k).
           apply (map_get_insert_same symbol_eqb symbol_eqb_spec).
      * exists s1. repeat split; auto.
        -- intros Y k Hk. apply G3 in Hk. destruct Hk; auto.
        -- intros Y k [Hk|Hk]; eauto. inversion Hk; subst. congruence.
    + intros ->. auto.
Qed.

(** ** The loop *)
Record aut_inv (entries : list (nat * nat)) (states : list lr1_state)
  (indices : list (list item * nat)) : Prop := {
  ai_idx : idx_ok states indices;
  ai_sorted : forall i s, nth_error states i = Some s -> sorted_items (st_items s);
  ai_nodup : forall i s, nth_error states i = Some s -> NoDup (map fst (st_goto s));
  ai_goto : forall i s X j, nth_error states i = Some s -> map_get symbol_eqb X (st_goto s) = Some j ->
    exists s', nth_error states j = Some s' /\ goto_set g tbl (st_items s) X (st_items s') /\
      st_items s' <> [];
  ai_reach : forall i, i < List.length states ->
    exists nt e pi ss, In (nt, e) entries /\ stack_path states e pi (i :: ss)
}.

Lemma trans_mono states states' :
  (forall i s, nth_error states i = Some s -> exists s', nth_error states' i = Some s' /\
     forall X j, map_get symbol_eqb X (st_goto s) = Some j -> map_get symbol_eqb X (st_goto s') = Some j) ->
  forall e pi ss, stack_path states e pi ss -> stack_path states' e pi ss.
Proof.
  intros H e pi ss Hp. induction Hp as [|X pi s s' ss Hp IH Ht]; constructor; auto.
  unfold trans in *. destruct (nth_error states s) as [st|] eqn:E; [|discriminate].
  destruct (H _ _ E) as (st' & -> & H1). auto.
Qed.

Lemma automaton_round_ok fuel entries states indices states' indices' upd :
  aut_inv entries states indices ->
  automaton_round ho fuel g tbl states indices = Ok (states', indices', upd) ->
  aut_inv entries states' indices' /\
  (upd = false -> forall i s it X, nth_error states' i = Some s -> In it (st_items s) ->
     next_symbol g it = Some X -> In X (all_symbols g) ->
     exists j, map_get symbol_eqb X (st_goto s) = Some j).
Proof.
  intros [I1 I2 I3 I4 I5] H. unfold automaton_round in H.
  apply bind_Ok in H. destruct H as (r & Hr & H).
  destruct (apply_gotos (ra_gotos r) (states ++ ra_new r) _) as [st1 upd1] eqn:Ea.
  inversion H; subst st1 indices' upd1; clear H.
  destruct (round_ok _ _ _ _ I1 Hr) as ([R1 R2 R3 R4] & Rd).
  destruct (apply_gotos_ok _ _ _ _ _ Ea) as (G1 & G2 & G3).
  (* old and new states *)
  assert (Hold : forall i s, nth_error (states ++ ra_new r) i = Some s ->
            nth_error states i = Some s \/
            exists k, i = List.length states + k /\ nth_error (ra_new r) k = Some s).
  { intros i s Hi. destruct (Nat.lt_ge_cases i (List.length states)) as [Hlt|Hge].
    - rewrite nth_error_app1 in Hi; auto.
    - rewrite nth_error_app2 in Hi; auto. right. exists (i - List.length states). split; auto. lia. }
  assert (Hgo : forall i s', nth_error states' i = Some s' -> forall X j,
            map_get symbol_eqb X (st_goto s') = Some j ->
            exists sj, nth_error states' j = Some sj /\
              goto_set g tbl (st_items s') X (st_items sj) /\ st_items sj <> []).
  { intros i s' Hi X j Hj. destruct (G2 i s' Hi) as (s & Hs & E1 & _ & E3 & _).
    assert (exists sj, nth_error (states ++ ra_new r) j = Some sj /\
              goto_set g tbl (st_items s') X (st_items sj) /\ st_items sj <> []) as (sj & Hsj & K1 & K2).
    { apply E3 in Hj. destruct Hj as [Hj|Hj].
      - destruct (R3 _ _ _ Hj) as (si & sj & K1 & K2 & K3 & K4). exists sj. rewrite E1.
        rewrite nth_error_app1 in Hs by (apply nth_error_Some; congruence).
        rewrite Hs in K1; inversion K1; subst si. auto.
      - destruct (Hold _ _ Hs) as [Hs'|(k & -> & Hk)].
        + destruct (I4 _ _ _ _ Hs' Hj) as (sj & K1 & K2 & K3). exists sj. rewrite E1. split; auto.
          rewrite nth_error_app1; auto. apply nth_error_Some; congruence.
        + destruct (R4 _ _ Hk) as (K1 & _). rewrite K1 in Hj. discriminate. }
    destruct (nth_error states' j) as [sj'|] eqn:Ej.
    - destruct (G2 j sj' Ej) as (sj0 & Hsj0 & E1' & _). rewrite Hsj in Hsj0; inversion Hsj0; subst sj0.
      exists sj'. rewrite E1'. auto.
    - apply nth_error_None in Ej. rewrite G1 in Ej.
      assert (j < List.length (states ++ ra_new r)) by (apply nth_error_Some; congruence). lia. }
  split; [constructor|].
  - constructor.
    + intros i s' Hi. destruct (G2 i s' Hi) as (s & Hs & -> & _). apply (ix_get _ _ R2); auto.
    + intros S j Hj. apply (ix_inv _ _ R2) in Hj. destruct Hj as (s & Hs & <-).
      destruct (nth_error states' j) as [s'|] eqn:Ej.
      * destruct (G2 j s' Ej) as (s0 & Hs0 & E1 & _). exists s'. split; auto. congruence.
      * apply nth_error_None in Ej. rewrite G1 in Ej.
        assert (j < List.length (states ++ ra_new r)) by (apply nth_error_Some; congruence). lia.
  - intros i s' Hi. destruct (G2 i s' Hi) as (s & Hs & -> & _).
    destruct (Hold _ _ Hs) as [Hs'|(k & -> & Hk)]; [eauto|]. apply (R4 _ _ Hk).
  - intros i s' Hi. destruct (G2 i s' Hi) as (s & Hs & _ & E2 & _). apply E2.
    destruct (Hold _ _ Hs) as [Hs'|(k & -> & Hk)]; [eauto|].
    destruct (R4 _ _ Hk) as (-> & _). constructor.
  - intros i s X j Hi Hj. eapply Hgo; eauto.
  - (* reachability *)
    assert (Hmono : forall e pi ss, stack_path states e pi ss -> stack_path states' e pi ss).
    { apply trans_mono. intros i s Hi.
      assert (Hi' : nth_error (states ++ ra_new r) i = Some s).
      { rewrite nth_error_app1; auto. apply nth_error_Some; congruence. }
      destruct (nth_error states' i) as [s'|] eqn:Ei.
      - destruct (G2 i s' Ei) as (s0 & Hs0 & E1 & _ & _ & E4 & _).
        rewrite Hi' in Hs0; inversion Hs0; subst s0. exists s'. split; auto.
        intros X j Hj. destruct (E4 X j Hj) as (j' & Hj').
        destruct (Hgo _ _ Ei _ _ Hj') as (sj' & K1 & K2 & K3).
        destruct (I4 _ _ _ _ Hi Hj) as (sj & L1 & L2 & L3). rewrite E1 in K2.
        pose proof (goto_set_unique _ _ _ _ _ _ K2 L2) as Heq.
        assert (j' = j); [|congruence].
        destruct (G2 _ _ K1) as (sj0 & M1 & M2 & _).
        assert (N1 : nth_error (states ++ ra_new r) j = Some sj).
        { rewrite nth_error_app1; auto. apply nth_error_Some; congruence. }
        apply (ix_get _ _ R2) in M1. apply (ix_get _ _ R2) in N1. rewrite <- M2, Heq in M1. congruence.
      - apply nth_error_None in Ei. rewrite G1 in Ei.
        assert (i < List.length (states ++ ra_new r)) by (apply nth_error_Some; congruence). lia. }
    intros i Hi. rewrite G1 in Hi.
    destruct (Nat.lt_ge_cases i (List.length states)) as [Hlt|Hge].
    + destruct (I5 i Hlt) as (nt & e & pi & ss & Hin & Hp). exists nt, e, pi, ss; auto.
    + rewrite app_length in Hi.
      destruct (nth_error (ra_new r) (i - List.length states)) as [s|] eqn:Ek.
      * destruct (R4 _ _ Ek) as (_ & _ & i0 & X & Hin).
        replace (List.length states + (i - List.length states)) with i in Hin by lia.
        destruct (R3 _ _ _ Hin) as (si & sj & K1 & K2 & K3 & K4).
        assert (Hi0 : i0 < List.length states) by (apply nth_error_Some; congruence).
        destruct (I5 i0 Hi0) as (nt & e & pi & ss & Hen & Hp).
        exists nt, e, (X :: pi), (i0 :: ss). split; auto. constructor; auto.
        unfold trans. destruct (nth_error states' i0) as [s0|] eqn:E0.
        -- destruct (G2 _ _ E0) as (s1 & Hs1 & E1 & _ & _ & _ & E6).
           destruct (E6 _ _ Hin) as (j' & Hj').
           destruct (Hgo _ _ E0 _ _ Hj') as (sj' & L1 & L2 & L3).
           rewrite nth_error_app1 in Hs1 by auto. rewrite K1 in Hs1; inversion Hs1; subst s1.
           rewrite E1 in L2. pose proof (goto_set_unique _ _ _ _ _ _ K3 L2) as Heq.
           destruct (G2 _ _ L1) as (sj0 & M1 & M2 & _).
           apply (ix_get _ _ R2) in M1. apply (ix_get _ _ R2) in K2. rewrite <- M2, <- Heq in M1. congruence.
        -- apply nth_error_None in E0. rewrite G1, app_length in E0. lia.
      * apply nth_error_None in Ek. lia.
  - intros Hu i s' it X Hi Hit Hn HX. destruct (G2 i s' Hi) as (s & Hs & E1 & _ & _ & _ & E6).
    assert (ra_new r = []) as Hnew.
    { destruct (ra_new r); auto. rewrite (G3 eq_refl) in Hu. discriminate. }
    rewrite Hnew, app_nil_r in Hs.
    assert (Hlt : i < List.length states) by (apply nth_error_Some; congruence).
    rewrite E1 in Hit. destruct (Rd i X Hlt HX s it Hs Hit Hn) as (j & Hj). eauto.
Qed.

Lemma automaton_loop_ok n fuel entries : forall states indices states',
  aut_inv entries states indices ->
  automaton_loop ho n fuel g tbl states indices = Ok states' ->
  (exists indices', aut_inv entries states' indices') /\
  (forall i s it X, nth_error states' i = Some s -> In it (st_items s) ->
     next_symbol g it = Some X -> In X (all_symbols g) ->
     exists j, map_get symbol_eqb X (st_goto s) = Some j).
Proof.
  induction n as [|n IH]; simpl; intros states indices states' HI H; [discriminate|].
  apply bind_Ok in H. destruct H as ([[st1 ix1] upd] & H1 & H2).
  destruct (automaton_round_ok _ _ _ _ _ _ _ HI H1) as [K1 K2].
  destruct upd; [eapply IH; eauto|]. inversion H2; subst. split; eauto.
Qed.

(** ** Entry states *)
Definition entry_items (nt : nat) (S : list item) : Prop :=
  sorted_items S /\ forall x, In x S <-> in_closure g tbl (fun y => y = start_item nt 0 None) x.

Hypothesis Hwf : wf_grammar g.

Lemma entry_items_public nt S x : entry_items nt S -> In x S -> it_cursor x = 0 ->
  is_public g (it_nt x) -> x = start_item nt 0 None.
Proof.
  intros [H1 H2] Hx Hc Hp. apply H2 in Hx. destruct Hx as [x ->|y x Hy Hs]; auto. exfalso.
  destruct Hs as (n & p & pr & la & Hn & Hpr & Hf & ->). simpl in *.
  unfold next_symbol, item_rhs in Hn.
  destruct (get_production g (it_nt y) (it_prod y)) as [pr'|] eqn:E.
  - apply nth_error_In in Hn. exact (public_private_excl g n Hp (wfg_nt g Hwf _ _ _ _ E Hn)).
  - destruct (it_cursor y); discriminate.
Qed.

Record entry_inv (k : nat) (acc : entry_acc) : Prop := {
  ei_idx : idx_ok (ea_states acc) (ea_indices acc);
  ei_nogoto : forall i s, nth_error (ea_states acc) i = Some s -> st_goto s = [];
  ei_state : forall i s, nth_error (ea_states acc) i = Some s ->
     exists nt, In (nt, i) (ea_entries acc) /\ entry_items nt (st_items s);
  ei_entry : forall nt i, In (nt, i) (ea_entries acc) -> nt < k /\ is_public g nt /\
     exists s, nth_error (ea_states acc) i = Some s /\ entry_items nt (st_items s);
  ei_nodup : NoDup (map fst (ea_entries acc));
  ei_complete : forall nt, nt < k -> is_public g nt -> exists i, In (nt, i) (ea_entries acc);
  ei_length : List.length (ea_states acc) <= k
}.

Lemma add_entry_ok fuel k N acc acc' :
  get_non_terminal g k = Some N -> entry_inv k acc ->
  add_entry ho fuel g tbl acc (k, N) = Ok acc' -> entry_inv (S k) acc'.
Proof.
  intros HN [E1 E2 E3 E4 E5 E6 E7] H. unfold add_entry in H.
  destruct (nt_public N) eqn:Hp.
  - destruct (Nat.eqb (List.length (nt_productions N)) 1); [|discriminate].
    apply bind_Ok in H. destruct H as (i0 & Hi0 & H). inversion H; subst; clear H.
    assert (Hei : entry_items k i0).
    { apply (compute_lr1_closure_spec g tbl ho Hho) in Hi0. destruct Hi0 as [K1 K2]. split; auto.
      intro x. rewrite K2. split; apply in_closure_ext; simpl; intros y; [intros [<-|[]]; auto | intros ->; auto]. }
    assert (Hpub : is_public g k) by (exists N; auto).
    assert (Hself : In (start_item k 0 None) i0) by (apply Hei; apply ic_kernel; auto).
    assert (Hfresh : map_get items_eqb i0 (ea_indices acc) = None).
    { destruct (map_get items_eqb i0 (ea_indices acc)) as [j|] eqn:Ej; auto. exfalso.
      apply (ix_inv _ _ E1) in Ej. destruct Ej as (s & Hs & Hsi).
      destruct (E3 _ _ Hs) as (nt & Hnt & Hents). rewrite Hsi in Hents.
      pose proof (entry_items_public _ _ _ Hents Hself eq_refl Hpub) as Heq. inversion Heq; subst nt.
      destruct (E4 _ _ Hnt) as (Hlt & _). lia. }
    assert (Hnk : ~ In k (map fst (ea_entries acc))).
    { intro Hin. apply in_map_iff in Hin. destruct Hin as ([k' i] & Hk & Hin). simpl in Hk; subst k'.
      destruct (E4 _ _ Hin) as (Hlt & _). lia. }
    assert (Hins : map_insert Nat.eqb k (List.length (ea_states acc)) (ea_entries acc) =
                   ea_entries acc ++ [(k, List.length (ea_states acc))]).
    { clear - Hnk. induction (ea_entries acc) as [|[k1 v1] l IH]; simpl; auto.
      simpl in Hnk. destruct (Nat.eqb_spec k k1); [subst; exfalso; apply Hnk; auto|]. f_equal. apply IH. auto. }
    constructor; simpl; rewrite ?Hins.
    + apply idx_ok_app; auto.
    + intros i s Hi. destruct (Nat.lt_ge_cases i (List.length (ea_states acc))) as [Hlt|Hge].
      * rewrite nth_error_app1 in Hi by auto. eauto.
      * rewrite nth_error_app2 in Hi by auto.
        destruct (i - List.length (ea_states acc)) as [|m]; simpl in Hi; [|destruct m; discriminate].
        inversion Hi; auto.
    + intros i s Hi. destruct (Nat.lt_ge_cases i (List.length (ea_states acc))) as [Hlt|Hge].
      * rewrite nth_error_app1 in Hi by auto. destruct (E3 _ _ Hi) as (nt & Hnt & Hs). exists nt.
        split; auto. apply in_app_iff; auto.
      * rewrite nth_error_app2 in Hi by auto.
        destruct (i - List.length (ea_states acc)) as [|m] eqn:Em; simpl in Hi; [|destruct m; discriminate].
        inversion Hi; subst. exists k. split; auto. apply in_app_iff; right; left. f_equal; lia.
    + intros nt i Hin. apply in_app_iff in Hin. destruct Hin as [Hin|[Hin|[]]].
      * destruct (E4 _ _ Hin) as (Hlt & Hpb & s & Hs & Hents). split; [lia|]. split; auto.
        exists s; split; auto. rewrite nth_error_app1; auto. apply nth_error_Some; congruence.
      * inversion Hin; subst. split; [lia|]. split; auto.
        exists {| st_items := i0; st_goto := [] |}. split; auto.
        rewrite nth_error_app2, Nat.sub_diag by lia. auto.
    + rewrite map_app. simpl. apply Permutation_NoDup with (k :: map fst (ea_entries acc));
        [apply Permutation_cons_append | constructor; auto].
    + intros nt Hlt Hpb. destruct (Nat.eq_dec nt k) as [->|Hne].
      * exists (List.length (ea_states acc)). apply in_app_iff; right; left; auto.
      * destruct (E6 nt ltac:(lia) Hpb) as (i & Hi). exists i. apply in_app_iff; auto.
    + rewrite app_length. simpl. lia.
  - inversion H; subst. constructor; auto.
    + intros nt i Hin. destruct (E4 _ _ Hin) as (Hlt & Hrest). split; [lia|auto].
    + intros nt Hlt Hpb. destruct (Nat.eq_dec nt k) as [->|Hne]; [|apply E6; auto; lia].
      exfalso. destruct Hpb as (N' & HN' & Hp'). congruence.
Qed.

Lemma entries_ok fuel e :
  foldM (add_entry ho fuel g tbl) (non_terminal_indices g)
        {| ea_states := []; ea_indices := []; ea_entries := [] |} = Ok e ->
  entry_inv (n_non_terminals g) e.
Proof.
  unfold non_terminal_indices, n_non_terminals.
  assert (Hgen : forall l, (exists r, g_nts g = l ++ r) -> forall e,
            foldM (add_entry ho fuel g tbl) (enumerate l)
              {| ea_states := []; ea_indices := []; ea_entries := [] |} = Ok e ->
            entry_inv (List.length l) e).
  { induction l as [|N l IH] using rev_ind; intros (r & Hr) e0 H.
    - simpl in H. inversion H; subst. constructor; simpl.
      + constructor; [intros [|i] s Hi; discriminate | intros S j Hj; discriminate].
      + intros [|i] s Hi; discriminate.
      + intros [|i] s Hi; discriminate.
      + intros nt i [].
      + constructor.
      + intros; lia.
      + lia.
    - rewrite enumerate_app, foldM_app in H. apply bind_Ok in H. destruct H as (e1 & H1 & H2).
      simpl in H2. apply bind_Ok in H2. destruct H2 as (e2 & H2 & H3). inversion H3; subst e2.
      rewrite app_length. simpl. rewrite Nat.add_1_r. eapply add_entry_ok; eauto.
      + unfold get_non_terminal. rewrite Hr, <- app_assoc, nth_error_app2, Nat.sub_diag by lia. reflexivity.
      + apply IH; auto. exists ([N] ++ r). rewrite Hr, <- app_assoc. auto. }
  apply Hgen. exists []. rewrite app_nil_r; auto.
Qed.

(** ** Main result *)
Record automaton_ok (states : list lr1_state) (entries : list (nat * nat)) : Prop := {
  ao_sorted : forall i s, nth_error states i = Some s -> sorted_items (st_items s);
  ao_nodup : forall i s, nth_error states i = Some s -> NoDup (map fst (st_goto s));
  ao_goto : forall i s X j, nth_error states i = Some s -> map_get symbol_eqb X (st_goto s) = Some j ->
    exists s', nth_error states j = Some s' /\ goto_set g tbl (st_items s) X (st_items s') /\
      st_items s' <> [];
  ao_total : forall i s it X, nth_error states i = Some s -> In it (st_items s) ->
    next_symbol g it = Some X -> exists j, map_get symbol_eqb X (st_goto s) = Some j;
  ao_distinct : forall i j s s', nth_error states i = Some s -> nth_error states j = Some s' ->
    st_items s = st_items s' -> i = j;
  ao_reach : forall i, i < List.length states ->
    exists nt e pi ss, In (nt, e) entries /\ stack_path states e pi (i :: ss);
  ao_entry : forall nt e, In (nt, e) entries ->
    is_public g nt /\ exists s, nth_error states e = Some s /\ entry_items nt (st_items s);
  ao_entries_nodup : NoDup (map fst entries);
  ao_entries_complete : forall nt, is_public g nt -> exists e, In (nt, e) entries;
  ao_entry_lt : forall nt e, In (nt, e) entries -> e < n_non_terminals g
}.

Lemma next_symbol_production it X : next_symbol g it = Some X ->
  exists pr, get_production g (it_nt it) (it_prod it) = Some pr /\ nth_error (rhs pr) (it_cursor it) = Some X.
Proof.
  unfold next_symbol, item_rhs. destruct (get_production g (it_nt it) (it_prod it)) as [pr|]; eauto.
  destruct (it_cursor it); discriminate.
Qed.

Lemma next_symbol_in_range it X : next_symbol g it = Some X -> In X (all_symbols g).
Proof.
  intro H. apply next_symbol_production in H. destruct H as (pr & Hp & Hn). apply nth_error_In in Hn.
  unfold all_symbols. apply in_app_iff. destruct X as [m|t].
  - left. apply in_map. apply in_seq. split; [lia|]. simpl.
    destruct (wfg_nt g Hwf _ _ _ _ Hp Hn) as (M & HM & _). eapply nt_in_range; eauto.
  - right. apply in_map. unfold terminal_indices. apply in_seq. split; [lia|]. simpl.
    eapply wfg_t; eauto.
Qed.

Theorem generate_lr1_automaton_ok fuel states entries :
  generate_lr1_automaton ho fuel g tbl = Ok (states, entries) -> automaton_ok states entries.
Proof.
  unfold generate_lr1_automaton. intro H. apply bind_Ok in H. destruct H as (e & He & H).
  apply bind_Ok in H. destruct H as (st & Hst & H). inversion H; subst. clear H.
  apply entries_ok in He. destruct He as [E1 E2 E3 E4 E5 E6 E7].
  assert (HI : aut_inv (ea_entries e) (ea_states e) (ea_indices e)).
  { constructor; auto.
    - intros i s Hi. destruct (E3 _ _ Hi) as (nt & _ & Hs). apply Hs.
    - intros i s Hi. rewrite (E2 _ _ Hi). constructor.
    - intros i s X j Hi Hj. rewrite (E2 _ _ Hi) in Hj. discriminate.
    - intros i Hi. destruct (nth_error (ea_states e) i) as [s|] eqn:Es; [|apply nth_error_None in Es; lia].
      destruct (E3 _ _ Es) as (nt & Hnt & _). exists nt, i, [], []. split; auto. constructor. }
  pose proof (automaton_loop_ok _ _ _ _ _ _ HI Hst) as [(ix & [I1 I2 I3 I4 I5]) Htot].
  assert (Hkeep : forall n fuel states indices states', automaton_loop ho n fuel g tbl states indices = Ok states' ->
            forall i s, nth_error states i = Some s -> exists s', nth_error states' i = Some s' /\ st_items s' = st_items s).
  { clear. induction n as [|n IH]; simpl; intros fuel states indices states' H; [discriminate|].
    apply bind_Ok in H. destruct H as ([[st1 ix1] upd] & H1 & H2).
    assert (Hk : forall i s, nth_error states i = Some s ->
              exists s', nth_error st1 i = Some s' /\ st_items s' = st_items s).
    { unfold automaton_round in H1. apply bind_Ok in H1. destruct H1 as (r & Hr & H1).
      destruct (apply_gotos (ra_gotos r) (states ++ ra_new r) _) as [st2 upd2] eqn:Ea.
      inversion H1; subst. destruct (apply_gotos_ok _ _ _ _ _ Ea) as (G1 & G2 & _).
      intros i s Hi.
      assert (Hlt : i < List.length states) by (apply nth_error_Some; congruence).
      destruct (nth_error st1 i) as [s'|] eqn:Ei.
      - exists s'; split; auto. destruct (G2 _ _ Ei) as (s0 & Hs0 & -> & _).
        rewrite nth_error_app1 in Hs0 by auto. congruence.
      - apply nth_error_None in Ei. rewrite G1, app_length in Ei. lia. }
    destruct upd.
    - intros i s Hi. destruct (Hk _ _ Hi) as (s' & Hs' & <-). eapply IH; eauto.
    - inversion H2; subst; auto. }
  constructor; auto.
  - intros i s it X Hi Hit Hn. eapply Htot; eauto. eapply next_symbol_in_range; eauto.
  - intros i j s s' Hi Hj Heq. apply (ix_get _ _ I1) in Hi. apply (ix_get _ _ I1) in Hj. congruence.
  - intros nt en Hin. destruct (E4 _ _ Hin) as (_ & Hp & s & Hs & Hes). split; auto.
    destruct (Hkeep _ _ _ _ _ Hst _ _ Hs) as (s' & Hs' & Heq). exists s'. split; auto. rewrite Heq; auto.
  - intros nt Hp. apply E6; auto. destruct Hp as (N & HN & _). eapply nt_in_range; eauto.
  - intros nt en Hin. destruct (E4 _ _ Hin) as (_ & _ & s & Hs & _).
    assert (en < List.length (ea_states e)) by (apply nth_error_Some; congruence). lia.
Qed.
End Automaton.
