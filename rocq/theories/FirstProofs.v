(** * FirstProofs: the FIRST table computed by src/first.rs *)
From Verif Require Export First Wf.

(** ** Derivation lemmas *)
Section Deriv.
Context {A : Type}.
Variable g : grammar A.

Lemma derives_trans a b c : derives g a b -> derives g b c -> derives g a c.
Proof. induction 1; intros; auto. econstructor; eauto. Qed.

Lemma dstep_ctx l r a b : dstep g a b -> dstep g (l ++ a ++ r) (l ++ b ++ r).
Proof.
  intros [l' n p pr r' H].
  replace (l ++ (l' ++ NT n :: r') ++ r) with ((l ++ l') ++ NT n :: (r' ++ r))
    by (rewrite <- !app_assoc; reflexivity).
  replace (l ++ (l' ++ rhs pr ++ r') ++ r) with ((l ++ l') ++ rhs pr ++ (r' ++ r))
    by (rewrite <- !app_assoc; reflexivity).
  econstructor; eauto.
Qed.

Lemma derives_ctx l r a b : derives g a b -> derives g (l ++ a ++ r) (l ++ b ++ r).
Proof. induction 1; [constructor|]. econstructor; [apply dstep_ctx; eauto|auto]. Qed.

Lemma derives_app a b c d : derives g a b -> derives g c d -> derives g (a ++ c) (b ++ d).
Proof.
  intros H1 H2. eapply derives_trans.
  - apply (derives_ctx [] c) in H1. exact H1.
  - apply (derives_ctx b []) in H2. rewrite !app_nil_r in H2. exact H2.
Qed.

Lemma derives_prod n p pr : get_production g n p = Some pr -> derives g [NT n] (rhs pr).
Proof.
  intro H. econstructor; [|constructor].
  pose proof (dstep_intro g [] n p pr [] H) as H1. simpl in H1. rewrite app_nil_r in H1. exact H1.
Qed.
End Deriv.

(** ** Nullability and FIRST as least fixpoints *)
Section Semantic.
Context {A : Type}.
Variable g : grammar A.

Inductive nullable : nat -> Prop :=
| nullable_intro : forall n p pr,
    get_production g n p = Some pr -> nullable_seq (rhs pr) -> nullable n
with nullable_seq : list symbol -> Prop :=
| nullable_nil : nullable_seq []
| nullable_cons : forall m r, nullable m -> nullable_seq r -> nullable_seq (NT m :: r).

Inductive first_of : nat -> nat -> Prop :=
| first_of_T : forall n p pr l t r,
    get_production g n p = Some pr -> rhs pr = l ++ T t :: r -> nullable_seq l -> first_of n t
| first_of_NT : forall n p pr l m t r,
    get_production g n p = Some pr -> rhs pr = l ++ NT m :: r -> nullable_seq l -> first_of m t ->
    first_of n t.

Scheme nullable_mut := Induction for nullable Sort Prop
  with nullable_seq_mut := Induction for nullable_seq Sort Prop.
Combined Scheme nullable_both from nullable_mut, nullable_seq_mut.

Lemma nullable_derives :
  (forall n, nullable n -> derives g [NT n] []) /\
  (forall l, nullable_seq l -> derives g l []).
Proof.
  apply nullable_both.
  - intros n p pr H _ IH. eapply derives_trans; [eapply derives_prod; eauto|auto].
  - constructor.
  - intros m r _ IH1 _ IH2. apply (derives_app g [NT m] [] r []); auto.
Qed.

Lemma nullable_seq_app l r : nullable_seq (l ++ r) <-> nullable_seq l /\ nullable_seq r.
Proof.
  induction l as [|X l IH]; simpl.
  - split; [split; [constructor|auto] | tauto].
  - split.
    + intro H; inversion H; subst. apply IH in H3. destruct H3. split; auto. constructor; auto.
    + intros [H1 H2]. inversion H1; subst. constructor; auto. apply IH; auto.
Qed.

Lemma dstep_nullable a b : dstep g a b -> nullable_seq b -> nullable_seq a.
Proof.
  intros [l n p pr r H]. rewrite !nullable_seq_app. intros (H1 & H2 & H3). split; auto.
  constructor; auto. econstructor; eauto.
Qed.

Lemma derives_nullable a : derives g a [] -> nullable_seq a.
Proof.
  intro H. remember [] as b. induction H; subst; [constructor|]. eapply dstep_nullable; eauto.
Qed.

Lemma nullable_iff n : nullable n <-> derives_empty g [NT n].
Proof.
  split; [apply nullable_derives|]. intro H. apply derives_nullable in H.
  inversion H; auto.
Qed.

Lemma first_of_derives n t : first_of n t -> derives_first g [NT n] t.
Proof.
  induction 1 as [n p pr l t r H Hr Hl | n p pr l m t r H Hr Hl Hm (x & IH)].
  - exists r. eapply derives_trans; [eapply derives_prod; eauto|]. rewrite Hr.
    apply (derives_app g l [] (T t :: r) (T t :: r)); [apply nullable_derives; auto | constructor].
  - exists (x ++ r). eapply derives_trans; [eapply derives_prod; eauto|]. rewrite Hr.
    apply (derives_app g l [] (NT m :: r) (T t :: x ++ r)); [apply nullable_derives; auto |].
    apply (derives_app g [NT m] (T t :: x) r r); [auto|constructor].
Qed.

(** FIRST of a sentential form *)
Inductive first_seq : list symbol -> nat -> Prop :=
| first_seq_T : forall t r, first_seq (T t :: r) t
| first_seq_NT : forall n r t, first_of n t -> first_seq (NT n :: r) t
| first_seq_skip : forall n r t, nullable n -> first_seq r t -> first_seq (NT n :: r) t.

Lemma first_seq_app l r t : first_seq (l ++ r) t <-> first_seq l t \/ nullable_seq l /\ first_seq r t.
Proof.
  induction l as [|X l IH]; simpl.
  - split; [right; split; [constructor|auto] | intros [H|[_ H]]; auto; inversion H].
  - split.
    + intro H; inversion H; subst.
      * left; constructor.
      * left; constructor; auto.
      * apply IH in H4. destruct H4 as [H4|[H4 H5]].
        -- left; apply first_seq_skip; auto.
        -- right; split; auto. constructor; auto.
    + intros [H|[H1 H2]].
      * inversion H; subst; [constructor | constructor; auto | apply first_seq_skip; auto].
        apply IH; auto.
      * inversion H1; subst. apply first_seq_skip; auto. apply IH; auto.
Qed.

Lemma first_seq_split l t : first_seq l t ->
  exists a X b, l = a ++ X :: b /\ nullable_seq a /\ (X = T t \/ exists m, X = NT m /\ first_of m t).
Proof.
  induction 1 as [t r | n r t H | n r t Hn H (a & X & b & -> & Ha & HX)].
  - exists [], (T t), r. repeat split; auto. constructor.
  - exists [], (NT n), r. repeat split; eauto. constructor.
  - exists (NT n :: a), X, b. repeat split; auto. constructor; auto.
Qed.

Lemma first_of_prod n p pr t : get_production g n p = Some pr -> first_seq (rhs pr) t -> first_of n t.
Proof.
  intros H Hf. apply first_seq_split in Hf. destruct Hf as (a & X & b & He & Ha & [->|(m & -> & Hm)]).
  - eapply first_of_T; eauto.
  - eapply first_of_NT; eauto.
Qed.

Lemma first_of_prod_inv n t : first_of n t ->
  exists p pr, get_production g n p = Some pr /\ first_seq (rhs pr) t.
Proof.
  destruct 1 as [n p pr l t r H Hr Hl | n p pr l m t r H Hr Hl Hm]; exists p, pr; split; auto;
    rewrite Hr; apply first_seq_app; right; split; auto; constructor; auto.
Qed.

Lemma dstep_first_seq a b t : dstep g a b -> first_seq b t -> first_seq a t.
Proof.
  intros [l n p pr r H]. rewrite !first_seq_app. intros [H1|[H1 [H2|[H2 H3]]]]; auto.
  - right; split; auto. constructor. eapply first_of_prod; eauto.
  - right; split; auto. apply first_seq_skip; auto. econstructor; eauto.
Qed.

Lemma derives_first_seq a b t : derives g a b -> first_seq b t -> first_seq a t.
Proof. induction 1; intros; auto. eapply dstep_first_seq; eauto. Qed.

Lemma first_of_iff n t : first_of n t <-> derives_first g [NT n] t.
Proof.
  split; [apply first_of_derives|]. intros (r & H).
  apply derives_first_seq with (t := t) in H; [|constructor].
  inversion H; subst; auto. inversion H4.
Qed.

Lemma eps_free_not_nullable : eps_free g -> forall n, ~ nullable n.
Proof.
  intros He.
  assert ((forall n, nullable n -> False) /\ (forall l, nullable_seq l -> l = [])) as [H _]; auto.
  apply nullable_both.
  - intros n p pr H _ IH. apply (He n p pr H). unfold rhs in IH. destruct (p_symbols pr); auto. discriminate.
  - auto.
  - intros m r _ [].
Qed.
End Semantic.

(** ** Justified tables *)
Section Justified.
Context {A : Type}.
Variable g : grammar A.
Implicit Types tbl : first_table.

Definition flag tbl n := fs_empty (get_first tbl n).
Definition terms tbl n := fs_terminals (get_first tbl n).

(** Why a flag or a terminal is in the table, each step relying only on entries of the table. *)
Inductive jnull tbl : nat -> Prop :=
| jnull_intro : forall n p pr, get_production g n p = Some pr -> jnull_seq tbl (rhs pr) -> jnull tbl n
with jnull_seq tbl : list symbol -> Prop :=
| jnull_nil : jnull_seq tbl []
| jnull_cons : forall m r, flag tbl m = true -> jnull tbl m -> jnull_seq tbl r ->
    jnull_seq tbl (NT m :: r).

Inductive jfirst tbl : nat -> nat -> Prop :=
| jfirst_T : forall n p pr l t r, get_production g n p = Some pr -> rhs pr = l ++ T t :: r ->
    jnull_seq tbl l -> jfirst tbl n t
| jfirst_NT : forall n p pr l m t r, get_production g n p = Some pr -> rhs pr = l ++ NT m :: r ->
    jnull_seq tbl l -> In t (terms tbl m) -> jfirst tbl m t -> jfirst tbl n t.

Scheme jnull_mut := Induction for jnull Sort Prop
  with jnull_seq_mut := Induction for jnull_seq Sort Prop.
Combined Scheme jnull_both from jnull_mut, jnull_seq_mut.

Record justified tbl : Prop := {
  j_len : List.length tbl = n_non_terminals g;
  j_null : forall n, flag tbl n = true -> jnull tbl n;
  j_first : forall n t, In t (terms tbl n) -> jfirst tbl n t
}.

Definition tbl_le tbl tbl' : Prop :=
  (forall n, flag tbl n = true -> flag tbl' n = true) /\
  (forall n t, In t (terms tbl n) -> In t (terms tbl' n)).

Lemma tbl_le_refl tbl : tbl_le tbl tbl.
Proof. split; auto. Qed.
Lemma tbl_le_trans a b c : tbl_le a b -> tbl_le b c -> tbl_le a c.
Proof. intros [H1 H2] [H3 H4]; split; auto. Qed.

Lemma jnull_mono tbl tbl' : tbl_le tbl tbl' ->
  (forall n, jnull tbl n -> jnull tbl' n) /\ (forall l, jnull_seq tbl l -> jnull_seq tbl' l).
Proof.
  intros [H1 H2]. apply jnull_both.
  - intros n p pr H _ IH. econstructor; eauto.
  - constructor.
  - intros m r Hf _ IH1 _ IH2. constructor; auto.
Qed.

Lemma jfirst_mono tbl tbl' : tbl_le tbl tbl' -> forall n t, jfirst tbl n t -> jfirst tbl' n t.
Proof.
  intros Hle n t H. induction H.
  - eapply jfirst_T; eauto. eapply jnull_mono; eauto.
  - eapply jfirst_NT; eauto. { eapply jnull_mono; eauto. } destruct Hle; auto.
Qed.

Lemma jnull_nullable tbl :
  (forall n, jnull tbl n -> nullable g n) /\ (forall l, jnull_seq tbl l -> nullable_seq g l).
Proof.
  apply jnull_both; intros; econstructor; eauto.
Qed.

Lemma jfirst_first_of tbl n t : jfirst tbl n t -> first_of g n t.
Proof.
  induction 1.
  - eapply first_of_T; eauto. eapply jnull_nullable; eauto.
  - eapply first_of_NT; eauto. eapply jnull_nullable; eauto.
Qed.

Lemma jnull_seq_app tbl l r : jnull_seq tbl l -> jnull_seq tbl r -> jnull_seq tbl (l ++ r).
Proof. induction l as [|X l IH]; simpl; intros H1 H2; auto. inversion H1; subst. constructor; auto. Qed.

(** Effect of the elementary updates *)
Lemma get_first_update tbl n f m : n < List.length tbl ->
  get_first (update_nth n f tbl) m = if Nat.eqb n m then f (get_first tbl m) else get_first tbl m.
Proof.
  intro Hn. unfold get_first. rewrite nth_update_nth.
  destruct (Nat.eqb_spec n m); simpl; auto. subst.
  destruct (Nat.ltb_spec m (List.length tbl)); auto. lia.
Qed.

Lemma add_first_spec tbl n t tbl' b : n < List.length tbl -> add_first tbl n t = (tbl', b) ->
  List.length tbl' = List.length tbl /\
  (forall m, flag tbl' m = flag tbl m) /\
  (forall m x, In x (terms tbl' m) <-> In x (terms tbl m) \/ m = n /\ x = t) /\
  b = negb (set_mem Nat.eqb t (terms tbl n)).
Proof.
  intros Hn H. unfold add_first in H. inversion H; subst. clear H.
  split; [apply update_nth_length|]. unfold flag, terms.
  split; [|split; auto].
  - intro m. rewrite get_first_update by auto. destruct (Nat.eqb_spec n m); auto.
  - intros m x. rewrite get_first_update by auto. destruct (Nat.eqb_spec n m); subst; simpl.
    + rewrite (set_add_In Nat.eqb Nat.eqb_eq). intuition.
    + intuition congruence.
Qed.

Lemma set_empty_spec tbl n tbl' b : n < List.length tbl -> set_empty tbl n = (tbl', b) ->
  List.length tbl' = List.length tbl /\
  (forall m, flag tbl' m = if Nat.eqb n m then true else flag tbl m) /\
  (forall m, terms tbl' m = terms tbl m) /\
  b = negb (flag tbl n).
Proof.
  intros Hn H. unfold set_empty in H. inversion H; subst. clear H.
  split; [apply update_nth_length|]. unfold flag, terms.
  split; [|split; auto].
  - intro m. rewrite get_first_update by auto. destruct (Nat.eqb_spec n m); auto.
  - intro m. rewrite get_first_update by auto. destruct (Nat.eqb_spec n m); auto.
Qed.

Lemma justified_add tbl tbl' : justified tbl -> tbl_le tbl tbl' ->
  List.length tbl' = List.length tbl ->
  (forall n, flag tbl' n = true -> flag tbl n = true \/ jnull tbl' n) ->
  (forall n t, In t (terms tbl' n) -> In t (terms tbl n) \/ jfirst tbl' n t) ->
  justified tbl'.
Proof.
  intros [H1 H2 H3] Hle Hl Hf Ht. constructor.
  - congruence.
  - intros n H. destruct (Hf n H); auto. eapply jnull_mono; eauto.
  - intros n t H. destruct (Ht n t H); auto. eapply jfirst_mono; eauto.
Qed.
End Justified.

Arguments add_first : simpl never.
Arguments set_empty : simpl never.

Section Pass.
Context {A : Type}.
Variable g : grammar A.
Variable ho : hash_order.
Hypothesis Hho : forall l, Permutation (ho_terms ho l) l.

(** Everything we need about one pass of the loop, by a relation [P] between tables that holds for
    each elementary justified update. *)

(** "The update of production [pr] of [n] left nothing to do": *)
Definition prod_done (tbl : first_table) (n : nat) (syms : list symbol) : Prop :=
  match syms with
  | [] => flag tbl n = true
  | T t :: _ => In t (terms tbl n)
  | NT m :: _ => nullable g m \/ (forall t, In t (terms tbl m) -> In t (terms tbl n))
  end.

(** Summary of a state transition [(tbl, upd) -> (tbl', upd')] *)
Record trans_ok (st st' : first_table * bool) : Prop := {
  to_just : justified g (fst st) -> justified g (fst st');
  to_le : tbl_le (fst st) (fst st');
  to_len : List.length (fst st') = List.length (fst st);
  to_upd : snd st = true -> snd st' = true;
  (* no update reported: terminals unchanged *)
  to_same : snd st' = false -> forall n t, In t (terms (fst st') n) <-> In t (terms (fst st) n)
}.

Lemma trans_refl st : trans_ok st st.
Proof. constructor; auto using tbl_le_refl. tauto. Qed.

Lemma trans_trans a b c : trans_ok a b -> trans_ok b c -> trans_ok a c.
Proof.
  intros [H1 H2 H3 H4 H5] [H6 H7 H8 H9 H10]. constructor; auto.
  - eapply tbl_le_trans; eauto.
  - congruence.
  - intros H n t. rewrite H10 by auto. apply H5.
    destruct (snd b) eqn:E; auto. rewrite H9 in H by auto. discriminate.
Qed.

Lemma add_all_cons n t ts tbl upd : add_all n (t :: ts) (tbl, upd) =
  let (tbl', b) := add_first tbl n t in add_all n ts (tbl', upd || b).
Proof. reflexivity. Qed.

Lemma add_all_ok n ts : forall st,
  n < List.length (fst st) ->
  (forall tbl', tbl_le (fst st) tbl' -> forall t, In t ts -> jfirst g tbl' n t) ->
  trans_ok st (add_all n ts st) /\
  (snd (add_all n ts st) = false -> forall t, In t ts -> In t (terms (fst st) n)).
Proof.
  induction ts as [|t ts IH]; intros [tbl upd] Hn Hj.
  - split; [apply trans_refl | intros _ t []].
  - rewrite add_all_cons. destruct (add_first tbl n t) as [tbl1 b] eqn:E. simpl in Hn, Hj.
    pose proof (add_first_spec _ _ _ _ _ Hn E) as (Hl & Hf & Ht & Hb).
    assert (Hle : tbl_le tbl tbl1).
    { split; [intros; rewrite Hf; auto | intros; apply Ht; auto]. }
    destruct (IH (tbl1, upd || b)) as [IH1 IH2].
    { simpl; lia. }
    { simpl. intros tbl' Hle' x Hx. apply Hj; [eapply tbl_le_trans; eauto | right; auto]. }
    assert (H1 : trans_ok (tbl, upd) (tbl1, upd || b)).
    { constructor; simpl; auto.
      - intro HJ. apply (justified_add g tbl tbl1); auto.
        + intros m Hm. left. rewrite Hf in Hm; auto.
        + intros m x Hx. apply Ht in Hx. destruct Hx as [Hx|[-> ->]]; [left; auto | right].
          apply Hj; [auto | left; auto].
      - intros ->; auto.
      - intros H m x. rewrite Ht. split; [|auto]. intros [H1|[-> ->]]; auto.
        apply orb_false_iff in H. destruct H as [_ H]. rewrite Hb in H.
        apply negb_false_iff in H. apply (set_mem_In Nat.eqb Nat.eqb_eq) in H. auto. }
    split; [eapply trans_trans; eauto|].
    intros H x [->|Hx].
    + assert (upd || b = false) as Hub.
      { destruct (upd || b) eqn:Eb; auto. rewrite (to_upd _ _ IH1) in H by auto. discriminate. }
      apply orb_false_iff in Hub. destruct Hub as [_ Hub]. rewrite Hb in Hub.
      apply negb_false_iff in Hub. apply (set_mem_In Nat.eqb Nat.eqb_eq) in Hub. auto.
    + pose proof (IH2 H x Hx) as H2. simpl in H2. apply (to_same _ _ H1); auto.
      destruct (snd (tbl1, upd || b)) eqn:Eb; auto. rewrite (to_upd _ _ IH1) in H by auto. discriminate.
Qed.

Lemma first_symbols_nil n tbl upd :
  first_symbols ho n [] (tbl, upd) = (fst (set_empty tbl n), upd).
Proof. reflexivity. Qed.
Lemma first_symbols_T n t r tbl upd :
  first_symbols ho n (T t :: r) (tbl, upd) = let (tbl', b) := add_first tbl n t in (tbl', upd || b).
Proof. reflexivity. Qed.
Lemma first_symbols_NT n m r tbl upd :
  first_symbols ho n (NT m :: r) (tbl, upd) =
  if fs_empty (get_first tbl m) then first_symbols ho n r (tbl, upd)
  else add_all n (ho_terms ho (fs_terminals (get_first tbl m))) (tbl, upd).
Proof. reflexivity. Qed.

Lemma first_symbols_ok n p pr (Hp : get_production g n p = Some pr) syms :
  forall l st, rhs pr = l ++ syms -> justified g (fst st) -> jnull_seq g (fst st) l ->
  trans_ok st (first_symbols ho n syms st) /\
  (snd (first_symbols ho n syms st) = false -> prod_done (fst (first_symbols ho n syms st)) n syms).
Proof.
  induction syms as [|X syms IH]; intros l [tbl upd] Hr HJ Hl; simpl in HJ, Hl.
  - rewrite first_symbols_nil. destruct (set_empty tbl n) as [tbl1 b] eqn:E.
    assert (Hn : n < List.length tbl).
    { rewrite (j_len _ _ HJ). apply get_production_nt in Hp. destruct Hp as (N & HN & _).
      eapply nt_in_range; eauto. }
    pose proof (set_empty_spec _ _ _ _ Hn E) as (Hlen & Hf & Ht & Hb). simpl.
    assert (Hle : tbl_le tbl tbl1).
    { split; intros m; [rewrite Hf | intros t; rewrite Ht; auto]. destruct (Nat.eqb n m); auto. }
    split.
    + constructor; simpl; auto.
      * intros _. apply (justified_add g tbl tbl1); auto.
        -- intros m Hm. rewrite Hf in Hm. destruct (Nat.eqb_spec n m); auto. subst m. right.
           econstructor; eauto. rewrite Hr, app_nil_r. eapply jnull_mono; eauto.
        -- intros m t Hm. rewrite Ht in Hm; auto.
      * intros _ m t. rewrite Ht. tauto.
    + intros _. rewrite Hf, Nat.eqb_refl; auto.
  - assert (Hn : n < List.length tbl).
    { rewrite (j_len _ _ HJ). apply get_production_nt in Hp. destruct Hp as (N & HN & _).
      eapply nt_in_range; eauto. }
    destruct X as [m|t].
    + rewrite first_symbols_NT. destruct (fs_empty (get_first tbl m)) eqn:Ef.
      * destruct (IH (l ++ [NT m]) (tbl, upd)) as [H1 H2]; auto.
        { rewrite <- app_assoc; auto. }
        { apply jnull_seq_app; auto. constructor; [auto | apply (j_null _ _ HJ); auto | constructor]. }
        split; auto. intros _. left. apply (proj1 (jnull_nullable g tbl)). apply (j_null _ _ HJ). auto.
      * destruct (add_all_ok n (ho_terms ho (fs_terminals (get_first tbl m))) (tbl, upd)) as [H1 H2]; auto.
        { simpl. intros tbl' Hle t Ht.
          assert (In t (terms tbl m)) as Ht'.
          { eapply Permutation_in; [apply Hho|exact Ht]. }
          eapply jfirst_NT; eauto. { eapply jnull_mono; eauto. } { apply Hle; auto. }
          eapply jfirst_mono; eauto. apply (j_first _ _ HJ); auto. }
        split; auto. intros Hu. right. intros t Ht.
        apply (to_same _ _ H1 Hu) in Ht. simpl in Ht.
        apply (to_same _ _ H1 Hu). simpl. apply H2; auto.
        eapply Permutation_in; [apply Permutation_sym, Hho|exact Ht].
    + rewrite first_symbols_T. destruct (add_all_ok n [t] (tbl, upd)) as [H1 H2]; auto.
      { simpl. intros tbl' Hle x [<-|[]]. eapply jfirst_T; eauto. eapply jnull_mono; eauto. }
      rewrite add_all_cons in H1, H2. destruct (add_first tbl n t) as [tbl1 b] eqn:E. split; auto.
      simpl. intro Hu. simpl in H2.
      pose proof (add_first_spec _ _ _ _ _ Hn E) as (_ & _ & Ht & _). apply Ht; auto.
Qed.

Lemma prod_done_mono st st' n syms : trans_ok st st' -> snd st' = false ->
  prod_done (fst st) n syms -> prod_done (fst st') n syms.
Proof.
  intros [_ [Hf Ht] _ _ Hs] Hu. destruct syms as [|[m|t] syms]; simpl; auto.
  intros [H|H]; auto. right. intros t Hm. apply Hs in Hm; auto.
Qed.

Lemma first_production_ok n p pr (Hp : get_production g n p = Some pr) st :
  justified g (fst st) ->
  trans_ok st (first_production ho n st pr) /\
  (snd (first_production ho n st pr) = false ->
   prod_done (fst (first_production ho n st pr)) n (rhs pr)).
Proof.
  intros HJ. unfold first_production.
  assert (Hn : n < List.length (fst st)).
  { rewrite (j_len _ _ HJ). apply get_production_nt in Hp. destruct Hp as (N & HN & _).
    eapply nt_in_range; eauto. }
  destruct (rhs pr) as [|X r] eqn:Er.
  - destruct st as [tbl upd]. destruct (set_empty tbl n) as [tbl1 b] eqn:E.
    simpl in Hn, HJ. pose proof (set_empty_spec _ _ _ _ Hn E) as (Hlen & Hf & Ht & Hb).
    assert (H1 : trans_ok (tbl, upd) (tbl1, upd || b)).
    { assert (Hle : tbl_le tbl tbl1).
      { split; intros m; [rewrite Hf | intros t; rewrite Ht; auto]. destruct (Nat.eqb n m); auto. }
      constructor; simpl; auto.
      - intros _. apply (justified_add g tbl tbl1); auto.
        + intros m Hm. rewrite Hf in Hm. destruct (Nat.eqb_spec n m); auto. subst m. right.
          econstructor; eauto. rewrite Er. constructor.
        + intros m t Hm. rewrite Ht in Hm; auto.
      - intros ->; auto.
      - intros _ m t. rewrite Ht; tauto. }
    destruct (first_symbols_ok n p pr Hp [] [] (tbl1, upd || b)) as [H2 H3]; auto.
    { apply (to_just _ _ H1); auto. }
    { constructor. }
    split; auto. eapply trans_trans; eauto.
  - apply (first_symbols_ok n p pr Hp (X :: r) [] st); auto. constructor.
Qed.

(** A fold of justified transitions. *)
Lemma fold_ok {X} (f : first_table * bool -> X -> first_table * bool) (D : X -> first_table -> Prop) l :
  (forall st x, In x l -> justified g (fst st) ->
     trans_ok st (f st x) /\ (snd (f st x) = false -> D x (fst (f st x)))) ->
  (forall st st' x, trans_ok st st' -> snd st' = false -> D x (fst st) -> D x (fst st')) ->
  forall st, justified g (fst st) ->
  trans_ok st (fold_left f l st) /\
  (snd (fold_left f l st) = false -> forall x, In x l -> D x (fst (fold_left f l st))).
Proof.
  intros Hf Hm. induction l as [|x l IH]; simpl; intros st HJ.
  - split; [apply trans_refl | tauto].
  - destruct (Hf st x (or_introl eq_refl) HJ) as [H1 H2].
    destruct (IH (fun st x Hx => Hf st x (or_intror Hx)) (f st x) (to_just _ _ H1 HJ)) as [H3 H4].
    split; [eapply trans_trans; eauto|].
    intros Hu y [<-|Hy]; auto.
    eapply Hm; eauto. apply H2. destruct (snd (f st x)) eqn:E; auto.
    rewrite (to_upd _ _ H3) in Hu by auto. discriminate.
Qed.

Lemma first_pass_ok tbl : justified g tbl ->
  trans_ok (tbl, false) (first_pass ho g tbl) /\
  (snd (first_pass ho g tbl) = false ->
   forall n p pr, get_production g n p = Some pr -> prod_done (fst (first_pass ho g tbl)) n (rhs pr)).
Proof.
  intro HJ. unfold first_pass.
  set (D := fun (x : nat * non_terminal A) tbl =>
              forall pr, In pr (nt_productions (snd x)) -> prod_done tbl (fst x) (rhs pr)).
  destruct (fold_ok (fun st '(nt, n) => fold_left (first_production ho nt) (nt_productions n) st) D
              (non_terminal_indices g)) with (st := (tbl, false)) as [H1 H2]; auto.
  - intros st [n N] Hin HJ'. apply enumerate_nth_error in Hin.
    apply (fold_ok (first_production ho n) (fun pr tbl => prod_done tbl n (rhs pr)) (nt_productions N)); auto.
    + intros st' pr Hpr HJ''. apply In_nth_error in Hpr. destruct Hpr as (p & Hpr).
      apply first_production_ok with (p := p); auto.
      unfold get_production, get_non_terminal. rewrite Hin. auto.
    + intros. eapply prod_done_mono; eauto.
  - intros st st' x HT Hu HD pr Hpr. eapply prod_done_mono; eauto.
  - split; auto. intros Hu n p pr Hp. apply get_production_nt in Hp. destruct Hp as (N & HN & Hpr).
    apply (H2 Hu (n, N)); [apply enumerate_nth_error; auto | simpl; eapply nth_error_In; eauto].
Qed.

Lemma justified_new : justified g (first_table_new (n_non_terminals g)).
Proof.
  assert (H : forall k n, nth n (repeat first_set_default k) first_set_default = first_set_default).
  { induction k; intros [|n]; simpl; auto. }
  unfold first_table_new. constructor.
  - apply repeat_length.
  - intros n Hf. unfold flag, get_first in Hf. rewrite H in Hf. discriminate.
  - intros n t Ht. unfold terms, get_first in Ht. rewrite H in Ht. destruct Ht.
Qed.

Lemma first_loop_ok fuel : forall tbl tbl', justified g tbl -> first_loop ho fuel g tbl = Ok tbl' ->
  justified g tbl' /\ forall n p pr, get_production g n p = Some pr -> prod_done tbl' n (rhs pr).
Proof.
  induction fuel as [|fuel IH]; simpl; intros tbl tbl' HJ H; [discriminate|].
  destruct (first_pass_ok tbl HJ) as [H1 H2].
  destruct (first_pass ho g tbl) as [tbl1 upd] eqn:E. simpl in *.
  destruct upd.
  - apply (IH tbl1); auto. apply (to_just _ _ H1); auto.
  - inversion H; subst. split; [apply (to_just _ _ H1); auto | exact (H2 eq_refl)].
Qed.

Theorem generate_first_table_ok fuel tbl : generate_first_table ho fuel g = Ok tbl ->
  justified g tbl /\ forall n p pr, get_production g n p = Some pr -> prod_done tbl n (rhs pr).
Proof. apply first_loop_ok. apply justified_new. Qed.

(** Soundness of FIRST *)
Theorem first_table_sound fuel tbl : generate_first_table ho fuel g = Ok tbl ->
  (forall n, flag tbl n = true -> nullable g n) /\ (forall n t, In t (terms tbl n) -> first_of g n t).
Proof.
  intro H. apply generate_first_table_ok in H. destruct H as [[_ H1 H2] _]. split.
  - intros n Hn. apply (proj1 (jnull_nullable g tbl)); auto.
  - intros n t Hn. eapply jfirst_first_of; eauto.
Qed.

(** Non-terminals on which the bug of line 80 ([continue] without adding the terminals) cannot
    matter: no production reachable through leading non-terminals starts with a nullable one. *)
Definition plain_leading (R : nat -> Prop) : Prop :=
  forall n p pr m r, R n -> get_production g n p = Some pr -> rhs pr = NT m :: r ->
    ~ nullable g m /\ R m.

Lemma first_table_complete_on fuel tbl R : generate_first_table ho fuel g = Ok tbl ->
  plain_leading R ->
  forall n, R n -> (nullable g n -> flag tbl n = true) /\ (forall t, first_of g n t -> In t (terms tbl n)).
Proof.
  intros H HR n Hn. apply generate_first_table_ok in H. destruct H as [HJ Hd]. split.
  - intro Hnull. destruct Hnull as [n p pr Hp Hs].
    pose proof (Hd n p pr Hp) as HD. destruct (rhs pr) as [|X r] eqn:E; auto.
    inversion Hs; subst. exfalso. destruct (HR _ _ _ _ _ Hn Hp E); auto.
  - intros t Ht. revert Hn. induction Ht as [n p pr l t r Hp Hr Hl | n p pr l m t r Hp Hr Hl Hm IH]; intro Hn.
    + pose proof (Hd n p pr Hp) as HD. destruct l as [|X l]; simpl in Hr; rewrite Hr in HD.
      * auto.
      * inversion Hl; subst. exfalso. destruct (HR _ _ _ _ _ Hn Hp Hr); auto.
    + pose proof (Hd n p pr Hp) as HD. destruct l as [|X l]; simpl in Hr; rewrite Hr in HD.
      * destruct (HR _ _ _ _ _ Hn Hp Hr) as [H1 H2]. destruct HD as [HD|HD]; [contradiction|]. auto.
      * inversion Hl; subst. exfalso. destruct (HR _ _ _ _ _ Hn Hp Hr); auto.
Qed.

Theorem first_table_complete_eps_free fuel tbl : generate_first_table ho fuel g = Ok tbl ->
  eps_free g -> forall n t, first_of g n t -> In t (terms tbl n).
Proof.
  intros H He n t. apply (first_table_complete_on fuel tbl (fun _ => True) H); auto.
  intros ? ? ? ? ? _ _ _. split; auto. apply eps_free_not_nullable; auto.
Qed.
End Pass.
