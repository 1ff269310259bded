(** * FollowProofs: src/follow.rs computes the least solution of the FOLLOW equations *)
From Verif Require Export Follow FollowSpec FirstProofs Termination.

Section Table.
Context {A : Type}.
Variable g : grammar A.
Variable ho : hash_order.
Hypothesis Hho : forall l, Permutation (ho_terms ho l) l.
Variable first : first_table.

Definition inf (tbl : follow_table) (n : nat) (la : option nat) : Prop :=
  match la with None => fo_end (get_follow tbl n) = true | Some t => In t (fo_terminals (get_follow tbl n)) end.
(** FIRST of a symbol, from the table *)
Definition sym_first (X : symbol) (t : nat) : Prop := match X with T t' => t = t' | NT y => In t (terms first y) end.
Definition flagged (l : list symbol) : Prop := Forall (fun X => match X with NT y => flag first y = true | T _ => False end) l.

(** The least solution *)
Inductive jfol : nat -> option nat -> Prop :=
| jf_start : jfol 0 None
| jf_right : forall m p pr l n b X r t, get_production g m p = Some pr -> rhs pr = l ++ NT n :: b ++ X :: r -> flagged b ->
    sym_first X t -> jfol n (Some t)
| jf_up : forall m p pr l n b la, get_production g m p = Some pr -> rhs pr = l ++ NT n :: b -> flagged b -> jfol m la -> jfol n la.

(** ** Updates *)
Lemma get_follow_update tbl n f m : n < List.length tbl ->
  get_follow (update_nth n f tbl) m = if Nat.eqb n m then f (get_follow tbl m) else get_follow tbl m.
Proof.
  intro Hn. unfold get_follow. rewrite nth_update_nth. destruct (Nat.eqb_spec n m); simpl; auto. subst.
  destruct (Nat.ltb_spec m (List.length tbl)); auto. lia.
Qed.
Lemma inf_add tbl n t m la : n < List.length tbl -> inf (fst (add_follow tbl n t)) m la <-> inf tbl m la \/ m = n /\ la = Some t.
Proof.
  intro Hn. unfold inf, add_follow. cbn [fst]. destruct la as [x|]; rewrite get_follow_update by auto; destruct (Nat.eqb_spec n m); cbn; subst.
  - rewrite (set_add_In Nat.eqb Nat.eqb_eq). intuition congruence.
  - intuition congruence.
  - intuition congruence.
  - intuition congruence.
Qed.
Lemma inf_end tbl n m la : n < List.length tbl -> inf (fst (set_end tbl n)) m la <-> inf tbl m la \/ m = n /\ la = None.
Proof.
  intro Hn. unfold inf, set_end. cbn [fst]. destruct la as [x|]; rewrite get_follow_update by auto; destruct (Nat.eqb_spec n m); cbn; subst; intuition congruence.
Qed.

(** What every part of the loop does to the table and the flag. *)
Record upd (st st' : follow_table * bool) : Prop := {
  u_len : List.length (fst st') = List.length (fst st);
  u_mono : forall n la, inf (fst st) n la -> inf (fst st') n la;
  u_sound : (forall n la, inf (fst st) n la -> jfol n la) -> forall n la, inf (fst st') n la -> jfol n la;
  u_old : snd st = true -> snd st' = true;
  u_same : snd st' = false -> forall n la, inf (fst st') n la -> inf (fst st) n la;
  u_new : snd st' = true -> snd st = true \/ exists n la, n < List.length (fst st) /\ ~ inf (fst st) n la /\ inf (fst st') n la
}.
Lemma upd_refl st : upd st st.
Proof. split; auto. Qed.
Lemma upd_trans a b c : upd a b -> upd b c -> upd a c.
Proof.
  intros [L1 M1 S1 O1 Q1 N1] [L2 M2 S2 O2 Q2 N2]. split; [congruence|auto|auto|auto| |].
  - intros Hc n la H. apply Q1; [destruct (snd b) eqn:Eb; auto; rewrite (O2 eq_refl) in Hc; discriminate|]. apply Q2; auto.
  - intro Hc. destruct (N2 Hc) as [Hb|(n & la & Hn & H1 & H2)].
    + destruct (N1 Hb) as [Ha|(n & la & Hn & H1 & H2)]; [auto|]. right. exists n, la. auto.
    + right. exists n, la. split; [lia|]. split; [|exact H2]. intro H. apply H1. auto.
Qed.
Lemma upd_add tbl u n t : n < List.length tbl -> jfol n (Some t) -> upd (tbl, u) (fst (add_follow tbl n t), u || snd (add_follow tbl n t)).
Proof.
  intros Hn Hj. split; cbn [fst snd].
  - apply update_nth_length.
  - intros. apply inf_add; auto.
  - intros Hs m la H. apply inf_add in H; auto. destruct H as [H|[-> ->]]; auto.
  - intros ->. reflexivity.
  - intros Hu m la H. apply orb_false_iff in Hu. apply inf_add in H; auto. destruct H as [H|[-> ->]]; auto.
    destruct Hu as [_ Hu]. apply negb_false_iff in Hu. apply (set_mem_In Nat.eqb Nat.eqb_eq) in Hu. exact Hu.
  - intro Hu. apply orb_true_iff in Hu. destruct Hu as [Hu|Hu]; [auto|]. right. exists n, (Some t). split; auto.
    apply negb_true_iff in Hu. apply (set_mem_not_In Nat.eqb Nat.eqb_eq) in Hu. split; [exact Hu|]. apply inf_add; auto.
Qed.
Lemma upd_end tbl u n : n < List.length tbl -> jfol n None -> upd (tbl, u) (fst (set_end tbl n), u || snd (set_end tbl n)).
Proof.
  intros Hn Hj. split; cbn [fst snd].
  - apply update_nth_length.
  - intros. apply inf_end; auto.
  - intros Hs m la H. apply inf_end in H; auto. destruct H as [H|[-> ->]]; auto.
  - intros ->. reflexivity.
  - intros Hu m la H. apply orb_false_iff in Hu. apply inf_end in H; auto. destruct H as [H|[-> ->]]; auto.
    destruct Hu as [_ Hu]. apply negb_false_iff in Hu. exact Hu.
  - intro Hu. apply orb_true_iff in Hu. destruct Hu as [Hu|Hu]; [auto|]. right. exists n, None. split; auto.
    apply negb_true_iff in Hu. split; [cbn; congruence|]. apply inf_end; auto.
Qed.

Lemma add_all_upd n ts : forall st, n < List.length (fst st) -> (forall t, In t ts -> jfol n (Some t)) ->
  upd st (follow_add_all n ts st) /\ forall t, In t ts -> inf (fst (follow_add_all n ts st)) n (Some t).
Proof.
  induction ts as [|t ts IH]; intros [tbl u] Hn Hj; [split; [apply upd_refl|intros t []]|]. cbn [fst] in Hn.
  pose proof (upd_add tbl u n t Hn (Hj t (or_introl eq_refl))) as H1. cbn [follow_add_all]. destruct (add_follow tbl n t) as [tbl' b] eqn:E. cbn [fst snd] in H1.
  destruct (IH (tbl', u || b)) as (H2 & H3).
  - pose proof (u_len _ _ H1) as Hu. cbn [fst] in *. rewrite Hu. exact Hn.
  - intros x Hx. apply Hj. right. exact Hx.
  - split; [exact (upd_trans _ _ _ H1 H2)|]. intros x [<-|Hx]; [|apply H3; exact Hx]. apply (u_mono _ _ H2). cbn [fst].
    replace tbl' with (fst (add_follow tbl n t)) by (rewrite E; reflexivity). apply inf_add; auto.
Qed.
Lemma from_upd m n st : n < List.length (fst st) -> (forall la, jfol m la -> jfol n la) -> (forall k la, inf (fst st) k la -> jfol k la) ->
  upd st (follow_from ho m n st) /\ forall la, inf (fst st) m la -> inf (fst (follow_from ho m n st)) n la.
Proof.
  destruct st as [tbl u]. cbn [fst]. intros Hn Hj Hs. unfold follow_from.
  assert (Ht : forall t, In t (ho_terms ho (fo_terminals (get_follow tbl m))) -> jfol n (Some t)).
  { intros t Ht. apply Hj, Hs. cbn. eapply Permutation_in; [apply Hho|exact Ht]. }
  assert (Hin : forall t, inf tbl m (Some t) -> In t (ho_terms ho (fo_terminals (get_follow tbl m)))).
  { intros t H. eapply Permutation_in; [apply Permutation_sym, Hho|exact H]. }
  destruct (fo_end (get_follow tbl m)) eqn:Ee.
  - pose proof (upd_end tbl u n Hn (Hj None (Hs m None Ee))) as H1. destruct (set_end tbl n) as [tbl' b] eqn:E. cbn [fst snd] in H1.
    destruct (add_all_upd n (ho_terms ho (fo_terminals (get_follow tbl m))) (tbl', u || b)) as (H2 & H3); [pose proof (u_len _ _ H1) as Hu; cbn [fst] in *; rewrite Hu; exact Hn|exact Ht|].
    split; [exact (upd_trans _ _ _ H1 H2)|]. intros [t|] H; [apply H3, Hin, H|]. apply (u_mono _ _ H2). cbn [fst].
    replace tbl' with (fst (set_end tbl n)) by (rewrite E; reflexivity). apply inf_end; auto.
  - destruct (add_all_upd n (ho_terms ho (fo_terminals (get_follow tbl m))) (tbl, u)) as (H2 & H3); [exact Hn|exact Ht|].
    split; [exact H2|]. intros [t|] H; [apply H3, Hin, H|]. cbn in H. congruence.
Qed.

(** What has been taken care of after the loop over [syms], with [nt] just before them, or not. *)
Definition cared (tbl0 tbl : follow_table) (m n : nat) (syms : list symbol) : Prop :=
  (forall b X r t, syms = b ++ X :: r -> flagged b -> sym_first X t -> inf tbl n (Some t)) /\
  (flagged syms -> forall la, inf tbl0 m la -> inf tbl n la).
Definition done (tbl0 tbl : follow_table) (m n : nat) (syms : list symbol) : Prop :=
  forall l r, syms = l ++ NT n :: r -> cared tbl0 tbl m n r.
Lemma cared_less t0 t1 tbl m n l : (forall k la, inf t0 k la -> inf t1 k la) -> cared t1 tbl m n l -> cared t0 tbl m n l.
Proof. intros H (H1 & H2). split; auto. Qed.
Lemma done_less t0 t1 tbl m n l : (forall k la, inf t0 k la -> inf t1 k la) -> done t1 tbl m n l -> done t0 tbl m n l.
Proof. intros H H1 a r E. exact (cared_less _ _ _ _ _ _ H (H1 a r E)). Qed.
Lemma done_cons t0 tbl m n X l : done t0 tbl m n l -> (X = NT n -> cared t0 tbl m n l) -> done t0 tbl m n (X :: l).
Proof. intros H1 H2 a r E. destruct a as [|Y a]; injection E as -> E; [subst; auto|]. exact (H1 a r E). Qed.

Lemma symbols_upd m p pr n (Hp : get_production g m p = Some pr) syms : forall (b : bool) st, n < List.length (fst st) ->
  (forall k la, inf (fst st) k la -> jfol k la) ->
  (if b then exists l b0, rhs pr = l ++ NT n :: b0 ++ syms /\ flagged b0 else exists l, rhs pr = l ++ syms) ->
  upd st (follow_symbols ho first m n b syms st) /\ done (fst st) (fst (follow_symbols ho first m n b syms st)) m n syms /\
  (b = true -> cared (fst st) (fst (follow_symbols ho first m n b syms st)) m n syms).
Proof.
  induction syms as [|X rest IH]; intros b st Hn Hs Hctx.
  - cbn [follow_symbols]. destruct b.
    + destruct Hctx as (l & b0 & E & Hb0). rewrite app_nil_r in E.
      destruct (from_upd m n st Hn (fun la => jf_up _ _ _ _ _ _ la Hp E Hb0) Hs) as (H1 & H2).
      split; [exact H1|]. split; [intros [|] ? ?; discriminate|]. intros _. split; [intros [|] ? ? ? ?; discriminate|]. intros _ la. apply H2.
    + split; [apply upd_refl|]. split; [intros [|] ? ?; discriminate|discriminate].
  - cbn [follow_symbols]. destruct b.
    + destruct Hctx as (l & b0 & E & Hb0). destruct X as [y|t].
      * assert (Hterm : forall t, In t (ho_terms ho (fs_terminals (get_first first y))) -> jfol n (Some t)).
        { intros t Ht. apply (jf_right _ _ _ _ _ b0 (NT y) rest t Hp E Hb0). eapply Permutation_in; [apply Hho|exact Ht]. }
        destruct (add_all_upd n _ st Hn Hterm) as (H1 & H2). set (st1 := follow_add_all n (ho_terms ho (fs_terminals (get_first first y))) st) in *.
        assert (H2' : forall t, sym_first (NT y) t -> inf (fst st1) n (Some t)).
        { intros t Ht. apply H2. eapply Permutation_in; [apply Permutation_sym, Hho|exact Ht]. }
        assert (Hn1 : n < List.length (fst st1)) by (rewrite (u_len _ _ H1); exact Hn). pose proof (u_sound _ _ H1 Hs) as Hs1.
        destruct (fs_empty (get_first first y)) eqn:Ef.
        -- destruct (IH true st1 Hn1 Hs1) as (H3 & H4 & H5).
           { exists l, (b0 ++ [NT y]). rewrite <- app_assoc. split; [exact E|]. apply Forall_app. split; [exact Hb0|]. constructor; [exact Ef|constructor]. }
           specialize (H5 eq_refl).
           split; [exact (upd_trans _ _ _ H1 H3)|]. pose proof (cared_less _ _ _ _ _ _ (u_mono _ _ H1) H5) as H6. split.
           ++ apply done_cons; [exact (done_less _ _ _ _ _ _ (u_mono _ _ H1) H4)|auto].
           ++ intros _. destruct H6 as (H6 & H7). split.
              ** intros b1 X r t Eb Hb HX. destruct b1 as [|Y b1]; injection Eb as <- Eb.
                 --- apply (u_mono _ _ H3), H2', HX.
                 --- inversion Hb; subst. exact (H6 _ _ _ _ eq_refl ltac:(assumption) HX).
              ** intros Hb. inversion Hb; subst. auto.
        -- destruct (IH (symbol_eqb (NT y) (NT n)) st1 Hn1 Hs1) as (H3 & H4 & H5).
           { cbn. destruct (Nat.eqb_spec y n) as [->|Hne].
             - exists (l ++ NT n :: b0), []. cbn. split; [rewrite E, <- !app_assoc; reflexivity|constructor].
             - exists (l ++ NT n :: b0 ++ [NT y]). rewrite E, <- !app_assoc. cbn. rewrite <- app_assoc. reflexivity. }
           split; [exact (upd_trans _ _ _ H1 H3)|]. split.
           ++ apply done_cons; [exact (done_less _ _ _ _ _ _ (u_mono _ _ H1) H4)|]. intro Ey. injection Ey as ->. cbn in H5. rewrite Nat.eqb_refl in H5.
              cbn. rewrite Nat.eqb_refl. exact (cared_less _ _ _ _ _ _ (u_mono _ _ H1) (H5 eq_refl)).
           ++ intros _. split.
              ** intros b1 X r t Eb Hb HX. destruct b1 as [|Y b1]; injection Eb as <- Eb.
                 --- apply (u_mono _ _ H3), H2', HX.
                 --- inversion Hb; subst. unfold flag in *. congruence.
              ** intros Hb. inversion Hb; subst. unfold flag in *. congruence.
      * destruct st as [tbl u]. cbn [fst] in *. assert (Hj : jfol n (Some t)) by exact (jf_right _ _ _ _ _ b0 (T t) rest t Hp E Hb0 eq_refl).
        pose proof (upd_add tbl u n t Hn Hj) as H1. assert (H2 : inf (fst (add_follow tbl n t)) n (Some t)) by (apply inf_add; auto).
        destruct (add_follow tbl n t) as [tbl' c] eqn:Ea. cbn [fst snd] in H1, H2.
        destruct (IH false (tbl', u || c)) as (H3 & H4 & _); [pose proof (u_len _ _ H1) as Hu; cbn [fst] in *; rewrite Hu; exact Hn|exact (u_sound _ _ H1 Hs)| |].
        { exists (l ++ NT n :: b0 ++ [T t]). rewrite E, <- !app_assoc. cbn. rewrite <- app_assoc. reflexivity. }
        split; [exact (upd_trans _ _ _ H1 H3)|]. split.
        -- apply done_cons; [exact (done_less _ _ _ _ _ _ (u_mono _ _ H1) H4)|discriminate].
        -- intros _. split.
           ++ intros b1 X r x Eb Hb HX. destruct b1 as [|Y b1]; injection Eb as <- Eb; [|inversion Hb; contradiction].
              cbn in HX. subst x. apply (u_mono _ _ H3). exact H2.
           ++ intro Hb. inversion Hb; contradiction.
    + destruct Hctx as (l & E). destruct (IH (symbol_eqb X (NT n)) st Hn Hs) as (H3 & H4 & H5).
      { destruct X as [y|t]; cbn; [destruct (Nat.eqb_spec y n) as [->|Hne]|].
        - exists l, []. split; [exact E|constructor].
        - exists (l ++ [NT y]). rewrite E, <- app_assoc. reflexivity.
        - exists (l ++ [T t]). rewrite E, <- app_assoc. reflexivity. }
      split; [exact H3|]. split; [|discriminate]. apply done_cons; [exact H4|]. intros ->. cbn in H5. rewrite Nat.eqb_refl in H5.
      cbn. rewrite Nat.eqb_refl. apply H5. reflexivity.
Qed.

(** Going through a list: if nothing changed, everything is taken care of. *)
Lemma fold_upd {X} (f : follow_table * bool -> X -> follow_table * bool) (D : X -> follow_table -> Prop) l :
  (forall x, In x l -> forall st, List.length (fst st) = n_non_terminals g -> (forall k la, inf (fst st) k la -> jfol k la) ->
     upd st (f st x) /\ (snd (f st x) = false -> D x (fst st))) ->
  (forall x (t t' : follow_table), (forall k la, inf t k la <-> inf t' k la) -> D x t -> D x t') ->
  forall st, List.length (fst st) = n_non_terminals g -> (forall k la, inf (fst st) k la -> jfol k la) ->
    upd st (fold_left f l st) /\ (snd (fold_left f l st) = false -> forall x, In x l -> D x (fst st)).
Proof.
  intros Hf HD. induction l as [|x l IH]; intros st Hl Hs; [split; [apply upd_refl|intros _ ? []]|]. cbn [fold_left].
  destruct (Hf x (or_introl eq_refl) st Hl Hs) as (H1 & H2).
  destruct (IH (fun y Hy => Hf y (or_intror Hy)) (f st x)) as (H3 & H4); [exact (eq_trans (u_len _ _ H1) Hl)|exact (u_sound _ _ H1 Hs)|].
  split; [exact (upd_trans _ _ _ H1 H3)|]. intros Hq y Hy.
  assert (Hx : snd (f st x) = false) by (destruct (snd (f st x)) eqn:E; auto; rewrite (u_old _ _ H3 E) in Hq; discriminate).
  destruct Hy as [<-|Hy]; [auto|]. eapply HD; [|exact (H4 Hq y Hy)]. intros k la. split; [apply (u_same _ _ H1 Hx)|apply (u_mono _ _ H1)].
Qed.

Lemma all_productions_In m pr : In (m, pr) (all_productions g) <-> exists p, get_production g m p = Some pr.
Proof.
  unfold all_productions. rewrite in_flat_map. split.
  - intros ((k & N) & HN & H). apply in_map_iff in H. destruct H as (q & E & Hq). injection E as -> ->. apply enumerate_nth_error in HN.
    apply In_nth_error in Hq. destruct Hq as (p & Hq). exists p. unfold get_production, get_non_terminal. rewrite HN. exact Hq.
  - intros (p & H). unfold get_production, get_non_terminal in H. destruct (nth_error (g_nts g) m) as [N|] eqn:EN; [|discriminate].
    exists (m, N). split; [apply enumerate_nth_error; exact EN|]. apply in_map. eapply nth_error_In; eauto.
Qed.

(** What a pass without a change establishes. *)
Definition closed (tbl : follow_table) : Prop := forall m p pr n, get_production g m p = Some pr -> n < n_non_terminals g -> done tbl tbl m n (rhs pr).
Lemma cared_ext t0 t1 t m n l : (forall k la, inf t0 k la <-> inf t k la) -> (forall k la, inf t1 k la <-> inf t k la) ->
  cared t0 t1 m n l -> cared t t m n l.
Proof.
  intros E0 E1 (H1 & H2). split.
  - intros b X r x Eb Hb HX. apply E1. eauto.
  - intros Hb la H. apply E1. apply H2; auto. apply E0. exact H.
Qed.
Lemma pass_upd tbl : List.length tbl = n_non_terminals g -> (forall k la, inf tbl k la -> jfol k la) ->
  upd (tbl, false) (follow_pass ho first g tbl) /\ (snd (follow_pass ho first g tbl) = false -> closed tbl).
Proof.
  intros Hl Hs. unfold follow_pass.
  set (inner := fun (n : nat) (st' : follow_table * bool) (x : nat * production A) => let '(lhs, q) := x in follow_symbols ho first lhs n false (rhs q) st').
  assert (Hin : forall n, n < n_non_terminals g -> forall st, List.length (fst st) = n_non_terminals g -> (forall k la, inf (fst st) k la -> jfol k la) ->
    upd st (fold_left (inner n) (all_productions g) st) /\
    (snd (fold_left (inner n) (all_productions g) st) = false -> forall x, In x (all_productions g) -> done (fst st) (fst st) (fst x) n (rhs (snd x)))).
  { intros n Hn. apply (fold_upd (inner n) (fun x t => done t t (fst x) n (rhs (snd x)))).
    - intros (m & pr) Hx st Hl' Hs'. apply all_productions_In in Hx. destruct Hx as (p & Hp). cbn [inner].
      destruct (symbols_upd m p pr n Hp (rhs pr) false st) as (H1 & H2 & _); [lia|exact Hs'|exists []; reflexivity|].
      split; [exact H1|]. intros Hq l r E. cbn [fst snd] in *. eapply cared_ext; [| |exact (H2 l r E)]; [reflexivity|].
      intros k la. split; [apply (u_same _ _ H1 Hq)|apply (u_mono _ _ H1)].
    - intros (m & pr) t t' Et H l r E. eapply cared_ext; [| |exact (H l r E)]; auto. }
  destruct (fold_upd (fun st '(nt, _) => fold_left (fun st' '(lhs, p) => follow_symbols ho first lhs nt false (rhs p) st') (all_productions g) st)
    (fun (x : nat * non_terminal A) t => forall y, In y (all_productions g) -> done t t (fst y) (fst x) (rhs (snd y))) (non_terminal_indices g)) with (st := (tbl, false)) as (H1 & H2); auto.
  - intros (n & N) Hx st Hl' Hs'. apply Hin; auto. apply enumerate_nth_error in Hx. apply nt_in_range in Hx. exact Hx.
  - intros (n & N) t t' Et H y Hy l r E. eapply cared_ext; [| |exact (H y Hy l r E)]; auto.
  - split; [exact H1|]. intros Hq m p pr n Hp Hn l r E. cbn [fst] in H2.
    destruct (nth_error (g_nts g) n) as [N|] eqn:EN; [|apply nth_error_None in EN; unfold n_non_terminals in Hn; lia].
    refine (H2 Hq (n, N) _ (m, pr) _ l r E); [apply enumerate_nth_error; exact EN|]. apply all_productions_In. eauto.
Qed.

Hypothesis Hrange : forall m p pr n, get_production g m p = Some pr -> In (NT n) (rhs pr) -> n < n_non_terminals g.
Lemma closed_complete tbl : closed tbl -> (0 < n_non_terminals g -> inf tbl 0 None) -> forall n la, jfol n la -> 0 < n_non_terminals g -> inf tbl n la.
Proof.
  intros Hc H0 n la H Hpos. induction H as [|m p pr l n b X r t Hp E Hb HX|m p pr l n b la Hp E Hb Hm IH]; [auto| |].
  - assert (Hn : n < n_non_terminals g) by (apply (Hrange m p pr); auto; rewrite E; apply in_app_iff; right; left; reflexivity).
    exact (proj1 (Hc m p pr n Hp Hn l _ E) b X r t eq_refl Hb HX).
  - assert (Hn : n < n_non_terminals g) by (apply (Hrange m p pr); auto; rewrite E; apply in_app_iff; right; left; reflexivity).
    exact (proj2 (Hc m p pr n Hp Hn l _ E) Hb la IH).
Qed.
Lemma loop_exact fuel : forall tbl tbl', List.length tbl = n_non_terminals g -> (forall k la, inf tbl k la -> jfol k la) -> inf tbl 0 None -> 0 < n_non_terminals g ->
  follow_loop ho first fuel g tbl = Ok tbl' -> forall n la, inf tbl' n la <-> jfol n la.
Proof.
  induction fuel as [|fuel IH]; intros tbl tbl' Hl Hs H0 Hpos H; [discriminate|]. cbn [follow_loop] in H.
  destruct (pass_upd tbl Hl Hs) as (H1 & H2). destruct (follow_pass ho first g tbl) as [tbl1 u]. cbn [fst snd] in *. destruct u.
  - apply (IH tbl1); auto; [exact (eq_trans (u_len _ _ H1) Hl)|exact (u_sound _ _ H1 Hs)|exact (u_mono _ _ H1 _ _ H0)].
  - injection H as <-. intros n la. split; [exact (u_sound _ _ H1 Hs n la)|]. intro Hj. apply (u_mono _ _ H1). apply closed_complete; auto.
Qed.
Lemma new_none n k la : ~ inf (follow_table_new n) k la.
Proof.
  unfold inf, get_follow, follow_table_new. assert (E : nth k (repeat follow_set_default n) follow_set_default = follow_set_default).
  { destruct (nth_in_or_default k (repeat follow_set_default n) follow_set_default) as [H|H]; [exact (repeat_spec _ _ _ H)|exact H]. }
  rewrite E. destruct la; cbn; auto.
Qed.
Lemma start_table : 0 < n_non_terminals g -> let tbl := fst (set_end (follow_table_new (n_non_terminals g)) 0) in
  List.length tbl = n_non_terminals g /\ (forall k la, inf tbl k la -> jfol k la) /\ inf tbl 0 None.
Proof.
  intros Hpos tbl. assert (Hl : 0 < List.length (follow_table_new (n_non_terminals g))) by (unfold follow_table_new; rewrite repeat_length; exact Hpos). repeat split.
  - unfold tbl, set_end. cbn [fst]. rewrite update_nth_length. apply repeat_length.
  - intros k la H. apply inf_end in H; auto. destruct H as [H|[-> ->]]; [exfalso; exact (new_none _ _ _ H)|constructor].
  - apply inf_end; auto.
Qed.
Theorem table_exact fuel tbl n la : generate_follow_table ho first fuel g = Ok tbl -> 0 < n_non_terminals g -> inf tbl n la <-> jfol n la.
Proof.
  intros H Hpos. unfold generate_follow_table in H. destruct (Nat.eqb_spec (n_non_terminals g) 0) as [E|_]; [lia|].
  destruct (start_table Hpos) as (H1 & H2 & H3). exact (loop_exact fuel _ tbl H1 H2 H3 Hpos H n la).
Qed.
End Table.

(** ** The equations and derivations *)
Section Meaning.
Context {A : Type}.
Variable g : grammar A.
Variable first : first_table.

Section Sound.
Hypothesis Hflag : forall n, flag first n = true -> nullable g n.
Hypothesis Hterm : forall n t, In t (terms first n) -> first_of g n t.
Lemma flagged_nullable b : flagged first b -> nullable_seq g b.
Proof. induction 1 as [|X l H Hl IH]; [constructor|]. destruct X as [y|t]; [constructor; auto|contradiction]. Qed.
Lemma sym_first_derives X t : sym_first first X t -> exists r, derives g [X] (T t :: r).
Proof.
  destruct X as [y|t']; cbn; [|intros <-; exists []; constructor]. intro H. apply Hterm, first_of_derives in H. exact H.
Qed.
Lemma jfol_follows n la : jfol g first n la -> follows g n la.
Proof.
  induction 1 as [|m p pr l n b X r t Hp E Hb HX|m p pr l n b la Hp E Hb Hm IH].
  - exists []. constructor.
  - destruct (sym_first_derives X t HX) as (r' & Hr). exists m, l, (r' ++ r). eapply derives_trans; [exact (derives_prod g _ _ _ Hp)|]. rewrite E.
    apply (derives_app g l l); [constructor|]. apply (derives_app g [NT n] [NT n]); [constructor|].
    apply (derives_app g b [] (X :: r)); [apply nullable_derives, flagged_nullable, Hb|]. exact (derives_app g [X] (T t :: r') r r Hr (derives_refl _ _)).
  - assert (H1 : derives g [NT m] (l ++ [NT n])).
    { eapply derives_trans; [exact (derives_prod g _ _ _ Hp)|]. rewrite E. apply (derives_app g l l); [constructor|].
      apply (derives_app g [NT n] [NT n] b []); [constructor|]. apply nullable_derives, flagged_nullable, Hb. }
    destruct la as [t|].
    + destruct IH as (k & l0 & r0 & IH). exists k, (l0 ++ l), r0. eapply derives_trans; [exact IH|]. rewrite <- app_assoc. apply (derives_app g l0 l0); [constructor|].
      pose proof (derives_app g _ _ (T t :: r0) (T t :: r0) H1 (derives_refl _ _)) as H2. cbn in H2. rewrite <- app_assoc in H2. exact H2.
    + destruct IH as (l0 & IH). exists (l0 ++ l). eapply derives_trans; [exact IH|]. rewrite <- app_assoc. apply (derives_app g l0 l0); [constructor|exact H1].
Qed.
End Sound.

Section Complete.
Hypothesis Hflag : forall n, nullable g n -> flag first n = true.
Hypothesis Hterm : forall n t, first_of g n t -> In t (terms first n).
Lemma nullable_flagged b : nullable_seq g b -> flagged first b.
Proof. induction 1; constructor; auto. Qed.
(** What comes after a non-terminal in a sentential form of [m]. *)
Definition seen (m : nat) (l : list symbol) : Prop := forall a n b, l = a ++ NT n :: b ->
  (forall t, first_seq g b t -> jfol g first n (Some t)) /\ (nullable_seq g b -> forall la, jfol g first m la -> jfol g first n la).
Lemma in_rhs m p pr l n b r : get_production g m p = Some pr -> rhs pr = l ++ NT n :: b -> 
  (forall t, first_seq g r t -> jfol g first m (Some t)) -> forall t, first_seq g (b ++ r) t -> jfol g first n (Some t).
Proof.
  intros Hp E Hr t H. apply first_seq_app in H. destruct H as [H|[H1 H2]].
  - apply first_seq_split in H. destruct H as (a & X & b' & -> & Ha & HX). eapply jf_right; [exact Hp|exact E|apply nullable_flagged, Ha|].
    destruct HX as [->|(k & -> & Hk)]; [reflexivity|]. cbn. auto.
  - eapply jf_up; [exact Hp|exact E|apply nullable_flagged, H1|auto].
Qed.
Lemma seen_step m x y : dstep g x y -> seen m x -> seen m y.
Proof.
  intros [l k p pr r Hp] Hs a n b E.
  destruct (Hs l k r eq_refl) as (Hk1 & Hk2).
  assert (Hcase : (exists d, a = l ++ rhs pr ++ d /\ r = d ++ NT n :: b) \/ (exists c d, rhs pr = c ++ NT n :: d /\ b = d ++ r) \/ (exists d, l = a ++ NT n :: d /\ b = d ++ rhs pr ++ r)).
  { clear - E. apply app_eq_app in E. destruct E as (d & [(E1 & E2)|(E1 & E2)]).
    - destruct d as [|X d]; cbn in E2; [|injection E2 as <- E2; right; right; exists d; auto]. rewrite app_nil_r in E1. subst a.
      destruct (rhs pr) as [|X q]; cbn in E2; [left; exists []; cbn; rewrite app_nil_r; auto|]. injection E2 as <- E2. right. left. exists [], q. auto.
    - apply app_eq_app in E2. destruct E2 as (c & [(E2 & E3)|(E2 & E3)]).
      + destruct c as [|X c]; cbn in E3.
        * left. exists []. rewrite app_nil_r in *. subst. auto.
        * injection E3 as <- E3. right. left. exists d, c. auto.
      + left. exists c. subst. auto. }
  destruct Hcase as [(d & -> & Er)|[(c & d & Er & ->)|(d & El & ->)]].
  - apply (Hs (l ++ NT k :: d) n b). rewrite Er, <- app_assoc. reflexivity.
  - split; [exact (in_rhs _ _ _ _ _ _ _ Hp Er Hk1)|]. intros H la Hla. apply nullable_seq_app in H. destruct H as (H1 & H2).
    eapply jf_up; [exact Hp|exact Er|apply nullable_flagged, H1|auto].
  - destruct (Hs a n (d ++ NT k :: r)) as (H1 & H2); [rewrite El, <- app_assoc; reflexivity|].
    assert (Hst : dstep g (d ++ NT k :: r) (d ++ rhs pr ++ r)) by (constructor 1 with (p := p); exact Hp). split.
    + intros t H. apply H1. exact (dstep_first_seq g _ _ t Hst H).
    + intros H. apply H2. exact (dstep_nullable g _ _ Hst H).
Qed.
Lemma seen_derives m x y : derives g x y -> seen m x -> seen m y.
Proof. induction 1 as [|x z y Hs Hd IH]; auto. intro H. apply IH. exact (seen_step m _ _ Hs H). Qed.
Lemma seen_start m : seen m [NT m].
Proof.
  intros a n b E. destruct a as [|X a]; [|destruct a; discriminate]. injection E as -> <-. split; [|auto]. intros t H. inversion H.
Qed.
Lemma follows_jfol n la : follows g n la -> jfol g first n la.
Proof.
  destruct la as [t|].
  - intros (m & l & r & H). apply (proj1 (seen_derives m _ _ H (seen_start m) l n _ eq_refl)). constructor.
  - intros (l & H). apply (proj2 (seen_derives 0 _ _ H (seen_start 0) l n _ eq_refl)); constructor.
Qed.
End Complete.
End Meaning.

(** ** The loop stops *)
Section Stops.
Context {A : Type}.
Variable g : grammar A.
Variable ho : hash_order.
Hypothesis Hho : forall l, Permutation (ho_terms ho l) l.
Hypothesis Hwf : wf_grammar g.
Variable first : first_table.
Hypothesis Hfirst : forall n t, In t (terms first n) -> t < n_terminals g.

Lemma jfol_range n t : jfol g first n (Some t) -> t < n_terminals g.
Proof.
  intro H. remember (Some t) as la eqn:E. revert t E. induction H as [|m p pr l n b X r t Hp E Hb HX|m p pr l n b la Hp E Hb Hm IH]; intros x Ex; [discriminate| |auto].
  injection Ex as <-. destruct X as [y|t']; cbn in HX; [eauto|]. subst t'. apply (wfg_t g Hwf m p pr t Hp). rewrite E. apply in_app_iff. right. right. apply in_app_iff. right. left. reflexivity.
Qed.
Definition ffact (tbl : follow_table) (x : nat * option nat) : bool :=
  match snd x with None => fo_end (get_follow tbl (fst x)) | Some t => set_mem Nat.eqb t (fo_terminals (get_follow tbl (fst x))) end.
Lemma ffact_inf tbl x : ffact tbl x = true <-> inf tbl (fst x) (snd x).
Proof. destruct x as [n [t|]]; cbn; [apply (set_mem_In Nat.eqb Nat.eqb_eq)|reflexivity]. Qed.
Definition ffacts : list (nat * option nat) := list_prod (seq 0 (n_non_terminals g)) (None :: map Some (seq 0 (n_terminals g))).
Definition n_ffacts tbl := List.length (filter (ffact tbl) ffacts).
Lemma pass_more tbl : List.length tbl = n_non_terminals g -> (forall k la, inf tbl k la -> jfol g first k la) ->
  snd (follow_pass ho first g tbl) = true -> n_ffacts tbl < n_ffacts (fst (follow_pass ho first g tbl)).
Proof.
  intros Hl Hs Hu. destruct (pass_upd g ho Hho first tbl Hl Hs) as (H1 & _).
  destruct (u_new _ _ _ _ H1 Hu) as [K|(n & la & Hn & H2 & H3)]; [discriminate|]. cbn [fst] in *.
  apply filter_lt with (x := (n, la)).
  - intros x _ Hx. apply ffact_inf, (u_mono _ _ _ _ H1). apply ffact_inf. exact Hx.
  - apply in_prod; [apply in_seq; rewrite Hl in Hn; lia|]. destruct la as [t|]; [right|left; reflexivity]. apply in_map. apply in_seq.
    pose proof (jfol_range n t (u_sound _ _ _ _ H1 Hs n (Some t) H3)). lia.
  - destruct (ffact tbl (n, la)) eqn:E; auto. apply ffact_inf in E. contradiction.
  - apply ffact_inf. exact H3.
Qed.
Lemma loop_stops fuel : forall tbl, List.length tbl = n_non_terminals g -> (forall k la, inf tbl k la -> jfol g first k la) ->
  List.length ffacts < fuel + n_ffacts tbl -> exists tbl', follow_loop ho first fuel g tbl = Ok tbl'.
Proof.
  induction fuel as [|fuel IH]; intros tbl Hl Hs Hf; [pose proof (filter_bound (ffact tbl) ffacts); unfold n_ffacts in Hf; lia|].
  cbn [follow_loop]. pose proof (pass_more tbl Hl Hs) as Hm. destruct (pass_upd g ho Hho first tbl Hl Hs) as (H1 & _).
  destruct (follow_pass ho first g tbl) as [tbl' u]. cbn [fst snd] in *. destruct u; [|eauto].
  apply IH; [exact (eq_trans (u_len _ _ _ _ H1) Hl)|exact (u_sound _ _ _ _ H1 Hs)|]. specialize (Hm eq_refl). lia.
Qed.
Theorem table_stops fuel : List.length ffacts < fuel -> exists tbl, generate_follow_table ho first fuel g = Ok tbl.
Proof.
  intro Hf. unfold generate_follow_table. destruct (Nat.eqb_spec (n_non_terminals g) 0) as [E|E]; [eauto|].
  destruct (start_table g first) as (H1 & H2 & _); [lia|]. apply loop_stops; auto. lia.
Qed.
End Stops.
