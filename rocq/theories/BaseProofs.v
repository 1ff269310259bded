(** * BaseProofs: lemmas about the generic vocabulary of Base.v and Items.v *)
From Verif Require Export Items.

Lemma opt_nat_eqb_spec a b : opt_nat_eqb a b = true <-> a = b.
Proof.
  destruct a, b; simpl; split; intro H; try discriminate; try reflexivity.
  - apply Nat.eqb_eq in H; congruence.
  - inversion H; apply Nat.eqb_refl.
Qed.

Lemma symbol_eqb_spec a b : symbol_eqb a b = true <-> a = b.
Proof.
  destruct a, b; simpl; split; intro H; try discriminate.
  - apply Nat.eqb_eq in H; congruence.
  - inversion H; apply Nat.eqb_refl.
  - apply Nat.eqb_eq in H; congruence.
  - inversion H; apply Nat.eqb_refl.
Qed.

Lemma symbol_eq_dec (a b : symbol) : {a = b} + {a <> b}.
Proof. decide equality; apply Nat.eq_dec. Qed.

Lemma item_eqb_spec a b : item_eqb a b = true <-> a = b.
Proof.
  destruct a, b; unfold item_eqb; simpl.
  rewrite !andb_true_iff, !Nat.eqb_eq, opt_nat_eqb_spec.
  split; [intros [[[-> ->] ->] ->]; reflexivity | intros H; inversion H; auto].
Qed.

Lemma item_eq_dec (a b : item) : {a = b} + {a <> b}.
Proof. repeat decide equality. Qed.

(** Maps *)
Section Maps.
Context {K V : Type} (eqb : K -> K -> bool) (Heqb : forall a b, eqb a b = true <-> a = b).

Lemma eqb_refl_ k : eqb k k = true.
Proof. apply Heqb; reflexivity. Qed.

Lemma eqb_neq a b : a <> b -> eqb a b = false.
Proof. intro H; destruct (eqb a b) eqn:E; auto; apply Heqb in E; contradiction. Qed.

Lemma map_get_insert_same k v (m : list (K * V)) : map_get eqb k (map_insert eqb k v m) = Some v.
Proof.
  induction m as [|[k' v'] m IH]; simpl.
  - rewrite eqb_refl_; auto.
  - destruct (eqb k k') eqn:E; simpl; rewrite E; auto.
Qed.

Lemma map_get_insert_other k k' v (m : list (K * V)) :
  k <> k' -> map_get eqb k (map_insert eqb k' v m) = map_get eqb k m.
Proof.
  intro H; induction m as [|[k1 v1] m IH]; simpl.
  - rewrite eqb_neq; auto.
  - destruct (eqb k' k1) eqn:E; simpl.
    + apply Heqb in E; subst k1. rewrite eqb_neq; auto.
    + destruct (eqb k k1); auto.
Qed.

Lemma map_get_In k v (m : list (K * V)) : map_get eqb k m = Some v -> In (k, v) m.
Proof.
  induction m as [|[k1 v1] m IH]; simpl; [discriminate|].
  destruct (eqb k k1) eqn:E; intro H.
  - apply Heqb in E; inversion H; subst; auto.
  - auto.
Qed.

Lemma map_get_None k (m : list (K * V)) : map_get eqb k m = None <-> ~ In k (map fst m).
Proof.
  induction m as [|[k1 v1] m IH]; simpl; [tauto|].
  destruct (eqb k k1) eqn:E.
  - apply Heqb in E; subst. split; [discriminate | intro H; exfalso; apply H; auto].
  - rewrite IH. split; intros H H1; apply H; [destruct H1; auto; subst; rewrite eqb_refl_ in E; discriminate | auto].
Qed.

Lemma map_get_NoDup k v (m : list (K * V)) :
  NoDup (map fst m) -> In (k, v) m -> map_get eqb k m = Some v.
Proof.
  induction m as [|[k1 v1] m IH]; simpl; [tauto|].
  intros Hnd [H|H].
  - inversion H; subst; rewrite eqb_refl_; auto.
  - inversion Hnd; subst. rewrite eqb_neq; auto.
    intro; subst. apply H2. change k1 with (fst (k1, v)). apply in_map; auto.
Qed.

Lemma map_insert_keys k v (m : list (K * V)) :
  forall x, In x (map fst (map_insert eqb k v m)) <-> x = k \/ In x (map fst m).
Proof.
  intro x; induction m as [|[k1 v1] m IH]; simpl.
  - intuition.
  - destruct (eqb k k1) eqn:E; simpl.
    + apply Heqb in E; subst; intuition.
    + rewrite IH; intuition.
Qed.

Lemma map_insert_NoDup k v (m : list (K * V)) :
  NoDup (map fst m) -> NoDup (map fst (map_insert eqb k v m)).
Proof.
  induction m as [|[k1 v1] m IH]; simpl; intro H.
  - constructor; [intros []|constructor].
  - inversion H; subst. destruct (eqb k k1) eqn:E; simpl; constructor; auto.
    rewrite map_insert_keys; intros [->|?]; auto. rewrite eqb_refl_ in E; discriminate.
Qed.

Lemma map_get_perm k (m m' : list (K * V)) :
  NoDup (map fst m) -> Permutation m m' -> map_get eqb k m = map_get eqb k m'.
Proof.
  intros Hnd HP.
  assert (Hnd' : NoDup (map fst m')) by (eapply Permutation_NoDup; [apply Permutation_map; eauto|auto]).
  destruct (map_get eqb k m) eqn:E.
  - apply map_get_In in E. symmetry; apply map_get_NoDup; auto. eapply Permutation_in; eauto.
  - apply map_get_None in E. symmetry; apply map_get_None. intro H; apply E.
    eapply Permutation_in; [apply Permutation_map, Permutation_sym; eauto|auto].
Qed.

Lemma map_insert_length k v (m : list (K * V)) :
  List.length (map_insert eqb k v m) =
  match map_get eqb k m with Some _ => List.length m | None => S (List.length m) end.
Proof.
  induction m as [|[k1 v1] m IH]; simpl; auto.
  destruct (eqb k k1) eqn:E; simpl; auto. rewrite IH. destruct (map_get eqb k m); auto.
Qed.
End Maps.

(** Sets *)
Section Sets.
Context {X : Type} (eqb : X -> X -> bool) (Heqb : forall a b, eqb a b = true <-> a = b).

Lemma set_mem_In x s : set_mem eqb x s = true <-> In x s.
Proof.
  unfold set_mem; rewrite existsb_exists. split.
  - intros (y & H1 & H2); apply Heqb in H2; subst; auto.
  - intro H; exists x; split; auto; apply Heqb; auto.
Qed.

Lemma set_mem_not_In x s : set_mem eqb x s = false <-> ~ In x s.
Proof. rewrite <- set_mem_In. destruct (set_mem eqb x s); split; congruence. Qed.

Lemma set_add_In x y s : In x (set_add eqb y s) <-> x = y \/ In x s.
Proof.
  unfold set_add; destruct (set_mem eqb y s) eqn:E.
  - apply set_mem_In in E. split; auto. intros [->|?]; auto.
  - rewrite in_app_iff; simpl; intuition.
Qed.

Lemma set_add_NoDup y s : NoDup s -> NoDup (set_add eqb y s).
Proof.
  intro H; unfold set_add; destruct (set_mem eqb y s) eqn:E; auto.
  apply set_mem_not_In in E.
  apply Permutation_NoDup with (y :: s); [apply Permutation_cons_append | constructor; auto].
Qed.

Lemma fold_set_add_In l : forall x s,
  In x (fold_left (fun a t => set_add eqb t a) l s) <-> In x l \/ In x s.
Proof.
  induction l as [|y l IH]; simpl; intros x s; [tauto|].
  rewrite IH, set_add_In. intuition.
Qed.

Lemma fold_set_add_NoDup l : forall s,
  NoDup s -> NoDup (fold_left (fun a t => set_add eqb t a) l s).
Proof. induction l as [|y l IH]; simpl; intros s H; auto. apply IH, set_add_NoDup; auto. Qed.
End Sets.

(** Lists *)
Lemma update_nth_length {X} (f : X -> X) l : forall i, List.length (update_nth i f l) = List.length l.
Proof. induction l as [|x l IH]; intros [|i]; simpl; auto. Qed.

Lemma nth_error_update_nth {X} (f : X -> X) l : forall i j,
  nth_error (update_nth i f l) j =
  if Nat.eqb i j then option_map f (nth_error l j) else nth_error l j.
Proof.
  induction l as [|x l IH]; intros [|i] [|j]; simpl; auto.
  - destruct (Nat.eqb i j); auto.
Qed.


Lemma nth_update_nth {X} (f : X -> X) l d : forall i j,
  nth j (update_nth i f l) d =
  if Nat.eqb i j && Nat.ltb j (List.length l) then f (nth j l d) else nth j l d.
Proof.
  induction l as [|x l IH]; intros [|i] [|j]; simpl; auto.
  - destruct (Nat.eqb i j); auto.
  - rewrite IH. reflexivity.
Qed.

Lemma enumerate_nth_error {X} (l : list X) i x :
  In (i, x) (enumerate l) <-> nth_error l i = Some x.
Proof.
  unfold enumerate.
  assert (forall n i, In (i, x) (combine (seq n (List.length l)) l) <->
                      n <= i /\ nth_error l (i - n) = Some x) as H.
  { induction l as [|y l IH]; simpl; intros n j.
    - split; [tauto|]. intros [_ H]. destruct (j - n); discriminate.
    - rewrite IH. split.
      + intros [H|[H1 H2]].
        * inversion H; subst. rewrite Nat.sub_diag; auto.
        * split; [lia|]. destruct (j - n) eqn:E; [lia|]. replace (j - S n) with n0 in H2 by lia. auto.
      + intros [H1 H2]. destruct (j - n) eqn:E.
        * left. simpl in H2. replace j with n by lia. congruence.
        * right. split; [lia|]. replace (j - S n) with n0 by lia. auto. }
  rewrite H, Nat.sub_0_r. split; [tauto | intro; split; [lia|auto]].
Qed.

Lemma enumerate_length {X} (l : list X) : List.length (enumerate l) = List.length l.
Proof. unfold enumerate. rewrite combine_length, seq_length. lia. Qed.

Lemma nth_error_enumerate {X} (l : list X) i :
  nth_error (enumerate l) i = option_map (fun x => (i, x)) (nth_error l i).
Proof.
  unfold enumerate.
  assert (forall n i, nth_error (combine (seq n (List.length l)) l) i =
                      option_map (fun x => (n + i, x)) (nth_error l i)) as H.
  { induction l as [|y l IH]; simpl; intros n [|j]; simpl; auto.
    - rewrite Nat.add_0_r; auto.
    - rewrite IH. replace (S n + j) with (n + S j) by lia. auto. }
  apply H.
Qed.

Lemma enumerate_app {X} (l : list X) x : enumerate (l ++ [x]) = enumerate l ++ [(List.length l, x)].
Proof.
  unfold enumerate. rewrite app_length. simpl. rewrite seq_app. simpl.
  assert (forall (a b : list nat) (c d : list X), List.length a = List.length c ->
            combine (a ++ b) (c ++ d) = combine a c ++ combine b d) as H.
  { induction a as [|y a IH]; intros b [|z c] d Hl; simpl in *; try discriminate; auto.
    f_equal; apply IH; auto. }
  rewrite H; auto. apply seq_length.
Qed.

Lemma Forall2_length_ {X Y} (R : X -> Y -> Prop) l l' :
  Forall2 R l l' -> List.length l = List.length l'.
Proof. induction 1; simpl; auto. Qed.

(** foldM and mapM *)
Lemma bind_Ok {X Y} (r : res X) (f : X -> res Y) y :
  bind r f = Ok y <-> exists x, r = Ok x /\ f x = Ok y.
Proof.
  destruct r; simpl; split; intro H; try (destruct H as (? & ? & ?)); try discriminate; eauto.
  inversion H; subst; auto.
Qed.

Lemma foldM_app {X B} (f : B -> X -> res B) l1 l2 b :
  foldM f (l1 ++ l2) b = bind (foldM f l1 b) (foldM f l2).
Proof.
  revert b; induction l1 as [|x l1 IH]; simpl; intro b; auto.
  destruct (f b x); simpl; auto.
Qed.

Lemma foldM_inv {X B} (P : B -> Prop) (f : B -> X -> res B) l :
  (forall b x b', In x l -> P b -> f b x = Ok b' -> P b') ->
  forall b b', P b -> foldM f l b = Ok b' -> P b'.
Proof.
  induction l as [|x l IH]; simpl; intros Hf b b' HP H.
  - inversion H; subst; auto.
  - apply bind_Ok in H. destruct H as (b1 & H1 & H2).
    eapply IH; [| |exact H2]; eauto.
Qed.

Lemma mapM_Forall2 {X Y} (f : X -> res Y) l : forall l',
  mapM f l = Ok l' <-> Forall2 (fun x y => f x = Ok y) l l'.
Proof.
  induction l as [|x l IH]; simpl; intros l'.
  - split; intro H; [inversion H; constructor | inversion H; auto].
  - split; intro H.
    + apply bind_Ok in H. destruct H as (y & H1 & H2). apply bind_Ok in H2.
      destruct H2 as (ys & H2 & H3). inversion H3; subst. constructor; auto. apply IH; auto.
    + inversion H; subst. rewrite H2. simpl. apply IH in H4. rewrite H4. auto.
Qed.

Lemma mapM_length {X Y} (f : X -> res Y) l l' : mapM f l = Ok l' -> List.length l' = List.length l.
Proof. intro H; apply mapM_Forall2 in H. symmetry; eapply Forall2_length_; eauto. Qed.

Lemma Forall2_nth_error {X Y} (R : X -> Y -> Prop) l l' : Forall2 R l l' ->
  forall i x, nth_error l i = Some x -> exists y, nth_error l' i = Some y /\ R x y.
Proof.
  induction 1; intros [|i] z Hz; simpl in *; try discriminate.
  - inversion Hz; subst; eauto.
  - eauto.
Qed.

Lemma Forall2_nth_error_r {X Y} (R : X -> Y -> Prop) l l' : Forall2 R l l' ->
  forall i y, nth_error l' i = Some y -> exists x, nth_error l i = Some x /\ R x y.
Proof.
  induction 1; intros [|i] z Hz; simpl in *; try discriminate.
  - inversion Hz; subst; eauto.
  - eauto.
Qed.

(** Item order *)
Lemma item_compare_Eq a b : item_compare a b = Eq <-> a = b.
Proof.
  destruct a as [a1 a2 a3 a4], b as [b1 b2 b3 b4]; unfold item_compare; simpl.
  destruct (Nat.compare_spec a1 b1); [|split; intro H0; [discriminate|inversion H0; lia]..].
  destruct (Nat.compare_spec a2 b2); [|split; intro H1; [discriminate|inversion H1; lia]..].
  destruct (Nat.compare_spec a3 b3); [|split; intro H2; [discriminate|inversion H2; lia]..].
  subst. destruct a4 as [a4|], b4 as [b4|]; simpl; try (split; intro H; [discriminate|inversion H]; fail).
  - destruct (Nat.compare_spec a4 b4); split; intro H0; try discriminate; try (inversion H0; lia); subst; auto.
  - tauto.
Qed.

Definition item_lt (a b : item) : Prop := item_compare a b = Lt.

(** [item_lt] is the lexicographic order on the key (nt, prod, cursor, la) *)
Definition la_key (l : option nat) : nat := match l with None => 0 | Some x => S x end.
Lemma item_lt_iff a b : item_lt a b <->
  it_nt a < it_nt b \/ it_nt a = it_nt b /\
  (it_prod a < it_prod b \/ it_prod a = it_prod b /\
   (it_cursor a < it_cursor b \/ it_cursor a = it_cursor b /\ la_key (it_la a) < la_key (it_la b))).
Proof.
  destruct a as [a1 a2 a3 a4], b as [b1 b2 b3 b4]; unfold item_lt, item_compare; simpl.
  destruct (Nat.compare_spec a1 b1); [|split; intro; try discriminate; auto; lia..].
  destruct (Nat.compare_spec a2 b2); [|split; intro; try discriminate; auto; lia..].
  destruct (Nat.compare_spec a3 b3); [|split; intro; try discriminate; auto; lia..].
  destruct a4 as [a4|], b4 as [b4|]; simpl;
    try (split; intro; try discriminate; auto; lia).
  destruct (Nat.compare_spec a4 b4); split; intro; try discriminate; auto; lia.
Qed.

Lemma item_lt_trans a b c : item_lt a b -> item_lt b c -> item_lt a c.
Proof. rewrite !item_lt_iff. lia. Qed.
Lemma item_lt_irrefl a : ~ item_lt a a.
Proof. rewrite item_lt_iff. lia. Qed.
Lemma item_compare_Gt a b : item_compare a b = Gt -> item_lt b a.
Proof.
  intro H. rewrite item_lt_iff.
  destruct a as [a1 a2 a3 a4], b as [b1 b2 b3 b4]; unfold item_compare in *; simpl in *.
  destruct (Nat.compare_spec a1 b1); [|discriminate|lia].
  destruct (Nat.compare_spec a2 b2); [|discriminate|lia].
  destruct (Nat.compare_spec a3 b3); [|discriminate|lia].
  destruct a4 as [a4|], b4 as [b4|]; simpl in *; try discriminate; try lia.
  destruct (Nat.compare_spec a4 b4); try discriminate; lia.
Qed.

From Coq Require Export Sorted.
Definition sorted_items : list item -> Prop := StronglySorted item_lt.

Lemma btree_insert_In x s y : In y (btree_insert x s) <-> y = x \/ In y s.
Proof.
  induction s as [|z s IH]; simpl; [intuition|].
  destruct (item_compare x z) eqn:E; simpl.
  - apply item_compare_Eq in E; subst. intuition.
  - intuition.
  - rewrite IH; intuition.
Qed.

Lemma btree_insert_sorted x s : sorted_items s -> sorted_items (btree_insert x s).
Proof.
  intro H; induction H as [|z s Hs IH Hz]; simpl.
  - repeat constructor.
  - destruct (item_compare x z) eqn:E.
    + constructor; auto.
    + constructor; [constructor; auto|]. constructor; [exact E|].
      eapply Forall_impl; [|exact Hz]. intros a Ha. eapply item_lt_trans; eauto.
    + constructor; auto. apply item_compare_Gt in E.
      apply Forall_forall. intros y Hy. apply btree_insert_In in Hy. destruct Hy as [->|Hy]; auto.
      rewrite Forall_forall in Hz; auto.
Qed.

Lemma btree_of_list_spec l : sorted_items (btree_of_list l) /\ forall x, In x (btree_of_list l) <-> In x l.
Proof.
  unfold btree_of_list.
  assert (forall s, sorted_items s -> sorted_items (fold_left (fun s x => btree_insert x s) l s) /\
            forall x, In x (fold_left (fun s x => btree_insert x s) l s) <-> In x l \/ In x s) as H.
  { induction l as [|y l IH]; simpl; intros s Hs; [split; auto; intro; tauto|].
    destruct (IH (btree_insert y s) (btree_insert_sorted y s Hs)) as [H1 H2]. split; auto.
    intro x; rewrite H2, btree_insert_In. intuition. }
  destruct (H [] ltac:(constructor)) as [H1 H2]. split; auto. intro x; rewrite H2; simpl; tauto.
Qed.

Lemma sorted_ext a b : sorted_items a -> sorted_items b -> (forall x, In x a <-> In x b) -> a = b.
Proof.
  intro Ha; revert b. induction Ha as [|x a Ha IH Hx]; intros b Hb H.
  - destruct b as [|y b]; auto. exfalso; apply (H y); left; auto.
  - destruct b as [|y b]; [exfalso; apply (H x); left; auto|].
    inversion Hb as [|? ? Hb' Hy]; subst.
    rewrite Forall_forall in Hx, Hy.
    assert (x = y).
    { assert (In x (y :: b)) as H1 by (apply H; left; auto).
      assert (In y (x :: a)) as H2 by (apply H; left; auto).
      destruct H1 as [H1|H1]; auto. destruct H2 as [H2|H2]; auto.
      exfalso; eapply item_lt_irrefl; eapply item_lt_trans; [apply Hx, H2 | apply Hy, H1]. }
    subst y. f_equal. apply IH; auto. intro z; split; intro Hz.
    + assert (In z (x :: b)) as [->|?] by (apply H; right; auto); auto.
      exfalso; eapply item_lt_irrefl; apply Hx, Hz.
    + assert (In z (x :: a)) as [->|?] by (apply H; right; auto); auto.
      exfalso; eapply item_lt_irrefl; apply Hy, Hz.
Qed.

Lemma sorted_NoDup a : sorted_items a -> NoDup a.
Proof.
  induction 1 as [|x a Ha IH Hx]; constructor; auto.
  intro H. rewrite Forall_forall in Hx. eapply item_lt_irrefl; apply Hx, H.
Qed.

Lemma items_eqb_spec a b : items_eqb a b = true <-> a = b.
Proof.
  revert b; induction a as [|x a IH]; intros [|y b]; simpl; try (split; [discriminate|intro H; inversion H]; fail); [tauto|].
  rewrite andb_true_iff, item_eqb_spec, IH. split; [intros [-> ->]; auto | intro H; inversion H; auto].
Qed.
