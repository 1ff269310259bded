(** * Lr0Proofs: src/lr0.rs builds the LR(0) automaton *)
From Verif Require Export Lr0 Lr0Spec Canonical Termination.

Section Valid.
Context {A : Type}.
Variable g : grammar A.

Lemma firstn_next {X} (l : list X) k x : nth_error l k = Some x -> firstn (k + 1) l = firstn k l ++ [x].
Proof. revert k; induction l as [|y l IH]; intros [|k] H; cbn in *; try discriminate; [congruence|]. rewrite (IH _ H). reflexivity. Qed.
Lemma nth_error_lt {X} (l : list X) k x : nth_error l k = Some x -> k < List.length l.
Proof. intro H. apply nth_error_Some. congruence. Qed.

Lemma valid_moves d n p pr k : lr0_valid g d n p 0 -> get_production g n p = Some pr -> k <= List.length (rhs pr) ->
  lr0_valid g (d ++ firstn k (rhs pr)) n p k.
Proof.
  intros Hv Hp. induction k as [|k IH]; intro Hk; [cbn; rewrite app_nil_r; auto|].
  destruct (nth_error (rhs pr) k) as [x|] eqn:E; [|apply nth_error_None in E; lia].
  replace (Datatypes.S k) with (k + 1) by lia. rewrite (firstn_next _ _ _ E), app_assoc. eapply l0_move; eauto. apply IH. lia.
Qed.

(** An item of a valid item's production is in range. *)
Lemma valid_production gamma n p k : lr0_valid g gamma n p k -> exists pr, get_production g n p = Some pr /\ k <= List.length (rhs pr).
Proof.
  induction 1 as [pr H|gamma n p k pr m q pr' Hv IH Hp Hn Hq|gamma n p k pr X Hv IH Hp Hn].
  - exists pr. split; [auto|lia].
  - exists pr'. split; [auto|lia].
  - exists pr. split; auto. apply nth_error_lt in Hn. lia.
Qed.

(** ** Rightmost derivations *)
Lemma hole s : rsentential g s -> forall d n r, s = d ++ NT n :: r ->
  exists m q k pr, lr0_valid g d m q k /\ get_production g m q = Some pr /\ nth_error (rhs pr) k = Some (NT n).
Proof.
  assert (Hin : forall d0 m q pr, lr0_valid g d0 m q 0 -> get_production g m q = Some pr -> forall d n r, rhs pr = d ++ NT n :: r ->
            exists m q k pr, lr0_valid g (d0 ++ d) m q k /\ get_production g m q = Some pr /\ nth_error (rhs pr) k = Some (NT n)).
  { intros d0 m q pr Hv Hp d n r E. exists m, q, (List.length d), pr.
    assert (Hl : List.length d <= List.length (rhs pr)) by (rewrite E, app_length; cbn; lia).
    pose proof (valid_moves _ _ _ _ _ Hv Hp Hl) as H. rewrite E, firstn_app, firstn_all, Nat.sub_diag in H. cbn in H. rewrite app_nil_r in H.
    split; auto. split; auto. rewrite E, nth_error_app2, Nat.sub_diag by lia. reflexivity. }
  induction 1 as [pr Hp|d' n' p pr w Hs IH Hp]; intros d n r E.
  - apply (Hin [] 0 0 pr) with (r := r); auto. eapply l0_start; eauto.
  - apply app_eq_app in E. destruct E as (l & [[E1 E2]|[E1 E2]]).
    + destruct l as [|x l].
      * cbn in E2. rewrite app_nil_r in E1. subst d'. destruct (rhs pr) as [|x l] eqn:Er.
        -- cbn in E2. destruct w; discriminate.
        -- cbn in E2. injection E2 as <- E2. destruct (IH _ _ _ eq_refl) as (m & q & k & pr0 & H1 & H2 & H3).
           rewrite <- (app_nil_r d). apply (Hin d n' p pr) with (r := l); auto. eapply l0_predict; eauto.
      * cbn in E2. injection E2 as <- E2. apply (IH d n (l ++ NT n' :: map T w)). rewrite E1, <- app_assoc. reflexivity.
    + destruct (IH _ _ _ eq_refl) as (m & q & k & pr0 & H1 & H2 & H3).
      apply app_eq_app in E2. destruct E2 as (l' & [[E3 E4]|[E3 E4]]).
      * destruct l' as [|x l']; cbn in E4; [destruct w; discriminate|]. injection E4 as <- E4. subst d.
        apply (Hin d' n' p pr) with (r := l'); auto. eapply l0_predict; eauto.
      * exfalso. assert (In (NT n) (map T w)) as K by (rewrite E4; apply in_app_iff; right; left; auto).
        apply in_map_iff in K. destruct K as (t & K & _). discriminate.
Qed.

Lemma rightmost_is_valid gamma n p k : rightmost_valid g gamma n p k -> lr0_valid g gamma n p k.
Proof.
  intros (d & pr & Hp & Hk & -> & [(-> & -> & ->)|(w & Hs)]); apply valid_moves; auto.
  - eapply l0_start; eauto.
  - destruct (hole _ Hs _ _ _ eq_refl) as (m & q & k' & pr' & H1 & H2 & H3). eapply l0_predict; eauto.
Qed.

(** Trees are derived rightmost. *)
Definition rewrites (l : list symbol) (v : list nat) : Prop :=
  forall d w, rsentential g (d ++ l ++ map T w) -> rsentential g (d ++ map T v ++ map T w).
Lemma tree_rewrites : (forall t X, wf_tree g (Some (A := nat)) t X -> exists v, rewrites [X] v) /\
  (forall ts Xs, wf_forest g (Some (A := nat)) ts Xs -> exists v, rewrites Xs v).
Proof.
  apply wf_tree_forest_ind.
  - intros tok t E. exists [t]. intros d w H. exact H.
  - intros nt p kids pr Hp _ (v & IH). exists v. intros d w H. apply IH. eapply rs_step; [exact H|exact Hp].
  - exists []. intros d w H. exact H.
  - intros t ts X Xs _ (v1 & H1) _ (v2 & H2). exists (v1 ++ v2). intros d w H.
    rewrite map_app, <- app_assoc, <- map_app. apply H1. specialize (H2 (d ++ [X]) w). rewrite map_app. rewrite <- !app_assoc in H2. apply H2. exact H.
Qed.

Hypothesis Htl : tails_productive_g g.
Lemma productive_rewrites l : (forall M, In (NT M) l -> productive g M) -> exists v, rewrites l v.
Proof.
  induction l as [|[n|t] l IH]; intro H.
  - exists []. intros d w K. exact K.
  - destruct (H n (or_introl eq_refl)) as (u & Hu). destruct (derives_forest g _ _ Hu u eq_refl) as (ts & H1 & _).
    destruct (proj2 tree_rewrites _ _ H1) as (v1 & K1). destruct (IH (fun M HM => H M (or_intror HM))) as (v2 & K2).
    exists (v1 ++ v2). intros d w K. rewrite map_app, <- app_assoc, <- map_app. apply K1. specialize (K2 (d ++ [NT n]) w). rewrite map_app. rewrite <- !app_assoc in K2. apply K2. exact K.
  - destruct (IH (fun M HM => H M (or_intror HM))) as (v2 & K2).
    exists (t :: v2). intros d w K. specialize (K2 (d ++ [T t]) w). rewrite <- !app_assoc in K2. apply K2. exact K.
Qed.

Lemma valid_is_rightmost gamma n p k : lr0_valid g gamma n p k -> rightmost_valid g gamma n p k.
Proof.
  induction 1 as [pr H|gamma n p k pr m q pr' Hv IH Hp Hn Hq|gamma n p k pr X Hv IH Hp Hn].
  - exists [], pr. split; [auto|]. split; [lia|]. split; [reflexivity|]. left. auto.
  - destruct IH as (d & pr0 & Hp0 & Hk & -> & Hs). rewrite Hp in Hp0. injection Hp0 as <-.
    exists (d ++ firstn k (rhs pr)), pr'. split; [auto|]. split; [lia|]. cbn. rewrite app_nil_r. split; [reflexivity|]. right.
    pose proof (nth_error_split _ _ Hn) as (l1 & l2 & El & Hl1).
    assert (Ef : firstn k (rhs pr) = l1) by (rewrite El, <- Hl1, firstn_app, firstn_all, Nat.sub_diag; cbn; apply app_nil_r).
    assert (exists w, rsentential g (d ++ rhs pr ++ map T w)) as (w & Hw).
    { destruct Hs as [(-> & -> & ->)|(w & Hs)]; [exists []; cbn; rewrite app_nil_r; apply rs_start; auto|]. exists w. eapply rs_step; eauto. }
    assert (Hl2 : forall M, In (NT M) l2 -> productive g M).
    { intros M HM. destruct (rhs pr) as [|Y l] eqn:Er; [destruct l1; discriminate|]. eapply Htl; [exact Hp|exact Er|].
      destruct l1 as [|Z l1]; cbn in El; injection El as -> ->; auto. apply in_app_iff. right. right. auto. }
    destruct (productive_rewrites l2 Hl2) as (v & Hv2). exists (v ++ w). rewrite Ef.
    specialize (Hv2 (d ++ l1 ++ [NT m]) w). rewrite map_app. rewrite El in Hw. rewrite <- !app_assoc in *. apply Hv2. exact Hw.
  - destruct IH as (d & pr0 & Hp0 & Hk & -> & Hs). rewrite Hp in Hp0. injection Hp0 as <-.
    exists d, pr. split; [auto|]. pose proof (nth_error_lt _ _ _ Hn). split; [lia|]. rewrite (firstn_next _ _ _ Hn), app_assoc. auto.
Qed.
End Valid.

(** ** Closure *)
Section Closure0.
Context {A : Type}.
Variable g : grammar A.
Variable ho : hash_order.
Hypothesis Hho : hash_order_ok ho.

Definition succ0 (it y : item) : Prop :=
  exists n p pr, next_symbol g it = Some (NT n) /\ get_production g n p = Some pr /\ y = lr0_item n p.
Inductive closed0 (K : item -> Prop) : item -> Prop :=
| c0_kernel : forall it, K it -> closed0 K it
| c0_step : forall it y, closed0 K it -> succ0 it y -> closed0 K y.

Definition new_ok (st : list item * bool) : Prop := snd st = true <-> fst st <> [].

Lemma predict_one cl nt ps : forall st, new_ok st ->
  let st' := fold_left (fun '(new, upd) p => let it' := lr0_item nt p in
                   if set_mem item_eqb it' cl then (new, upd)
                   else (set_add item_eqb it' new, upd || negb (set_mem item_eqb it' new))) ps st in
  new_ok st' /\ forall y, In y (fst st') <-> In y (fst st) \/ (exists p, In p ps /\ y = lr0_item nt p) /\ ~ In y cl.
Proof.
  induction ps as [|p ps IH]; intros [new upd] Hok; cbn zeta; cbn [fold_left].
  - split; auto. intro y. split; [auto|]. intros [H|((p & [] & _) & _)]; auto.
  - destruct (set_mem item_eqb (lr0_item nt p) cl) eqn:E.
    + destruct (IH (new, upd) Hok) as (H1 & H2). split; [exact H1|]. intro y. rewrite H2. apply (set_mem_In item_eqb item_eqb_spec) in E. split.
      * intros [H|((q & Hq & ->) & Hn)]; [auto|right; split; [exists q; split; [right; auto|auto]|auto]].
      * intros [H|((q & [<-|Hq] & ->) & Hn)]; [auto|contradiction|right; split; [eauto|auto]].
    + assert (Hok' : new_ok (set_add item_eqb (lr0_item nt p) new, upd || negb (set_mem item_eqb (lr0_item nt p) new))).
      { unfold new_ok in *. cbn [fst snd] in *. unfold set_add. destruct (set_mem item_eqb (lr0_item nt p) new); cbn.
        - rewrite orb_false_r. exact Hok.
        - rewrite orb_true_r. split; [|auto]. intros _ K. apply app_eq_nil in K. destruct K. discriminate. }
      destruct (IH _ Hok') as (H1 & H2). split; [exact H1|]. intro y. rewrite H2. cbn [fst]. rewrite (set_add_In item_eqb item_eqb_spec).
      apply (set_mem_not_In item_eqb item_eqb_spec) in E. split.
      * intros [[->|H]|((q & Hq & ->) & Hn)]; [right; split; [exists p; split; [left; auto|auto]|auto]|auto|right; split; [exists q; split; [right; auto|auto]|auto]].
      * intros [H|((q & [<-|Hq] & ->) & Hn)]; [auto|auto|right; split; [eauto|auto]].
Qed.

Lemma predict_all cl l : forall st, new_ok st ->
  new_ok (fold_left (lr0_predict g cl) l st) /\
  forall y, In y (fst (fold_left (lr0_predict g cl) l st)) <-> In y (fst st) \/ (exists it, In it l /\ succ0 it y) /\ ~ In y cl.
Proof.
  induction l as [|it l IH]; intros st Hok; cbn [fold_left].
  - split; auto. intro y. split; [auto|]. intros [H|((p & [] & _) & _)]; auto.
  - assert (H : new_ok (lr0_predict g cl st it) /\ forall y, In y (fst (lr0_predict g cl st it)) <-> In y (fst st) \/ succ0 it y /\ ~ In y cl).
    { unfold lr0_predict. destruct (next_non_terminal g it) as [nt|] eqn:E.
      - destruct (predict_one cl nt (non_terminal_production_indices g nt) st Hok) as (H1 & H2). split; [exact H1|].
        intro y. rewrite H2. apply next_symbol_nt in E. split; (intros [H|(H & Hn)]; [auto|right; split; auto]).
        + destruct H as (p & Hp & ->). apply production_index_iff in Hp. destruct Hp as (pr & Hp). exists nt, p, pr. auto.
        + destruct H as (n & p & pr & Hn' & Hp & ->). rewrite E in Hn'. injection Hn' as <-. exists p. split; auto. apply production_index_iff. eauto.
      - split; auto. intro y. split; auto. intros [H|((n & p & pr & Hn & _) & _)]; auto. exfalso. apply next_symbol_nt in Hn. congruence. }
    destruct H as (H1 & H2). destruct (IH _ H1) as (H3 & H4). split; auto. intro y. rewrite H4, H2. split.
    + intros [[H|(H & Hn)]|((i & Hi & H) & Hn)]; [auto|right; split; [exists it; split; [left; auto|auto]|auto]|right; split; [exists i; split; [right; auto|auto]|auto]].
    + intros [H|((i & [<-|Hi] & H) & Hn)]; [auto|auto|right; split; [eauto|auto]].
Qed.

Lemma extend_spec l : forall s, sorted_items s -> sorted_items (fold_left (fun s x => btree_insert x s) l s) /\
  forall y, In y (fold_left (fun s x => btree_insert x s) l s) <-> In y l \/ In y s.
Proof.
  induction l as [|z l IH]; simpl; intros s Hs; [split; auto; intro; tauto|].
  destruct (IH (btree_insert z s) (btree_insert_sorted z s Hs)) as [H1 H2]. split; auto.
  intro y; rewrite H2, btree_insert_In. intuition.
Qed.

Definition pass (cl : list item) : list item * bool := fold_left (lr0_predict g cl) cl ([], false).
Lemma pass_spec cl : sorted_items cl -> let cl' := fold_left (fun s x => btree_insert x s) (ho_items ho (fst (pass cl))) cl in
  sorted_items cl' /\ (forall y, In y cl' <-> In y cl \/ exists it, In it cl /\ succ0 it y) /\
  (snd (pass cl) = false -> cl' = cl) /\ (snd (pass cl) = true -> exists y, In y cl' /\ ~ In y cl).
Proof.
  intros Hs cl'. destruct (predict_all cl cl ([], false)) as (H1 & H2); [unfold new_ok; cbn; split; [discriminate|congruence]|].
  fold (pass cl) in H1, H2. destruct (extend_spec (ho_items ho (fst (pass cl))) cl Hs) as (H3 & H4). fold cl' in H3, H4.
  assert (Hp : forall y, In y (ho_items ho (fst (pass cl))) <-> In y (fst (pass cl))).
  { intro y. split; intro H; [apply (Permutation_in _ (hok_items _ Hho _)); auto|apply (Permutation_in _ (Permutation_sym (hok_items _ Hho _))); auto]. }
  split; [auto|]. split; [|split].
  - intro y. rewrite H4, Hp, H2. cbn [fst]. split.
    + intros [[[]|(H & _)]|H]; auto.
    + intros [H|H]; auto. destruct (set_mem item_eqb y cl) eqn:E; [right; apply (set_mem_In item_eqb item_eqb_spec); auto|].
      left. right. split; auto. apply (set_mem_not_In item_eqb item_eqb_spec); auto.
  - intro Hf. apply sorted_ext; auto. intro y. rewrite H4, Hp. split; auto. intros [H|H]; auto. exfalso.
    unfold new_ok in H1. rewrite Hf in H1. destruct (fst (pass cl)); [destruct H|]. assert (false = true) by (apply H1; discriminate). discriminate.
  - intro Ht. apply H1 in Ht. destruct (fst (pass cl)) as [|y l] eqn:E; [congruence|]. exists y.
    assert (Hy : In y (y :: l)) by (left; auto). split; [apply H4; left; apply Hp; auto|]. apply H2 in Hy. destruct Hy as [[]|(_ & Hn)]; auto.
Qed.

Lemma closure0_loop fuel (K : item -> Prop) : forall cl cl', sorted_items cl -> (forall y, K y -> In y cl) -> (forall y, In y cl -> closed0 K y) ->
  lr0_closure_loop ho fuel g cl = Ok cl' -> sorted_items cl' /\ forall y, In y cl' <-> closed0 K y.
Proof.
  induction fuel as [|fuel IH]; cbn [lr0_closure_loop]; intros cl cl' Hs HK HS H; [discriminate|].
  fold (pass cl) in H. destruct (pass cl) as [new upd] eqn:E. pose proof (pass_spec cl Hs) as (P1 & P2 & P3 & P4). rewrite E in *. cbn [fst snd] in *.
  destruct upd.
  - apply (IH _ _ P1) in H; auto.
    + intros y Hy. apply P2. auto.
    + intros y Hy. apply P2 in Hy. destruct Hy as [Hy|(it & Hit & Hy)]; auto. eapply c0_step; eauto.
  - injection H as <-. split; [exact P1|]. intro y. split.
    + intro Hy. apply HS. rewrite <- (P3 eq_refl). exact Hy.
    + induction 1 as [y Hy|it y _ IHy Hsu]; [apply P2; auto|]. apply P2. right. exists it. split; auto. rewrite (P3 eq_refl) in IHy. exact IHy.
Qed.

Lemma compute_closure0_spec fuel items cl : sorted_items items -> compute_lr0_closure ho fuel g items = Ok cl ->
  sorted_items cl /\ forall y, In y cl <-> closed0 (fun x => In x items) y.
Proof. intros Hs H. apply (closure0_loop fuel (fun x => In x items) items cl Hs); auto. intros y Hy. apply c0_kernel. auto. Qed.

Lemma kernel0_spec items X : sorted_items (lr0_kernel g items X) /\
  forall y, In y (lr0_kernel g items X) <-> exists it, In it items /\ next_symbol g it = Some X /\ y = advance it.
Proof.
  unfold lr0_kernel.
  assert (forall acc, sorted_items acc -> let r := fold_left (fun acc it =>
            match next_symbol g it with
            | Some Y => if symbol_eqb Y X then btree_insert (advance it) acc else acc
            | None => acc end) items acc in sorted_items r /\ forall y, In y r <->
          (exists it, In it items /\ next_symbol g it = Some X /\ y = advance it) \/ In y acc) as H.
  { induction items as [|it items IH]; intros acc Hs; cbn zeta; cbn [fold_left].
    - split; auto. intro y. split; [auto|]. intros [(it & [] & _)|H]; auto.
    - destruct (next_symbol g it) as [Y|] eqn:E.
      + destruct (symbol_eqb Y X) eqn:EX.
        * apply symbol_eqb_spec in EX; subst Y. destruct (IH _ (btree_insert_sorted (advance it) acc Hs)) as (H1 & H2). split; [exact H1|].
          intro y. rewrite H2, btree_insert_In. split.
          -- intros [(it' & Hi & H)|[->|H]]; [left; exists it'; split; [right; auto|auto]|left; exists it; split; [left; auto|auto]|auto].
          -- intros [(it' & [<-|Hi] & H & ->)|H]; auto. left; eauto.
        * destruct (IH _ Hs) as (H1 & H2). split; [exact H1|]. intro y. rewrite H2. split.
          -- intros [(it' & Hi & H)|H]; [left; exists it'; split; [right; auto|auto]|auto].
          -- intros [(it' & [<-|Hi] & H & ->)|H]; auto; [|left; eauto].
             exfalso. rewrite E in H. injection H as ->. assert (symbol_eqb X X = true) by (apply symbol_eqb_spec; auto). congruence.
      + destruct (IH _ Hs) as (H1 & H2). split; [exact H1|]. intro y. rewrite H2. split.
        * intros [(it' & Hi & H)|H]; [left; exists it'; split; [right; auto|auto]|auto].
        * intros [(it' & [<-|Hi] & H & ->)|H]; auto; [congruence|left; eauto]. }
  destruct (H [] ltac:(constructor)) as (H1 & H2). split; [exact H1|]. intro y. rewrite H2. cbn. tauto.
Qed.

(** ** What the sets contain *)
Definition items_for (gamma : list symbol) (S : list item) : Prop :=
  sorted_items S /\ forall it, In it S <-> it_la it = None /\ lr0_valid g gamma (it_nt it) (it_prod it) (it_cursor it).

Lemma items_for_unique gamma S S' : items_for gamma S -> items_for gamma S' -> S = S'.
Proof. intros [H1 H2] [H3 H4]. apply sorted_ext; auto. intro y. rewrite H2, H4. tauto. Qed.

Lemma closed_items gamma (K : item -> Prop) S :
  (forall it, K it -> it_la it = None /\ lr0_valid g gamma (it_nt it) (it_prod it) (it_cursor it)) ->
  (forall pr, gamma = [] -> get_production g 0 0 = Some pr -> K (lr0_item 0 0)) ->
  (forall gamma' X n p k pr, gamma = gamma' ++ [X] -> lr0_valid g gamma' n p k -> get_production g n p = Some pr -> nth_error (rhs pr) k = Some X ->
     K {| it_nt := n; it_prod := p; it_cursor := k + 1; it_la := None |}) ->
  sorted_items S -> (forall y, In y S <-> closed0 K y) -> items_for gamma S.
Proof.
  intros H1 H2 H3 Hs HS. split; auto. intro it. rewrite HS. split.
  - induction 1 as [it Hi|it y _ (IH1 & IH2) (n & p & pr & Hn & Hp & ->)]; [auto|]. cbn. split; auto.
    unfold next_symbol, item_rhs in Hn. destruct (get_production g (it_nt it) (it_prod it)) as [pr0|] eqn:E; [|destruct (it_cursor it); discriminate].
    eapply l0_predict; eauto.
  - destruct it as [n p k la]. cbn. intros (-> & Hv).
    assert (forall gm n p k, lr0_valid g gm n p k -> gm = gamma -> closed0 K {| it_nt := n; it_prod := p; it_cursor := k; it_la := None |}) as H; [|eauto].
    clear n p k Hv. intros gm n p k Hv. induction Hv as [pr H|gm n p k pr m q pr' Hv IH Hp Hn Hq|gm n p k pr X Hv IH Hp Hn]; intro E.
    + apply c0_kernel. apply (H2 pr); auto.
    + eapply c0_step; [exact (IH E)|]. exists m, q, pr'. split; [|split; auto]. unfold next_symbol, item_rhs. cbn. rewrite Hp. exact Hn.
    + apply c0_kernel. eapply H3; eauto.
Qed.

Lemma start_items fuel S pr : get_production g 0 0 = Some pr -> compute_lr0_closure ho fuel g [lr0_item 0 0] = Ok S -> items_for [] S.
Proof.
  intros Hp H. apply compute_closure0_spec in H; [|repeat constructor]. destruct H as (H1 & H2).
  apply (closed_items [] (fun x => In x [lr0_item 0 0])); auto.
  - intros it [<-|[]]. cbn. split; auto. eapply l0_start; eauto.
  - intros _ _ _. left; auto.
  - intros gm X n p k pr' E. apply app_cons_not_nil in E. destruct E.
Qed.

Lemma goto_items fuel S X S' gamma : compute_lr0_goto ho fuel g S X = Ok S' -> items_for gamma S -> items_for (gamma ++ [X]) S'.
Proof.
  intros H (Hs & HS). unfold compute_lr0_goto in H. destruct (kernel0_spec S X) as (K1 & K2). apply compute_closure0_spec in H; auto. destruct H as (H1 & H2).
  apply (closed_items (gamma ++ [X]) (fun x => In x (lr0_kernel g S X))); auto.
  - intros it Hi. apply K2 in Hi. destruct Hi as (it0 & Hi & Hn & ->). apply HS in Hi. destruct Hi as (Hla & Hv). cbn. split; auto.
    unfold next_symbol, item_rhs in Hn. destruct (get_production g (it_nt it0) (it_prod it0)) as [pr0|] eqn:E; [|destruct (it_cursor it0); discriminate].
    replace (Datatypes.S (it_cursor it0)) with (it_cursor it0 + 1) by lia. eapply l0_move; eauto.
  - intros pr E. symmetry in E. apply app_cons_not_nil in E. destruct E.
  - intros gm Y n p k pr E Hv Hp Hn. apply app_inj_tail in E. destruct E as (<- & <-). apply K2.
    exists {| it_nt := n; it_prod := p; it_cursor := k; it_la := None |}. split; [apply HS; cbn; auto|]. split.
    + unfold next_symbol, item_rhs. cbn. rewrite Hp. exact Hn.
    + unfold advance. cbn. f_equal. lia.
Qed.
Lemma goto_nonempty fuel S X S' it : compute_lr0_goto ho fuel g S X = Ok S' -> In it S -> next_symbol g it = Some X -> S' <> [].
Proof.
  intros H Hi Hn E. subst S'. unfold compute_lr0_goto in H. destruct (kernel0_spec S X) as (K1 & K2). apply compute_closure0_spec in H; auto. destruct H as (_ & H2).
  apply (in_nil (a := advance it)). apply H2. apply c0_kernel. apply K2. eauto.
Qed.

(** ** Termination of the closure *)
Hypothesis Hwf : wf_grammar g.
Lemma closure0_stops fuel : forall cl, sorted_items cl -> (forall y, In y cl -> item_ok g y) ->
  List.length (all_items g) < fuel + List.length cl -> exists cl', lr0_closure_loop ho fuel g cl = Ok cl'.
Proof.
  induction fuel as [|fuel IH]; intros cl Hs Hok Hl.
  - exfalso. assert (List.length cl <= List.length (all_items g)); [|cbn in Hl; lia].
    apply NoDup_incl_length; [apply sorted_NoDup; auto|]. intros y Hy. apply item_ok_in. auto.
  - cbn [lr0_closure_loop]. fold (pass cl). destruct (pass cl) as [new upd] eqn:E. pose proof (pass_spec cl Hs) as (P1 & P2 & P3 & P4). rewrite E in *. cbn [fst snd] in *.
    destruct upd; [|eauto]. apply IH; auto.
    + intros y Hy. apply P2 in Hy. destruct Hy as [Hy|(it & Hit & n & p & pr & Hn & Hp & ->)]; auto.
      exists pr. cbn. split; [auto|]. split; [lia|exact Logic.I].
    + destruct (P4 eq_refl) as (y & Hy & Hny).
      assert (List.length (y :: cl) <= List.length (fold_left (fun s x => btree_insert x s) (ho_items ho new) cl)); [|cbn in *; lia].
      apply NoDup_incl_length; [constructor; auto; apply sorted_NoDup; auto|]. intros z [<-|Hz]; auto. apply P2. auto.
Qed.
End Closure0.

(** ** The automaton *)
Section Automaton0.
Context {A : Type}.
Variable g : grammar A.
Variable ho : hash_order.
Variable hs : list symbol -> list symbol.
Hypothesis Hho : hash_order_ok ho.
Hypothesis Hhs : forall l, Permutation (hs l) l.
Notation items_for := (items_for g).

Definition has_goto (s : lr1_state) (X : symbol) : Prop := exists j, map_get symbol_eqb X (st_goto s) = Some j.
(** [rest]: the symbols still to be followed from state [cur] *)
Record inv0 (a : lr0_automaton) (wl : list nat) (cur : option (nat * list symbol)) : Prop := {
  i0_idx : idx_ok (la_states a) (la_indices a);
  i0_start : exists s, nth_error (la_states a) 0 = Some s /\ items_for [] (st_items s);
  i0_reach : forall i s, nth_error (la_states a) i = Some s -> st_items s <> [] /\ exists gamma, items_for gamma (st_items s);
  i0_goto : forall i s X j, nth_error (la_states a) i = Some s -> map_get symbol_eqb X (st_goto s) = Some j ->
    exists s', nth_error (la_states a) j = Some s' /\ forall gamma, items_for gamma (st_items s) -> items_for (gamma ++ [X]) (st_items s');
  i0_nodup : forall i s, nth_error (la_states a) i = Some s -> NoDup (map fst (st_goto s));
  i0_done : forall i s it X, nth_error (la_states a) i = Some s -> In it (st_items s) -> next_symbol g it = Some X ->
    In i wl \/ (exists rest, cur = Some (i, rest) /\ In X rest) \/ has_goto s X;
  i0_wl : forall i, In i wl -> i < List.length (la_states a)
}.

Lemma next_symbols_spec items X : In X (lr0_next_symbols g items) <-> exists it, In it items /\ next_symbol g it = Some X.
Proof.
  unfold lr0_next_symbols.
  assert (forall acc, In X (fold_left (fun acc it => match next_symbol g it with Some X => set_add symbol_eqb X acc | None => acc end) items acc) <->
            (exists it, In it items /\ next_symbol g it = Some X) \/ In X acc) as H.
  { induction items as [|it items IH]; intro acc; cbn [fold_left].
    - split; [auto|]. intros [(it & [] & _)|H]; auto.
    - rewrite IH. destruct (next_symbol g it) as [Y|] eqn:E.
      + rewrite (set_add_In symbol_eqb symbol_eqb_spec). split.
        * intros [(it' & Hi & H)|[->|H]]; [left; exists it'; split; [right; auto|auto]|left; exists it; split; [left; auto|auto]|auto].
        * intros [(it' & [<-|Hi] & H)|H]; auto; [|left; eauto]. right. left. congruence.
      + split.
        * intros [(it' & Hi & H)|H]; [left; exists it'; split; [right; auto|auto]|auto].
        * intros [(it' & [<-|Hi] & H)|H]; auto; [congruence|left; eauto]. }
  rewrite H. cbn. tauto.
Qed.

Definition grown (a a' : lr0_automaton) : Prop :=
  forall i s, nth_error (la_states a) i = Some s -> exists s', nth_error (la_states a') i = Some s' /\ st_items s' = st_items s.

Lemma symbol_step fuel i s X rest a wl a' wl' :
  nth_error (la_states a) i = Some s -> In X (lr0_next_symbols g (st_items s)) ->
  inv0 a wl (Some (i, X :: rest)) -> lr0_symbol ho fuel g i (st_items s) (a, wl) X = Ok (a', wl') ->
  inv0 a' wl' (Some (i, rest)) /\ (exists s', nth_error (la_states a') i = Some s' /\ st_items s' = st_items s) /\
  List.length (la_states a') + List.length wl = List.length (la_states a) + List.length wl' /\
  (forall j s0, nth_error (la_states a') j = Some s0 -> (exists s1, nth_error (la_states a) j = Some s1 /\ st_items s0 = st_items s1) \/
     compute_lr0_goto ho fuel g (st_items s) X = Ok (st_items s0)).
Proof.
  intros Hi HX [I1 I2 I3 I4 I5 I6 I7] H. unfold lr0_symbol in H. apply bind_Ok in H. destruct H as (gt & Hgt & H).
  apply next_symbols_spec in HX. destruct HX as (itX & HitX & HnX). pose proof (goto_nonempty g ho Hho _ _ _ _ _ Hgt HitX HnX) as Hne.
  destruct (add_state_or_get_idx a gt) as [[a1 to] added] eqn:Ea. injection H as <- <-.
  (* the state set with the goto set in it *)
  assert (Hadd : idx_ok (la_states a1) (la_indices a1) /\ (exists st, nth_error (la_states a1) to = Some st /\ st_items st = gt) /\
            (forall j s0, nth_error (la_states a1) j = Some s0 -> nth_error (la_states a) j = Some s0 \/ (added = true /\ j = to /\ s0 = {| st_items := gt; st_goto := [] |})) /\
            (forall j s0, nth_error (la_states a) j = Some s0 -> nth_error (la_states a1) j = Some s0) /\
            List.length (la_states a1) = List.length (la_states a) + (if added then 1 else 0)).
  { unfold add_state_or_get_idx in Ea. destruct (map_get items_eqb gt (la_indices a)) as [j|] eqn:Ej.
    - injection Ea as <- <- <-. apply (ix_inv _ _ I1) in Ej. split; [exact I1|]. split; [exact Ej|]. split; [auto|]. split; [auto|lia].
    - injection Ea as <- <- <-. cbn [la_states la_indices]. split; [apply idx_ok_app; auto|]. split.
      { exists {| st_items := gt; st_goto := [] |}. rewrite nth_error_app2, Nat.sub_diag by lia. auto. }
      split; [|split; [|rewrite app_length; cbn; lia]].
      + intros j s0 Hj. destruct (Nat.lt_ge_cases j (List.length (la_states a))) as [Hlt|Hge].
        * rewrite nth_error_app1 in Hj; auto.
        * rewrite nth_error_app2 in Hj by auto. destruct (j - List.length (la_states a)) as [|k] eqn:E; cbn in Hj; [|destruct k; discriminate].
          injection Hj as <-. right. split; auto. split; auto. lia.
      + intros j s0 Hj. rewrite nth_error_app1; auto. eapply nth_error_lt; eauto. }
  destruct Hadd as (A1 & (st & A2 & A3) & A4 & A5 & A6).
  set (f := fun s0 => {| st_items := st_items s0; st_goto := map_insert symbol_eqb X to (st_goto s0) |}).
  assert (Hget : forall j s0, nth_error (la_states (lr0_add_goto a1 i to X)) j = Some s0 ->
            exists s1, nth_error (la_states a1) j = Some s1 /\ s0 = (if Nat.eqb i j then f s1 else s1)).
  { intros j s0 Hj. unfold lr0_add_goto in Hj. cbn [la_states] in Hj. rewrite nth_error_update_nth in Hj. destruct (Nat.eqb i j); [|eauto].
    destruct (nth_error (la_states a1) j) as [s1|]; cbn in Hj; [|discriminate]. injection Hj as <-. eauto. }
  assert (Hset : forall j s1, nth_error (la_states a1) j = Some s1 -> nth_error (la_states (lr0_add_goto a1 i to X)) j = Some (if Nat.eqb i j then f s1 else s1)).
  { intros j s1 Hj. unfold lr0_add_goto. cbn [la_states]. rewrite nth_error_update_nth, Hj. destruct (Nat.eqb i j); reflexivity. }
  assert (Hit : forall j s1, st_items (if Nat.eqb i j then f s1 else s1) = st_items s1) by (intros j s1; destruct (Nat.eqb i j); reflexivity).
  assert (Hgoto : forall gamma, items_for gamma (st_items s) -> items_for (gamma ++ [X]) gt).
  { intros gamma Hg. eapply goto_items; eauto. }
  split; [constructor|split; [|split]].
  - (* idx *) constructor.
    + intros j s0 Hj. destruct (Hget _ _ Hj) as (s1 & H1 & ->). rewrite Hit. apply (ix_get _ _ A1); auto.
    + intros S j Hj. destruct (ix_inv _ _ A1 _ _ Hj) as (s1 & H1 & <-). eexists. split; [apply Hset; eauto|]. apply Hit.
  - destruct I2 as (s0 & H0 & Hs0). exists (if Nat.eqb i 0 then f s0 else s0). split; [apply Hset, A5; auto|]. rewrite Hit. exact Hs0.
  - intros j s0 Hj. destruct (Hget _ _ Hj) as (s1 & H1 & ->). rewrite Hit. destruct (A4 _ _ H1) as [H2|(_ & _ & ->)]; [eapply I3; eauto|].
    cbn [st_items]. split; auto. destruct (I3 _ _ Hi) as (_ & gamma & Hg). exists (gamma ++ [X]). auto.
  - intros j s0 Y k Hj Hk. destruct (Hget _ _ Hj) as (s1 & H1 & ->). rewrite Hit.
    assert (Hold : map_get symbol_eqb Y (st_goto s1) = Some k -> exists s', nth_error (la_states (lr0_add_goto a1 i to X)) k = Some s' /\ forall gamma, items_for gamma (st_items s1) -> items_for (gamma ++ [Y]) (st_items s')).
    { intro Hk'. destruct (A4 _ _ H1) as [H2|(_ & _ & ->)]; [|discriminate]. destruct (I4 _ _ _ _ H2 Hk') as (s' & H3 & H4).
      eexists. split; [apply Hset, A5; eauto|]. rewrite Hit. exact H4. }
    destruct (Nat.eqb_spec i j) as [<-|Hne']; auto. cbn [f st_goto] in Hk.
    destruct (symbol_eq_dec Y X) as [->|HXY].
    + rewrite (map_get_insert_same symbol_eqb symbol_eqb_spec) in Hk. injection Hk as <-. eexists. split; [apply Hset; eauto|]. rewrite Hit, A3.
      rewrite (A5 _ _ Hi) in H1. injection H1 as <-. exact Hgoto.
    + rewrite (map_get_insert_other symbol_eqb symbol_eqb_spec) in Hk; auto.
  - intros j s0 Hj. destruct (Hget _ _ Hj) as (s1 & H1 & ->).
    assert (NoDup (map fst (st_goto s1))) as Hnd by (destruct (A4 _ _ H1) as [H2|(_ & _ & ->)]; [eapply I5; eauto|constructor]).
    destruct (Nat.eqb i j); auto. apply map_insert_NoDup; auto. apply symbol_eqb_spec.
  - intros j s0 it Y Hj Hin Hn. destruct (Hget _ _ Hj) as (s1 & H1 & ->). rewrite Hit in Hin.
    destruct (A4 _ _ H1) as [H2|(-> & -> & ->)]; [|left; left; reflexivity].
    destruct (I6 _ _ _ _ H2 Hin Hn) as [K|[(r & K & HY)|(k & K)]].
    + left. destruct added; [right|]; auto.
    + injection K as -> <-. rewrite Nat.eqb_refl. destruct HY as [<-|HY]; [|eauto 6].
      right. right. exists to. apply (map_get_insert_same symbol_eqb symbol_eqb_spec).
    + right. right. destruct (Nat.eqb i j); [|exists k; auto]. destruct (symbol_eq_dec Y X) as [->|HXY].
      * exists to. apply (map_get_insert_same symbol_eqb symbol_eqb_spec).
      * exists k. cbn [f st_goto]. rewrite (map_get_insert_other symbol_eqb symbol_eqb_spec); auto.
  - intros j Hj. unfold lr0_add_goto. cbn [la_states]. rewrite update_nth_length, A6. destruct added; [destruct Hj as [<-|Hj]|].
    + rewrite <- A6. eapply nth_error_lt; eauto.
    + apply I7 in Hj. lia.
    + apply I7 in Hj. lia.
  - eexists. split; [apply Hset, A5; eauto|]. apply Hit.
  - unfold lr0_add_goto. cbn [la_states]. rewrite update_nth_length, A6. destruct added; cbn [List.length]; lia.
  - intros j s0 Hj. destruct (Hget _ _ Hj) as (s1 & H1 & ->). rewrite Hit. destruct (A4 _ _ H1) as [H2|(_ & _ & ->)]; [eauto|]. right. exact Hgt.
Qed.

(** Where the item sets of new states come from. *)
Definition items_in (P : list item -> Prop) (a : lr0_automaton) : Prop := forall j s, nth_error (la_states a) j = Some s -> P (st_items s).

Lemma symbols_step fuel i (P : list item -> Prop) items (HP : forall X S, compute_lr0_goto ho fuel g items X = Ok S -> P S) l :
  forall a wl s a' wl', nth_error (la_states a) i = Some s -> st_items s = items ->
  (forall X, In X l -> In X (lr0_next_symbols g items)) -> items_in P a ->
  inv0 a wl (Some (i, l)) -> foldM (lr0_symbol ho fuel g i items) l (a, wl) = Ok (a', wl') ->
  inv0 a' wl' (Some (i, [])) /\ List.length (la_states a') + List.length wl = List.length (la_states a) + List.length wl' /\ items_in P a'.
Proof.
  induction l as [|X l IH]; intros a wl s a' wl' Hi Hs Hl HPa HI H.
  - cbn in H. injection H as <- <-. auto.
  - cbn [foldM] in H. apply bind_Ok in H. destruct H as ([a1 wl1] & H1 & H2). subst items.
    destruct (symbol_step _ _ _ _ _ _ _ _ _ Hi (Hl X (or_introl eq_refl)) HI H1) as (J1 & (s' & J2 & J3) & J4 & J5).
    assert (HP1 : items_in P a1).
    { intros j s0 Hj. destruct (J5 _ _ Hj) as [(s1 & K1 & K2)|K]; [rewrite K2; eapply HPa; eauto|eapply HP; eauto]. }
    destruct (IH _ _ _ _ _ J2 J3 (fun Y HY => Hl Y (or_intror HY)) HP1 J1 H2) as (K1 & K2 & K3). split; [auto|]. split; [lia|auto].
Qed.

Lemma loop_step i wl a s fuel a' wl' (P : list item -> Prop) : (forall X S, compute_lr0_goto ho fuel g (st_items s) X = Ok S -> P S) -> items_in P a ->
  inv0 a (i :: wl) None -> nth_error (la_states a) i = Some s ->
  foldM (lr0_symbol ho fuel g i (st_items s)) (hs (lr0_next_symbols g (st_items s))) (a, wl) = Ok (a', wl') ->
  inv0 a' wl' None /\ List.length (la_states a') + List.length wl = List.length (la_states a) + List.length wl' /\ items_in P a'.
Proof.
  intros HP HPa [I1 I2 I3 I4 I5 I6 I7] Hi H.
  assert (HI : inv0 a wl (Some (i, hs (lr0_next_symbols g (st_items s))))).
  { constructor; auto.
    - intros j s0 it X Hj Hin Hn. destruct (I6 _ _ _ _ Hj Hin Hn) as [[<-|K]|[(r & K & _)|K]]; auto; [|discriminate].
      right. left. eexists. split; [reflexivity|]. apply (Permutation_in _ (Permutation_sym (Hhs _))). apply next_symbols_spec.
      rewrite Hi in Hj. injection Hj as <-. eauto.
    - intros j Hj. apply I7. right. auto. }
  destruct (symbols_step fuel i P (st_items s) HP _ _ _ _ _ _ Hi eq_refl (fun X HX => Permutation_in _ (Hhs _) HX) HPa HI H) as ([J1 J2 J3 J4 J5 J6 J7] & K & L).
  split; [|auto]. constructor; auto. intros j s0 it X Hj Hin Hn. destruct (J6 _ _ _ _ Hj Hin Hn) as [Q|[(r & Q & HX)|Q]]; auto.
  injection Q as _ <-. destruct HX.
Qed.

Lemma loop_ok n fuel : forall a wl a', inv0 a wl None -> lr0_loop ho hs n fuel g a wl = Ok a' -> inv0 a' [] None.
Proof.
  induction n as [|n IH]; intros a [|i wl] a' HI H; cbn in H; try discriminate; try (injection H as <-; exact HI).
  destruct (nth_error (la_states a) i) as [s|] eqn:Ei; [|discriminate]. apply bind_Ok in H. destruct H as ([a1 wl1] & H1 & H2).
  apply (loop_step i wl a s fuel a1 wl1 (fun _ => True)) in H1; auto; [|intros j s0 _; exact Logic.I]. destruct H1 as (H1 & _). eauto.
Qed.

Lemma automaton0_ok fuel states : compute_lr0_automaton ho hs fuel g = Ok states -> exists ix, inv0 {| la_states := states; la_indices := ix |} [] None.
Proof.
  unfold compute_lr0_automaton. destruct (get_production g 0 0) as [pr|] eqn:Ep; [|discriminate]. intro H.
  apply bind_Ok in H. destruct H as (init & Hi & H). cbn [add_state_or_get_idx map_get la_indices la_states app List.length] in H.
  apply bind_Ok in H. destruct H as (a' & Hl & H). injection H as <-. pose proof (start_items g ho Hho _ _ _ Ep Hi) as Hst.
  apply loop_ok in Hl; [exists (la_indices a'); destruct a'; exact Hl|].
  assert (Hone : forall i s, nth_error [{| st_items := init; st_goto := [] |}] i = Some s -> i = 0 /\ s = {| st_items := init; st_goto := [] |}).
  { intros [|[|i]] s Hs; cbn in Hs; try discriminate. injection Hs as <-. auto. }
  constructor; cbn [la_states la_indices].
  - apply (idx_ok_app [] [] init); [|reflexivity]. constructor; [intros [|i] s Hs; discriminate|intros S j Hj; discriminate].
  - eexists. split; [reflexivity|exact Hst].
  - intros i s Hs. apply Hone in Hs. destruct Hs as (_ & ->). cbn. split; [|eauto]. intro E. subst init. apply (in_nil (a := lr0_item 0 0)). apply Hst. cbn. split; auto. eapply l0_start; eauto.
  - intros i s X j Hs Hj. apply Hone in Hs. destruct Hs as (_ & ->). discriminate.
  - intros i s Hs. apply Hone in Hs. destruct Hs as (_ & ->). constructor.
  - intros i s it X Hs _ _. apply Hone in Hs. destruct Hs as (-> & _). left. left. auto.
  - intros i [<-|[]]. cbn. lia.
Qed.

(** ** Termination *)
Hypothesis Hwf : wf_grammar g.
Lemma goto_stops fuel S X : (forall it, In it S -> item_ok g it) -> List.length (all_items g) < fuel ->
  exists S', compute_lr0_goto ho fuel g S X = Ok S'.
Proof.
  intros Hok Hf. destruct (kernel0_spec g S X) as (K1 & K2). apply (closure0_stops g ho Hho); auto; [|lia].
  intros y Hy. apply K2 in Hy. destruct Hy as (it & Hi & Hn & ->). eapply advance_ok; eauto.
Qed.
Lemma goto_ok_items fuel S X S' : (forall it, In it S -> item_ok g it) -> compute_lr0_goto ho fuel g S X = Ok S' -> forall it, In it S' -> item_ok g it.
Proof.
  intros Hok H. destruct (kernel0_spec g S X) as (K1 & K2). unfold compute_lr0_goto in H. apply (compute_closure0_spec g ho Hho) in H; auto. destruct H as (_ & H).
  intros it Hi. apply H in Hi. induction Hi as [it Hi|it y _ IH (n & p & pr & Hn & Hp & ->)].
  - apply K2 in Hi. destruct Hi as (it0 & Hi & Hn & ->). eapply advance_ok; eauto.
  - exists pr. cbn. split; [auto|]. split; [lia|exact Logic.I].
Qed.
Lemma symbols_stop fuel i items l : (forall it, In it items -> item_ok g it) -> List.length (all_items g) < fuel ->
  forall st, exists st', foldM (lr0_symbol ho fuel g i items) l st = Ok st'.
Proof.
  intros Hok Hf. induction l as [|X l IH]; intros [a wl]; cbn [foldM]; [eauto|]. unfold lr0_symbol at 1.
  destruct (goto_stops fuel items X Hok Hf) as (S' & ->). cbn [bind]. destruct (add_state_or_get_idx a S') as [[a1 to] added]. cbn [bind]. apply IH.
Qed.

Lemma inv0_sorted a wl cur i s : inv0 a wl cur -> nth_error (la_states a) i = Some s -> sorted_items (st_items s).
Proof. intros HI Hi. destruct (i0_reach _ _ _ HI _ _ Hi) as (_ & gamma & H & _). exact H. Qed.

Lemma loop_stops fuel n : List.length (all_items g) < fuel -> forall a wl, inv0 a wl None -> items_in (fun S => forall it, In it S -> item_ok g it) a ->
  2 ^ List.length (all_items g) + List.length wl <= n + List.length (la_states a) -> exists a', lr0_loop ho hs n fuel g a wl = Ok a'.
Proof.
  intro Hf. induction n as [|n IH]; intros a [|i wl] HI HP Hl; cbn [lr0_loop]; [eauto| |eauto|].
  - exfalso. pose proof (states_bound g _ _ (i0_idx _ _ _ HI) (fun i s Hs => inv0_sorted _ _ _ i s HI Hs) HP) as Hb. cbn [List.length] in Hl. lia.
  - destruct (nth_error (la_states a) i) as [s|] eqn:Ei.
    2:{ exfalso. apply nth_error_None in Ei. pose proof (i0_wl _ _ _ HI i (or_introl eq_refl)). lia. }
    destruct (symbols_stop fuel i (st_items s) (hs (lr0_next_symbols g (st_items s))) (HP _ _ Ei) Hf (a, wl)) as ([a1 wl1] & E). rewrite E. cbn [bind].
    destruct (loop_step i wl a s fuel a1 wl1 (fun S => forall it, In it S -> item_ok g it) (fun X S HS => goto_ok_items fuel _ X S (HP _ _ Ei) HS) HP HI Ei E) as (H1 & H2 & H3).
    apply IH; auto. cbn [List.length] in Hl. lia.
Qed.

Lemma automaton0_stops fuel pr : get_production g 0 0 = Some pr -> 2 ^ List.length (all_items g) < fuel ->
  exists states, compute_lr0_automaton ho hs fuel g = Ok states.
Proof.
  intros Ep Hf. unfold compute_lr0_automaton. rewrite Ep.
  assert (Hf' : List.length (all_items g) < fuel) by (pose proof (Nat.pow_gt_lin_r 2 (List.length (all_items g)) ltac:(lia)); lia).
  assert (Hok0 : forall it, In it [lr0_item 0 0] -> item_ok g it) by (intros it [<-|[]]; exists pr; cbn; split; [auto|]; split; [lia|exact Logic.I]).
  destruct (closure0_stops g ho Hho fuel [lr0_item 0 0]) as (init & Ei); [repeat constructor|exact Hok0|cbn; lia|].
  unfold compute_lr0_closure at 1. rewrite Ei. cbn [bind add_state_or_get_idx map_get la_indices la_states app List.length].
  pose proof (start_items g ho Hho _ _ _ Ep Ei) as Hst.
  assert (Hone : forall i s, nth_error [{| st_items := init; st_goto := [] |}] i = Some s -> i = 0 /\ s = {| st_items := init; st_goto := [] |}).
  { intros [|[|i]] s Hs; cbn in Hs; try discriminate. injection Hs as <-. auto. }
  destruct (loop_stops fuel fuel Hf' {| la_states := [{| st_items := init; st_goto := [] |}]; la_indices := map_insert items_eqb init 0 [] |} [0]) as (a' & E).
  - constructor; cbn [la_states la_indices].
    + apply (idx_ok_app [] [] init); [|reflexivity]. constructor; [intros [|i] s Hs; discriminate|intros S j Hj; discriminate].
    + eexists. split; [reflexivity|exact Hst].
    + intros i s Hs. apply Hone in Hs. destruct Hs as (_ & ->). cbn. split; [|eauto]. intro E. subst init. apply (in_nil (a := lr0_item 0 0)). apply Hst. cbn. split; auto. eapply l0_start; eauto.
    + intros i s X j Hs Hj. apply Hone in Hs. destruct Hs as (_ & ->). discriminate.
    + intros i s Hs. apply Hone in Hs. destruct Hs as (_ & ->). constructor.
    + intros i s it X Hs _ _. apply Hone in Hs. destruct Hs as (-> & _). left. left. auto.
    + intros i [<-|[]]. cbn. lia.
  - intros i s Hs. cbn [la_states] in Hs. apply Hone in Hs. destruct Hs as (_ & ->). cbn [st_items].
    apply (compute_closure0_spec g ho Hho) in Ei; [|repeat constructor]. intros it Hi. apply Ei in Hi. induction Hi as [it Hi|it y _ IH (n & p & pr' & Hn & Hp & ->)]; auto.
    exists pr'. cbn. split; [auto|]. split; [lia|exact Logic.I].
  - cbn [la_states List.length]. lia.
  - cbn [List.length] in E. rewrite E. cbn [bind]. eauto.
Qed.
End Automaton0.
