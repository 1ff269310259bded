(** * ClosureProofs: item-set closure and goto (src/lr1.rs:76-186) *)
From Verif Require Export Lr1 FirstProofs.

Section LaSpec.
Variable tbl : first_table.

(** [first_la syms la x]: with the FIRST table [tbl], [x] can follow a dot placed before [syms] when
    the item's lookahead is [la]. *)
Inductive first_la : list symbol -> option nat -> option nat -> Prop :=
| fl_nil : forall la, first_la [] la la
| fl_T : forall t r la, first_la (T t :: r) la (Some t)
| fl_NT : forall n r la t, In t (terms tbl n) -> first_la (NT n :: r) la (Some t)
| fl_skip : forall n r la x, flag tbl n = true -> first_la r la x -> first_la (NT n :: r) la x.
End LaSpec.

Lemma cf_loop_spec ho tbl (Hho : forall l, Permutation (ho_terms ho l) l) syms :
  forall acc ts e, cf_loop ho tbl syms acc = (ts, e) ->
  forall la x, (match x with
                | Some t => In t ts \/ e = true /\ x = la
                | None => e = true /\ la = None
                end) <-> first_la tbl syms la x \/ (exists t, x = Some t /\ In t acc).
Proof.
  induction syms as [|X syms IH]; simpl; intros acc ts e H la x.
  - inversion H; subst. destruct x as [t|]; split; intro H0.
    + destruct H0 as [H0|[_ ->]]; eauto. left; constructor.
    + destruct H0 as [H0|(t' & H1 & H2)]; [|inversion H1; subst; auto]. inversion H0; auto.
    + destruct H0 as [_ ->]. left; constructor.
    + destruct H0 as [H0|(t' & H1 & _)]; [|discriminate]. inversion H0; auto.
  - destruct X as [n|t0].
    + set (acc' := fold_left _ _ _) in H.
      assert (Hacc : forall t, In t acc' <-> In t (terms tbl n) \/ In t acc).
      { intro t. unfold acc'. rewrite (fold_set_add_In Nat.eqb Nat.eqb_eq). split; intros [Ht|Ht]; auto; left.
        - eapply Permutation_in; [apply Hho|exact Ht].
        - eapply Permutation_in; [apply Permutation_sym, Hho|exact Ht]. }
      destruct (fs_empty (get_first tbl n)) eqn:Ef.
      * rewrite (IH _ _ _ H la x). split; intros [H0|(t & H1 & H2)].
        -- left. apply fl_skip; auto.
        -- apply Hacc in H2. destruct H2 as [H2|H2]; [left; subst; constructor; auto | eauto].
        -- inversion H0; subst; auto. right; eexists; split; eauto. apply Hacc; auto.
        -- right. exists t; split; auto. apply Hacc; auto.
      * inversion H; subst. destruct x as [t|]; split; intro H0.
        -- destruct H0 as [H0|[H0 _]]; [|discriminate]. apply Hacc in H0.
           destruct H0 as [H0|H0]; [left; constructor; auto | eauto].
        -- left. apply Hacc. destruct H0 as [H0|(t' & H1 & H2)]; [|inversion H1; subst; auto].
           inversion H0; subst; auto. unfold flag in *. congruence.
        -- destruct H0; discriminate.
        -- destruct H0 as [H0|(t' & H1 & _)]; [|discriminate]. inversion H0; subst.
           unfold flag in *. congruence.
    + inversion H; subst. destruct x as [t|]; split; intro H0.
      * destruct H0 as [H0|[H0 _]]; [|discriminate]. apply (set_add_In Nat.eqb Nat.eqb_eq) in H0.
        destruct H0 as [->|H0]; [left; constructor | eauto].
      * left. apply (set_add_In Nat.eqb Nat.eqb_eq).
        destruct H0 as [H0|(t' & H1 & H2)]; [inversion H0; auto | inversion H1; subst; auto].
      * destruct H0; discriminate.
      * destruct H0 as [H0|(t' & H1 & _)]; [inversion H0|discriminate].
Qed.

Lemma closure_first_spec ho tbl (Hho : forall l, Permutation (ho_terms ho l) l) syms la :
  (forall t, In t (fs_terminals (closure_first ho tbl syms la)) <-> first_la tbl syms la (Some t)) /\
  (fs_empty (closure_first ho tbl syms la) = true <-> first_la tbl syms la None).
Proof.
  unfold closure_first. destruct (cf_loop ho tbl syms []) as [ts e] eqn:E.
  pose proof (cf_loop_spec ho tbl Hho syms [] ts e E la) as H.
  assert (Hs : forall t, first_la tbl syms la (Some t) <-> In t ts \/ e = true /\ Some t = la).
  { intro t. rewrite (H (Some t)). split; [auto|]. intros [H1|(t' & _ & [])]; auto. }
  assert (Hn : first_la tbl syms la None <-> e = true /\ la = None).
  { rewrite (H None). split; [auto|]. intros [H1|(t' & _ & [])]; auto. }
  destruct e; [destruct la as [l|]|]; simpl.
  - split.
    + intro t. rewrite (set_add_In Nat.eqb Nat.eqb_eq), Hs. split.
      * intros [->|H1]; auto.
      * intros [H1|[_ H1]]; auto. inversion H1; auto.
    + rewrite Hn. split; [discriminate|]. intros [_ H1]; discriminate.
  - split.
    + intro t. rewrite Hs. split; auto. intros [H1|[_ H1]]; auto. discriminate.
    + rewrite Hn. tauto.
  - split.
    + intro t. rewrite Hs. split; auto. intros [H1|[H1 _]]; auto. discriminate.
    + rewrite Hn. split; [discriminate|]. intros [H1 _]; discriminate.
Qed.

Section Closure.
Context {A : Type}.
Variable g : grammar A.
Variable tbl : first_table.

(** One closure step on items. *)
Definition succ_item (it x : item) : Prop :=
  exists n p pr la, next_symbol g it = Some (NT n) /\ get_production g n p = Some pr /\
    first_la tbl (skipn (S (it_cursor it)) (item_rhs g it)) (it_la it) la /\ x = start_item n p la.

(** Closure of a set of items. *)
Inductive in_closure (K : item -> Prop) : item -> Prop :=
| ic_kernel : forall it, K it -> in_closure K it
| ic_step : forall it x, in_closure K it -> succ_item it x -> in_closure K x.

Lemma in_closure_ext (K K' : item -> Prop) : (forall x, K x -> K' x) ->
  forall x, in_closure K x -> in_closure K' x.
Proof. intros H x Hx; induction Hx; [apply ic_kernel; auto | eapply ic_step; eauto]. Qed.

Lemma next_symbol_nt it n : next_symbol g it = Some (NT n) <-> next_non_terminal g it = Some n.
Proof.
  unfold next_non_terminal. destruct (next_symbol g it) as [[m|t]|]; split; intro H; inversion H; auto.
Qed.

Lemma next_symbol_t it t : next_symbol g it = Some (T t) <-> next_terminal g it = Some t.
Proof.
  unfold next_terminal. destruct (next_symbol g it) as [[m|t']|]; split; intro H; inversion H; auto.
Qed.

Variable ho : hash_order.
Hypothesis Hho : forall l, Permutation (ho_terms ho l) l.

(** The items one step of the loop tries to insert, in order. *)
Definition succs (it : item) : list item :=
  match next_non_terminal g it with
  | None => []
  | Some nt =>
      let first := closure_first ho tbl (skipn (S (it_cursor it)) (item_rhs g it)) (it_la it) in
      flat_map (fun p => map (fun t => start_item nt p (Some t)) (ho_terms ho (fs_terminals first)) ++
                         if fs_empty first then [start_item nt p None] else [])
               (non_terminal_production_indices g nt)
  end.

Lemma fold_left_map {X Y B} (f : B -> Y -> B) (h : X -> Y) l b :
  fold_left f (map h l) b = fold_left (fun b x => f b (h x)) l b.
Proof. revert b; induction l; simpl; auto. Qed.

Lemma fold_left_flat_map {X Y B} (f : B -> Y -> B) (h : X -> list Y) l b :
  fold_left f (flat_map h l) b = fold_left (fun b x => fold_left f (h x) b) l b.
Proof. revert b; induction l; simpl; intros; auto. rewrite fold_left_app; auto. Qed.

Lemma fold_left_ext {X B} (f h : B -> X -> B) l :
  (forall b x, f b x = h b x) -> forall b, fold_left f l b = fold_left h l b.
Proof. intros H. induction l; simpl; intros; auto. rewrite H; auto. Qed.

Lemma closure_step_succs it st :
  closure_step ho g tbl it st = fold_left closure_insert (succs it) st.
Proof.
  unfold closure_step, succs. destruct (next_non_terminal g it) as [nt|]; auto.
  rewrite fold_left_flat_map. apply fold_left_ext. intros st' p.
  rewrite fold_left_app, fold_left_map. unfold closure_add_production.
  destruct (fs_empty _); auto.
Qed.

Lemma succs_spec it x : In x (succs it) <-> succ_item it x.
Proof.
  unfold succs, succ_item. destruct (next_non_terminal g it) as [nt|] eqn:E.
  - set (syms := skipn _ _). set (la := it_la it).
    destruct (closure_first_spec ho tbl Hho syms la) as [H1 H2].
    rewrite in_flat_map. split.
    + intros (p & Hp & Hx). apply production_index_iff in Hp. destruct Hp as (pr & Hp).
      apply in_app_iff in Hx. destruct Hx as [Hx|Hx].
      * apply in_map_iff in Hx. destruct Hx as (t & <- & Ht).
        exists nt, p, pr, (Some t). repeat split; auto; [apply next_symbol_nt; auto|].
        apply H1. eapply Permutation_in; [apply Hho|exact Ht].
      * destruct (fs_empty _) eqn:Ee; [|destruct Hx]. destruct Hx as [<-|[]].
        exists nt, p, pr, None. repeat split; auto; [apply next_symbol_nt; auto|]. apply H2; auto.
    + intros (n & p & pr & la' & Hn & Hp & Hf & ->). apply next_symbol_nt in Hn.
      rewrite E in Hn; inversion Hn; subst n.
      exists p. split; [apply production_index_iff; eauto|]. apply in_app_iff.
      destruct la' as [t|].
      * left. apply (in_map (fun t => start_item nt p (Some t))).
        eapply Permutation_in; [apply Permutation_sym, Hho|]. apply H1; auto.
      * right. apply H2 in Hf. rewrite Hf. left; auto.
  - split; [intros []|]. intros (n & p & pr & la' & Hn & _). apply next_symbol_nt in Hn. congruence.
Qed.

(** Effect of a batch of insertions *)
Lemma inserts_spec l : forall cl wl cl' wl', fold_left closure_insert l (cl, wl) = (cl', wl') ->
  exists new, cl' = cl ++ new /\ wl' = rev new ++ wl /\
    (forall x, In x new -> In x l) /\ (forall x, In x l -> In x cl') /\ (NoDup cl -> NoDup cl').
Proof.
  induction l as [|y l IH]; simpl; intros cl wl cl' wl' H.
  - inversion H; subst. exists []. rewrite app_nil_r. repeat split; auto; intros x [].
  - destruct (set_mem item_eqb y cl) eqn:E.
    + apply IH in H. destruct H as (new & -> & -> & H1 & H2 & H3). exists new. repeat split; auto.
      intros x [<-|Hx]; auto. apply in_app_iff. left. apply (set_mem_In item_eqb item_eqb_spec); auto.
    + apply IH in H. destruct H as (new & -> & -> & H1 & H2 & H3). exists (y :: new).
      rewrite <- !app_assoc in *. simpl. repeat split; auto.
      * rewrite <- app_assoc. auto.
      * intros x [<-|Hx]; auto.
      * intros x [<-|Hx]; auto. rewrite in_app_iff; right; left; auto.
      * intro Hnd. apply H3.
        apply (set_mem_not_In item_eqb item_eqb_spec) in E.
        apply Permutation_NoDup with (y :: cl); [apply Permutation_cons_append | constructor; auto].
Qed.

Record cl_inv (K : item -> Prop) (cl wl : list item) : Prop := {
  ci_sound : forall x, In x cl -> in_closure K x;
  ci_kernel : forall x, K x -> In x cl;
  ci_done : forall x, In x cl -> In x wl \/ forall y, succ_item x y -> In y cl;
  ci_wl : forall x, In x wl -> In x cl
}.

Lemma closure_loop_spec K fuel : forall cl wl res,
  cl_inv K cl wl -> closure_loop ho fuel g tbl cl wl = Ok res ->
  forall x, In x res <-> in_closure K x.
Proof.
  induction fuel as [|fuel IH]; intros cl wl res Hinv H.
  - destruct wl as [|it wl]; simpl in H; [|discriminate]. inversion H; subst.
    intro x; split; [apply (ci_sound _ _ _ Hinv)|].
    intro Hx; induction Hx as [x Hx|x y Hx IHx Hs]; [apply (ci_kernel _ _ _ Hinv); auto|].
    destruct (ci_done _ _ _ Hinv x IHx) as [[]|Hd]; auto.
  - destruct wl as [|it wl]; simpl in H.
    + inversion H; subst.
      intro x; split; [apply (ci_sound _ _ _ Hinv)|].
      intro Hx; induction Hx as [x Hx|x y Hx IHx Hs]; [apply (ci_kernel _ _ _ Hinv); auto|].
      destruct (ci_done _ _ _ Hinv x IHx) as [[]|Hd]; auto.
    + rewrite closure_step_succs in H.
      destruct (fold_left closure_insert (succs it) (cl, wl)) as [cl' wl'] eqn:E.
      apply inserts_spec in E. destruct E as (new & -> & -> & H1 & H2 & _).
      eapply IH; [|exact H]. destruct Hinv as [I1 I2 I3 I4].
      assert (Hit : In it cl) by (apply I4; left; auto).
      constructor.
      * intros x Hx. apply in_app_iff in Hx. destruct Hx as [Hx|Hx]; auto.
        eapply ic_step; [apply I1, Hit|]. apply succs_spec; auto.
      * intros x Hx. apply in_app_iff; auto.
      * intros x Hx. apply in_app_iff in Hx. destruct Hx as [Hx|Hx].
        -- destruct (I3 x Hx) as [[->|Hw]|Hd].
           ++ right. intros y Hy. apply H2. apply succs_spec; auto.
           ++ left. apply in_app_iff; auto.
           ++ right. intros y Hy. apply in_app_iff; auto.
        -- left. apply in_app_iff. left. apply in_rev in Hx. auto.
      * intros x Hx. apply in_app_iff in Hx. apply in_app_iff. destruct Hx as [Hx|Hx].
        -- right. apply in_rev in Hx; auto.
        -- left. apply I4; right; auto.
Qed.
End Closure.

Section ClosureTop.
Context {A : Type}.
Variable g : grammar A.
Variable tbl : first_table.
Variable ho : hash_order.
Hypothesis Hho : hash_order_ok ho.

Theorem compute_lr1_closure_spec fuel items cl :
  compute_lr1_closure ho fuel g tbl items = Ok cl ->
  sorted_items cl /\ forall x, In x cl <-> in_closure g tbl (fun y => In y items) x.
Proof.
  unfold compute_lr1_closure. intro H. apply bind_Ok in H. destruct H as (cl0 & H0 & H).
  inversion H; subst. destruct (btree_of_list_spec (ho_items ho cl0)) as [H1 H2].
  assert (Hi : cl_inv g tbl (fun y => In y items) items (rev (ho_items ho items))).
  { constructor; auto.
    - intros x Hx. apply ic_kernel; auto.
    - intros x Hx. left. apply in_rev. rewrite rev_involutive.
      eapply Permutation_in; [apply Permutation_sym, Hho|auto].
    - intros x Hx. apply in_rev in Hx. eapply Permutation_in; [apply Hho|exact Hx]. }
  split; auto. intro x. rewrite H2.
  rewrite <- (closure_loop_spec g tbl ho (hok_terms ho Hho) (fun y => In y items) _ _ _ _ Hi H0).
  split; apply Permutation_in; [apply Hho | apply Permutation_sym, Hho].
Qed.

Lemma goto_kernel_spec state X x :
  In x (goto_kernel g state X) <-> exists it, In it state /\ next_symbol g it = Some X /\ x = advance it.
Proof.
  unfold goto_kernel.
  assert (forall acc, In x (fold_left (fun acc it =>
            match next_symbol g it with
            | Some Y => if symbol_eqb Y X then set_add item_eqb (advance it) acc else acc
            | None => acc end) state acc) <->
          (exists it, In it state /\ next_symbol g it = Some X /\ x = advance it) \/ In x acc) as H.
  { induction state as [|it state IH]; simpl; intro acc.
    - split; [auto|]. intros [(it & [] & _)|H]; auto.
    - rewrite IH. clear IH. destruct (next_symbol g it) as [Y|] eqn:E.
      + destruct (symbol_eqb Y X) eqn:EX.
        * apply symbol_eqb_spec in EX; subst Y. rewrite (set_add_In item_eqb item_eqb_spec). split.
          -- intros [(it' & H1 & H2)|[->|H]]; eauto 8.
          -- intros [(it' & [<-|H1] & H2 & H3)|H]; auto. left; eauto.
        * split.
          -- intros [(it' & H1 & H2)|H]; eauto 8.
          -- intros [(it' & [<-|H1] & H2 & H3)|H]; auto; [|left; eauto].
             exfalso. rewrite E in H2; inversion H2; subst.
             assert (symbol_eqb X X = true) by (apply symbol_eqb_spec; auto). congruence.
      + split.
        * intros [(it' & H1 & H2)|H]; eauto 8.
        * intros [(it' & [<-|H1] & H2 & H3)|H]; auto; [congruence | left; eauto]. }
  rewrite H. simpl. tauto.
Qed.

Lemma goto_kernel_NoDup state X : NoDup (goto_kernel g state X).
Proof.
  unfold goto_kernel.
  assert (forall acc, NoDup acc -> NoDup (fold_left (fun acc it =>
            match next_symbol g it with
            | Some Y => if symbol_eqb Y X then set_add item_eqb (advance it) acc else acc
            | None => acc end) state acc)) as H.
  { induction state as [|it state IH]; simpl; intros acc Hn; auto. apply IH.
    destruct (next_symbol g it); auto. destruct (symbol_eqb _ _); auto.
    apply set_add_NoDup; auto. apply item_eqb_spec. }
  apply H; constructor.
Qed.

(** [S] is the canonical goto of the item set [items] on [X], with respect to the table [tbl]. *)
Definition goto_set (items : list item) (X : symbol) (S : list item) : Prop :=
  sorted_items S /\
  forall x, In x S <->
    in_closure g tbl (fun y => exists it, In it items /\ next_symbol g it = Some X /\ y = advance it) x.

Lemma goto_set_unique items X S S' : goto_set items X S -> goto_set items X S' -> S = S'.
Proof.
  intros [H1 H2] [H3 H4]. apply sorted_ext; auto. intro x. rewrite H2, H4. tauto.
Qed.

Theorem compute_lr1_goto_spec fuel items X S :
  compute_lr1_goto ho fuel items X g tbl = Ok S -> goto_set items X S.
Proof.
  unfold compute_lr1_goto. intro H. apply compute_lr1_closure_spec in H. destruct H as [H1 H2].
  split; auto. intro x. rewrite H2. split; apply in_closure_ext; intros y Hy; apply goto_kernel_spec; auto.
Qed.

Lemma goto_set_nonempty items X S : goto_set items X S ->
  (S <> [] <-> exists it, In it items /\ next_symbol g it = Some X).
Proof.
  intros [H1 H2]. split.
  - intro H. destruct S as [|x S]; [congruence|].
    assert (Hx : In x (x :: S)) by (left; auto). apply H2 in Hx.
    clear H1 H2 H. induction Hx as [y (it & H3 & H4 & _)|y z Hy IH Hs]; eauto.
  - intros (it & H3 & H4) ->. apply (in_nil (a := advance it)). apply H2. apply ic_kernel. eauto.
Qed.
End ClosureTop.
