(** * Termination: the fixpoint loops of the generator stop; expansion is independent of the fuel *)
From Verif Require Export Determinism.
From Coq Require Import NArith.

(** ** Counting *)
Lemma filter_le {X} (f h : X -> bool) l : (forall x, In x l -> f x = true -> h x = true) ->
  List.length (filter f l) <= List.length (filter h l).
Proof.
  induction l as [|x l IH]; intro H; [constructor|]. cbn.
  assert (IH' := IH (fun y Hy => H y (or_intror Hy))).
  destruct (f x) eqn:E; [rewrite (H x (or_introl eq_refl) E)|destruct (h x)]; cbn; lia.
Qed.

Lemma filter_lt {X} (f h : X -> bool) l x : (forall x, In x l -> f x = true -> h x = true) ->
  In x l -> f x = false -> h x = true ->
  List.length (filter f l) < List.length (filter h l).
Proof.
  induction l as [|y l IH]; intros H Hin Hf Hh; [destruct Hin|]. cbn.
  assert (H' : forall x, In x l -> f x = true -> h x = true) by (intros; apply H; [right|]; auto).
  destruct Hin as [->|Hin].
  - rewrite Hf, Hh. cbn. pose proof (filter_le f h l H'). lia.
  - specialize (IH H' Hin Hf Hh). destruct (f y) eqn:E; [rewrite (H y (or_introl eq_refl) E)|destruct (h y)]; cbn; lia.
Qed.

Lemma filter_bound {X} (f : X -> bool) l : List.length (filter f l) <= List.length l.
Proof. induction l as [|x l IH]; cbn; [lia|]. destruct (f x); cbn; lia. Qed.

Lemma foldM_no_fuel {X B} (f : B -> X -> res B) l : (forall b x, In x l -> f b x <> OutOfFuel) ->
  forall b, foldM f l b <> OutOfFuel.
Proof.
  induction l as [|x l IH]; cbn; intros H b; [discriminate|].
  destruct (f b x) as [y|p|] eqn:E; cbn; try discriminate; [|exfalso; apply (H b x (or_introl eq_refl) E)].
  apply IH. intros b' z Hz. apply H. right; auto.
Qed.

Lemma bind_no_fuel {X Y} (r : res X) (k : X -> res Y) : r <> OutOfFuel ->
  (forall x, r = Ok x -> k x <> OutOfFuel) -> bind r k <> OutOfFuel.
Proof. destruct r as [x|p|]; cbn; intros H1 H2; auto; discriminate. Qed.

(** ** FIRST *)
Definition grew (st st' : first_table * bool) : Prop :=
  tbl_le (fst st) (fst st') /\ List.length (fst st') = List.length (fst st) /\
  (snd st' = true -> snd st = true \/
     exists n, n < List.length (fst st) /\
       ((flag (fst st) n = false /\ flag (fst st') n = true) \/
        exists t, ~ In t (terms (fst st) n) /\ In t (terms (fst st') n))).

Lemma grew_refl st : grew st st.
Proof. split; [apply tbl_le_refl|]. split; auto. Qed.

Lemma grew_trans a b c : grew a b -> grew b c -> grew a c.
Proof.
  intros (L1 & N1 & G1) (L2 & N2 & G2). split; [eapply tbl_le_trans; eauto|]. split; [congruence|].
  intro H. destruct (G2 H) as [Hb|(n & Hn & Hx)].
  - destruct (G1 Hb) as [Ha|(n & Hn & Hx)]; [left; auto|]. right. exists n. split; auto.
    destruct Hx as [[H1 H2]|(t & H1 & H2)]; [left; split; auto; apply L2; auto | right; exists t; split; auto; apply L2; auto].
  - right. exists n. split; [lia|]. destruct Hx as [[H1 H2]|(t & H1 & H2)].
    + left. split; auto. destruct (flag (fst a) n) eqn:E; auto. apply L1 in E. congruence.
    + right. exists t. split; auto. intro K. apply H1. apply L1; auto.
Qed.

Lemma fold_grew {X} (f : first_table * bool -> X -> first_table * bool) l (P : nat -> Prop) :
  (forall st x, In x l -> P (List.length (fst st)) -> grew st (f st x)) ->
  forall st, P (List.length (fst st)) -> grew st (fold_left f l st).
Proof.
  induction l as [|x l IH]; cbn; intros H st Hst; [apply grew_refl|].
  pose proof (H st x (or_introl eq_refl) Hst) as H1. eapply grew_trans; [exact H1|].
  apply (IH (fun st' y Hy => H st' y (or_intror Hy))). destruct H1 as (_ & E & _). exact (eq_ind_r P Hst E).
Qed.

Lemma add_first_grew n t tbl upd tbl' b : n < List.length tbl -> add_first tbl n t = (tbl', b) ->
  grew (tbl, upd) (tbl', upd || b).
Proof.
  intros Hn E. pose proof (add_first_spec _ _ _ _ _ Hn E) as (Hl & Hf & Ht & Hb).
  split; [split; [intro m; cbn; rewrite Hf; auto | intros m x Hx; cbn; apply Ht; auto]|]. split; [exact Hl|].
  cbn. intro H. apply orb_true_iff in H. destruct H as [H|H]; [left; auto|]. right. exists n. split; auto. right.
  exists t. rewrite Hb in H. apply negb_true_iff in H. split; [apply (set_mem_not_In Nat.eqb Nat.eqb_eq); auto|].
  apply Ht; auto.
Qed.

Lemma set_empty_grew n tbl upd tbl' b c : n < List.length tbl -> set_empty tbl n = (tbl', b) -> (c = true -> b = true) ->
  grew (tbl, upd) (tbl', upd || c).
Proof.
  intros Hn E Hc. pose proof (set_empty_spec _ _ _ _ Hn E) as (Hl & Hf & Ht & Hb).
  split; [split; [intro m; cbn; rewrite Hf; destruct (Nat.eqb n m); auto | intros m x Hx; cbn; rewrite Ht; auto]|]. split; [exact Hl|].
  cbn. intro H. apply orb_true_iff in H. destruct H as [H|H]; [left; auto|]. right. exists n. split; auto. left.
  rewrite (Hc H) in Hb. symmetry in Hb. apply negb_true_iff in Hb. split; auto. rewrite Hf, Nat.eqb_refl. reflexivity.
Qed.

Section FirstT.
Context {A : Type}.
Variable g : grammar A.
Variable ho : hash_order.
Hypothesis Hho : forall l, Permutation (ho_terms ho l) l.
Hypothesis Hwf : wf_grammar g.

Lemma add_all_grew n ts : forall st, n < List.length (fst st) -> grew st (add_all n ts st).
Proof.
  induction ts as [|t ts IH]; intros [tbl upd] Hn; [apply grew_refl|]. rewrite add_all_cons.
  destruct (add_first tbl n t) as [tbl1 b] eqn:E. pose proof (add_first_grew _ _ _ upd _ _ Hn E) as H.
  eapply grew_trans; [exact H|]. apply IH. destruct H as (_ & E' & _). cbn in *. lia.
Qed.

Lemma first_symbols_grew n syms : forall st, n < List.length (fst st) -> grew st (first_symbols ho n syms st).
Proof.
  induction syms as [|[m|t] syms IH]; intros [tbl upd] Hn.
  - rewrite first_symbols_nil. destruct (set_empty tbl n) as [tbl1 b] eqn:E. cbn [fst].
    pose proof (set_empty_grew _ _ upd _ _ false Hn E) as H. rewrite orb_false_r in H. apply H. discriminate.
  - rewrite first_symbols_NT. destruct (fs_empty _); [apply IH; auto|apply add_all_grew; auto].
  - rewrite first_symbols_T. destruct (add_first tbl n t) as [tbl1 b] eqn:E. eapply add_first_grew; eauto.
Qed.

Lemma first_production_grew n st (pr : production A) : n < List.length (fst st) -> grew st (first_production ho n st pr).
Proof.
  intro Hn. unfold first_production. destruct (rhs pr) as [|X r]; [|apply first_symbols_grew; auto].
  destruct st as [tbl upd]. destruct (set_empty tbl n) as [tbl1 b] eqn:E.
  pose proof (set_empty_grew _ _ upd _ _ b Hn E (fun H => H)) as H.
  eapply grew_trans; [exact H|]. apply first_symbols_grew. destruct H as (_ & E' & _). cbn in *. lia.
Qed.

Lemma first_pass_grew tbl : List.length tbl = n_non_terminals g -> grew (tbl, false) (first_pass ho g tbl).
Proof.
  intro Hl. unfold first_pass. apply (fold_grew _ _ (fun k => k = n_non_terminals g)); [|exact Hl].
  intros st [n N] Hin Hst. apply enumerate_nth_error in Hin.
  assert (Hn : n < n_non_terminals g) by (eapply nt_in_range; exact Hin).
  apply (fold_grew _ _ (fun k => k = n_non_terminals g)); [|exact Hst].
  intros st' pr _ Hst'. apply first_production_grew. lia.
Qed.

Lemma jfirst_in_range tbl n t : jfirst g tbl n t -> t < n_terminals g.
Proof.
  induction 1 as [n p pr l t r Hp Hr _|]; auto. apply (wfg_t g Hwf _ _ _ _ Hp). rewrite Hr. apply in_app_iff. right. left. auto.
Qed.

Definition tbl_range (tbl : first_table) : Prop := forall n t, In t (terms tbl n) -> t < n_terminals g.

Lemma justified_range tbl : justified g tbl -> tbl_range tbl.
Proof. intros H n t Ht. eapply jfirst_in_range. eapply j_first; eauto. Qed.

(** Facts a table can hold: terminal [t] of [n], or, for [t = n_terminals], the empty flag of [n]. *)
Definition fact (tbl : first_table) (f : nat * nat) : bool :=
  if Nat.eqb (snd f) (n_terminals g) then flag tbl (fst f) else set_mem Nat.eqb (snd f) (terms tbl (fst f)).
Definition facts : list (nat * nat) := list_prod (seq 0 (n_non_terminals g)) (seq 0 (S (n_terminals g))).
Definition n_facts (tbl : first_table) : nat := List.length (filter (fact tbl) facts).

Lemma fact_mono a b : tbl_le a b -> forall f, In f facts -> fact a f = true -> fact b f = true.
Proof.
  intros [H1 H2] [n t] _. unfold fact; cbn. destruct (Nat.eqb_spec t (n_terminals g)); auto.
  rewrite !(set_mem_In Nat.eqb Nat.eqb_eq). auto.
Qed.

Lemma first_pass_facts tbl : justified g tbl -> snd (first_pass ho g tbl) = true ->
  n_facts tbl < n_facts (fst (first_pass ho g tbl)).
Proof.
  intros HJ Hu. pose proof (first_pass_grew tbl (j_len _ _ HJ)) as (Hle & Hl & Hg).
  pose proof (to_just _ _ _ (proj1 (first_pass_ok g ho Hho tbl HJ)) HJ) as HJ'. cbn [fst snd] in *.
  destruct (Hg Hu) as [K|(n & Hn & Hx)]; [discriminate|]. rewrite (j_len _ _ HJ) in Hn.
  unfold n_facts. destruct Hx as [[H1 H2]|(t & H1 & H2)].
  - apply filter_lt with (x := (n, n_terminals g)); [apply fact_mono; auto| | |]; unfold fact; cbn [fst snd]; rewrite ?Nat.eqb_refl; auto.
    unfold facts. apply in_prod; apply in_seq; lia.
  - pose proof (justified_range _ HJ' _ _ H2) as Ht.
    assert (Hne : Nat.eqb t (n_terminals g) = false) by (apply Nat.eqb_neq; lia).
    apply filter_lt with (x := (n, t)); [apply fact_mono; auto| | |]; unfold fact; cbn [fst snd]; rewrite ?Hne; auto.
    + unfold facts. apply in_prod; apply in_seq; lia.
    + apply (set_mem_not_In Nat.eqb Nat.eqb_eq); auto.
    + apply (set_mem_In Nat.eqb Nat.eqb_eq); auto.
Qed.

Lemma first_loop_no_fuel fuel : forall tbl, justified g tbl -> List.length facts < fuel + n_facts tbl ->
  first_loop ho fuel g tbl <> OutOfFuel.
Proof.
  induction fuel as [|fuel IH]; intros tbl HJ Hf; [pose proof (filter_bound (fact tbl) facts); unfold n_facts in Hf; lia|].
  cbn [first_loop]. pose proof (first_pass_facts tbl HJ) as H1.
  pose proof (to_just _ _ _ (proj1 (first_pass_ok g ho Hho tbl HJ)) HJ) as HJ'.
  destruct (first_pass ho g tbl) as [tbl' upd]. cbn [fst snd] in *. destruct upd; [|discriminate].
  apply IH; auto. specialize (H1 eq_refl). lia.
Qed.

Theorem first_table_terminates fuel : List.length facts < fuel -> generate_first_table ho fuel g <> OutOfFuel.
Proof. intro H. apply first_loop_no_fuel; [apply justified_new|lia]. Qed.

(** ** Items in range *)
Definition la_ok (la : option nat) : Prop := match la with Some t => t < n_terminals g | None => True end.
Definition item_ok (it : item) : Prop :=
  exists pr, get_production g (it_nt it) (it_prod it) = Some pr /\
    it_cursor it <= List.length (rhs pr) /\ la_ok (it_la it).

Definition las : list (option nat) := None :: map Some (seq 0 (n_terminals g)).
Definition all_items : list item :=
  flat_map (fun n =>
    flat_map (fun p =>
      match get_production g n p with
      | Some pr => flat_map (fun c => map (fun la => {| it_nt := n; it_prod := p; it_cursor := c; it_la := la |}) las)
                            (seq 0 (S (List.length (rhs pr))))
      | None => []
      end) (non_terminal_production_indices g n)) (seq 0 (n_non_terminals g)).

Lemma item_ok_in it : item_ok it -> In it all_items.
Proof.
  intros (pr & Hp & Hc & Hla). unfold all_items. apply in_flat_map. exists (it_nt it). split.
  { apply in_seq. split; [lia|]. cbn. destruct (get_production_nt _ _ _ _ Hp) as (N & HN & _). eapply nt_in_range; eauto. }
  apply in_flat_map. exists (it_prod it). split; [apply production_index_iff; eauto|].
  rewrite Hp. apply in_flat_map. exists (it_cursor it). split; [apply in_seq; lia|].
  apply in_map_iff. exists (it_la it). split; [destruct it; reflexivity|].
  unfold las. destruct (it_la it) as [t|]; [right|left; auto]. apply in_map. apply in_seq. cbn in Hla. lia.
Qed.

Variable tbl : first_table.
Hypothesis Htbl : tbl_range tbl.

Lemma first_la_ok l la x : first_la tbl l la x -> la_ok la -> (forall t, In (T t) l -> t < n_terminals g) -> la_ok x.
Proof.
  induction 1 as [la|t r la|n r la t Ht|n r la x Hf H IH]; intros H1 H2; auto.
  - apply H2. left; auto.
  - apply (Htbl n). auto.
  - apply IH; auto. intros t Ht. apply H2. right; auto.
Qed.

Lemma in_skipn {X} k (l : list X) x : In x (skipn k l) -> In x l.
Proof. revert k; induction l as [|y l IH]; intros [|k] H; cbn in *; auto. right. apply (IH k); auto. Qed.

Lemma succ_item_ok a b : item_ok a -> succ_item g tbl a b -> item_ok b.
Proof.
  intros (pr & Hp & Hc & Hla) (n & p & pr' & la & Hn & Hp' & Hf & ->). exists pr'. cbn. split; [auto|]. split; [lia|].
  apply (first_la_ok _ _ _ Hf Hla). intros t Ht. apply in_skipn in Ht. unfold item_rhs in Ht. rewrite Hp in Ht.
  apply (wfg_t g Hwf _ _ _ _ Hp Ht).
Qed.

Lemma advance_ok it X : next_symbol g it = Some X -> item_ok it -> item_ok (advance it).
Proof.
  intros Hn (pr & Hp & Hc & Hla). exists pr. cbn. split; [auto|]. split; [|auto].
  unfold next_symbol, item_rhs in Hn. rewrite Hp in Hn. assert (it_cursor it < List.length (rhs pr)); [|lia].
  apply nth_error_Some. congruence.
Qed.

Lemma in_closure_ok (K : item -> Prop) : (forall x, K x -> item_ok x) -> forall x, in_closure g tbl K x -> item_ok x.
Proof. intros HK x Hx. induction Hx as [x Hx|y x Hy IH Hs]; auto. eapply succ_item_ok; eauto. Qed.

Lemma goto_set_items_ok items X S : goto_set g tbl items X S -> (forall x, In x items -> item_ok x) -> forall x, In x S -> item_ok x.
Proof.
  intros [_ HS] Hi x Hx. apply HS in Hx. revert x Hx. apply in_closure_ok. intros y (it & H1 & H2 & ->). eapply advance_ok; eauto.
Qed.

(** ** Closure *)
Lemma closure_loop_no_fuel fuel : forall cl wl,
  NoDup cl -> (forall x, In x cl -> item_ok x) -> (forall x, In x wl -> In x cl) ->
  List.length wl + List.length all_items <= fuel + List.length cl ->
  closure_loop ho fuel g tbl cl wl <> OutOfFuel.
Proof.
  induction fuel as [|fuel IH]; intros cl wl Hn Hok Hwl Hlen.
  - destruct wl as [|it wl]; [discriminate|]. exfalso.
    assert (List.length cl <= List.length all_items); [|cbn in Hlen; lia].
    apply NoDup_incl_length; auto. intros x Hx. apply item_ok_in. auto.
  - destruct wl as [|it wl]; [discriminate|]. cbn [closure_loop].
    rewrite (closure_step_succs g tbl ho it).
    destruct (fold_left closure_insert (succs g tbl ho it) (cl, wl)) as [cl' wl'] eqn:E.
    destruct (inserts_spec _ _ _ _ _ E) as (new & -> & -> & H1 & H2 & H3). apply IH; auto.
    + intros x Hx. apply in_app_iff in Hx. destruct Hx as [Hx|Hx]; auto.
      apply H1, (succs_spec g tbl ho Hho) in Hx. apply (succ_item_ok it); auto. apply Hok, Hwl. left; auto.
    + intros x Hx. apply in_app_iff in Hx. apply in_app_iff. destruct Hx as [Hx|Hx]; [right; apply in_rev; auto|left; apply Hwl; right; auto].
    + rewrite !app_length, rev_length. cbn in Hlen. lia.
Qed.

Hypothesis Hhok : hash_order_ok ho.
Let Hhoi := hok_items ho Hhok.

Lemma closure_terminates fuel items : NoDup items -> (forall x, In x items -> item_ok x) ->
  List.length all_items <= fuel -> compute_lr1_closure ho fuel g tbl items <> OutOfFuel.
Proof.
  intros Hn Hok Hf. unfold compute_lr1_closure. apply bind_no_fuel; [|discriminate].
  apply closure_loop_no_fuel; auto.
  - intros x Hx. apply in_rev in Hx. eapply Permutation_in; [apply Hhoi|auto].
  - rewrite rev_length. rewrite (Permutation_length (Hhoi items)). lia.
Qed.

(** ** Number of states *)
Fixpoint sublists {X} (l : list X) : list (list X) :=
  match l with [] => [[]] | x :: l' => sublists l' ++ map (cons x) (sublists l') end.

Lemma sublists_length {X} (l : list X) : List.length (sublists l) = 2 ^ List.length l.
Proof. induction l as [|x l IH]; cbn; auto. rewrite app_length, map_length, IH. lia. Qed.

Lemma sublists_filter {X} (f : X -> bool) l : In (filter f l) (sublists l).
Proof.
  induction l as [|x l IH]; cbn; auto. destruct (f x); apply in_app_iff; [right; apply in_map; auto|left; auto].
Qed.

Lemma states_bound (states : list lr1_state) indices : idx_ok states indices ->
  (forall i s, nth_error states i = Some s -> sorted_items (st_items s)) ->
  (forall i s, nth_error states i = Some s -> forall x, In x (st_items s) -> item_ok x) ->
  List.length states <= 2 ^ List.length all_items.
Proof.
  intros Hix Hs Hok. rewrite <- sublists_length.
  set (f := fun s => filter (fun x => set_mem item_eqb x (st_items s)) all_items).
  rewrite <- (map_length f states). apply NoDup_incl_length.
  - apply NoDup_nth_error. intros i j Hi He.
    rewrite !nth_error_map in He. rewrite map_length in Hi.
    destruct (nth_error states i) as [s|] eqn:Es; [|apply nth_error_None in Es; lia].
    destruct (nth_error states j) as [s'|] eqn:Es'; cbn in He; [|discriminate]. injection He as He.
    assert (Heq : st_items s = st_items s').
    { apply sorted_ext; eauto. intro x.
      assert (Hm : forall s0 i0, nth_error states i0 = Some s0 -> (In x (st_items s0) <-> In x (f s0))).
      { intros s0 i0 H0. unfold f. rewrite filter_In, (set_mem_In item_eqb item_eqb_spec).
        split; [intro Hx; split; auto; apply item_ok_in; eapply Hok; eauto|tauto]. }
      rewrite (Hm s i Es), (Hm s' j Es'), He. tauto. }
    pose proof (ix_get _ _ Hix _ _ Es) as G1. pose proof (ix_get _ _ Hix _ _ Es') as G2. rewrite Heq in G1. congruence.
  - intros x Hx. apply in_map_iff in Hx. destruct Hx as (s & <- & _). apply sublists_filter.
Qed.

(** ** Automaton *)
Definition defined (states : list lr1_state) (k : nat * symbol) : bool :=
  match trans states (fst k) (snd k) with Some _ => true | None => false end.
Definition keys : list (nat * symbol) := list_prod (seq 0 (2 ^ List.length all_items)) (all_symbols g).
Definition progress_of (states : list lr1_state) : nat :=
  List.length states + List.length (filter (defined states) keys).
Definition loop_bound : nat := 2 ^ List.length all_items + List.length keys.

Lemma trans_update states i X j i' X' : 
  trans (update_nth i (fun s => {| st_items := st_items s; st_goto := map_insert symbol_eqb X j (st_goto s) |}) states) i' X' =
  if Nat.eqb i i' && Nat.ltb i (List.length states) && symbol_eqb X X' then Some j else trans states i' X'.
Proof.
  unfold trans. rewrite nth_error_update_nth.
  destruct (Nat.eqb_spec i i') as [->|Hne]; cbn [andb]; [|reflexivity].
  destruct (nth_error states i') as [s|] eqn:E; cbn [option_map].
  - replace (Nat.ltb i' (List.length states)) with true by (symmetry; apply Nat.ltb_lt, nth_error_Some; congruence).
    cbn [andb st_goto]. destruct (symbol_eqb X X') eqn:EX.
    + apply symbol_eqb_spec in EX. subst X'. apply (map_get_insert_same symbol_eqb symbol_eqb_spec).
    + apply (map_get_insert_other symbol_eqb symbol_eqb_spec). intro; subst X'.
      assert (symbol_eqb X X = true) by (apply symbol_eqb_spec; auto). congruence.
  - replace (Nat.ltb i' (List.length states)) with false by (symmetry; apply Nat.ltb_ge, nth_error_None; auto). reflexivity.
Qed.

Lemma apply_gotos_grows gs : forall states upd states' upd',
  (forall i X j, In (i, X, j) gs -> i < List.length states) ->
  apply_gotos gs states upd = (states', upd') ->
  (forall i X, trans states i X <> None -> trans states' i X <> None) /\
  (upd' = true -> upd = true \/ exists i X j, In (i, X, j) gs /\ trans states i X = None /\ trans states' i X <> None).
Proof.
  induction gs as [|[[i X] j] gs IH]; cbn [apply_gotos]; intros states upd states' upd' Hi H.
  - injection H as <- <-. split; auto.
  - apply IH in H.
    2:{ intros i' X' j' Hin. rewrite update_nth_length. eapply Hi. right; eauto. }
    destruct H as [H1 H2].
    assert (Hlt : Nat.ltb i (List.length states) = true) by (apply Nat.ltb_lt; eapply Hi; left; eauto).
    assert (Hup : forall i' X', trans states i' X' <> None -> trans (update_nth i (fun s => {| st_items := st_items s; st_goto := map_insert symbol_eqb X j (st_goto s) |}) states) i' X' <> None).
    { intros i' X' Hk. rewrite trans_update. destruct (_ && _); [discriminate|auto]. }
    split; [auto|]. intro Hu. destruct (H2 Hu) as [Hb|(i' & X' & j' & Hin & Hn & Hs)].
    + apply orb_true_iff in Hb. destruct Hb as [Hb|Hb]; [left; auto|]. right. exists i, X, j. split; [left; auto|].
      split; [|apply H1; rewrite trans_update, Nat.eqb_refl, Hlt; cbn; assert (symbol_eqb X X = true) as -> by (apply symbol_eqb_spec; auto); discriminate].
      unfold trans. destruct (nth_error states i) as [s|]; auto. destruct (map_get symbol_eqb X (st_goto s)); [discriminate|auto].
    + right. exists i', X', j'. split; [right; auto|]. split; auto.
      destruct (trans states i' X') eqn:E; auto. exfalso. apply (Hup i' X'); [congruence|exact Hn].
Qed.

Definition states_ok (states : list lr1_state) : Prop :=
  forall i s, nth_error states i = Some s -> forall x, In x (st_items s) -> item_ok x.

Lemma round_no_fuel fuel states indices : states_ok states -> List.length all_items <= fuel ->
  automaton_round ho fuel g tbl states indices <> OutOfFuel.
Proof.
  intros Hok Hf. unfold automaton_round. apply bind_no_fuel.
  - apply foldM_no_fuel. intros acc [i s] Hin. apply enumerate_nth_error in Hin. unfold round_state. cbn [fst snd].
    apply foldM_no_fuel. intros acc' X _. unfold round_symbol. apply bind_no_fuel.
    + apply closure_terminates; auto; [apply goto_kernel_NoDup|].
      intros x Hx. apply goto_kernel_spec in Hx. destruct Hx as (it & H1 & H2 & ->). eapply advance_ok; eauto.
    + intros [|x gt] _; [discriminate|]. destruct (map_get _ _ _); discriminate.
  - intros r _. destruct (apply_gotos _ _ _). discriminate.
Qed.

Lemma round_progress fuel entries states indices states' indices' upd :
  aut_inv g tbl entries states indices -> states_ok states ->
  automaton_round ho fuel g tbl states indices = Ok (states', indices', upd) ->
  states_ok states' /\ (upd = true -> progress_of states < progress_of states').
Proof.
  intros HI Hok H. pose proof (automaton_round_ok g tbl ho Hhok _ _ _ _ _ _ _ HI H) as [HI' _].
  unfold automaton_round in H. apply bind_Ok in H. destruct H as (r & Hr & H).
  destruct (apply_gotos (ra_gotos r) (states ++ ra_new r) _) as [st1 upd1] eqn:Ea.
  injection H as <- <- <-.
  destruct (round_ok g tbl ho Hhok _ _ _ _ (ai_idx _ _ _ _ _ HI) Hr) as ([R1 R2 R3 R4] & _).
  destruct (apply_gotos_ok _ _ _ _ _ Ea) as (G1 & G2 & _).
  assert (Hrng : forall i X j, In (i, X, j) (ra_gotos r) -> i < List.length (states ++ ra_new r)).
  { intros i X j Hin. destruct (R3 i X j Hin) as (si & _ & Hsi & _).
    assert (i < List.length states) by (apply nth_error_Some; congruence). rewrite app_length. lia. }
  destruct (apply_gotos_grows _ _ _ _ _ Hrng Ea) as [G3 G4].
  assert (Hok' : states_ok st1).
  { intros i s' Hs' x Hx. destruct (G2 _ _ Hs') as (s & Hs & Hit & _). rewrite Hit in Hx.
    destruct (Nat.lt_ge_cases i (List.length states)) as [Hlt|Hge].
    - rewrite nth_error_app1 in Hs by auto. eapply Hok; eauto.
    - pose proof Hs as Hs0. rewrite nth_error_app2 in Hs by auto. destruct (R4 _ _ Hs) as (_ & _ & i0 & X0 & Hin).
      replace (List.length states + (i - List.length states)) with i in Hin by lia.
      destruct (R3 _ _ _ Hin) as (si & sj & Hsi & Hsj & Hgs & _). rewrite Hs0 in Hsj. injection Hsj as <-.
      eapply goto_set_items_ok; eauto. }
  split; [auto|]. intro Hu. unfold progress_of.
  assert (Hold : forall i X, trans states i X <> None -> trans st1 i X <> None).
  { intros i X Hk. apply G3. unfold trans in *. destruct (nth_error states i) as [s|] eqn:E; [|congruence].
    rewrite nth_error_app1 by (apply nth_error_Some; congruence). rewrite E. auto. }
  assert (Hm : forall k, In k keys -> defined states k = true -> defined st1 k = true).
  { intros [i X] _. unfold defined. cbn [fst snd]. pose proof (Hold i X) as Ho. destruct (trans states i X); [|discriminate].
    destruct (trans st1 i X); auto. exfalso. apply Ho; congruence. }
  rewrite app_length in G1. pose proof (filter_le _ _ _ Hm) as Hle.
  destruct (ra_new r) as [|s0 nw] eqn:En; [|rewrite G1; cbn; lia].
  cbn in G1. rewrite app_nil_r in *.
  destruct (G4 Hu) as [K|(i & X & j & Hin & Hn & Hd)]; [discriminate|].
  destruct (R3 _ _ _ Hin) as (si & sj & Hsi & Hsj & Hgs & Hne).
  apply (goto_set_nonempty g tbl) in Hgs. apply Hgs in Hne. destruct Hne as (it & _ & Hnx).
  assert (List.length (filter (defined states) keys) < List.length (filter (defined st1) keys)); [|lia].
  apply filter_lt with (x := (i, X)); auto.
  - unfold keys. apply in_prod; [|eapply next_symbol_in_range; eauto]. apply in_seq. split; [lia|]. cbn.
    assert (i < List.length states) by (apply nth_error_Some; congruence).
    pose proof (states_bound states _ (ai_idx _ _ _ _ _ HI) (ai_sorted _ _ _ _ _ HI) Hok). lia.
  - unfold defined. cbn [fst snd]. rewrite Hn. reflexivity.
  - unfold defined. cbn [fst snd]. destruct (trans st1 i X); auto.
Qed.

Lemma automaton_loop_no_fuel fuel entries n : List.length all_items <= fuel -> forall states indices,
  aut_inv g tbl entries states indices -> states_ok states -> loop_bound < n + progress_of states ->
  automaton_loop ho n fuel g tbl states indices <> OutOfFuel.
Proof.
  intro Hf. induction n as [|n IH]; intros states indices HI Hok Hb.
  - exfalso. pose proof (states_bound states _ (ai_idx _ _ _ _ _ HI) (ai_sorted _ _ _ _ _ HI) Hok).
    pose proof (filter_bound (defined states) keys). unfold loop_bound, progress_of in Hb. lia.
  - cbn [automaton_loop]. apply bind_no_fuel; [apply round_no_fuel; auto|].
    intros [[st1 ix1] upd] Hr. destruct (round_progress _ _ _ _ _ _ _ HI Hok Hr) as [H1 H2].
    pose proof (automaton_round_ok g tbl ho Hhok _ _ _ _ _ _ _ HI Hr) as [HI' _].
    destruct upd; [|discriminate]. apply IH; auto. specialize (H2 eq_refl). lia.
Qed.

Lemma entry_items_ok nt S : is_public g nt -> entry_items g tbl nt S -> forall x, In x S -> item_ok x.
Proof.
  intros (N & HN & Hp) [_ HS] x Hx. apply HS in Hx. revert x Hx. apply in_closure_ok. intros y ->.
  destruct (wfg_pub g Hwf _ _ HN Hp) as (pr & m & Hpr & Hr). exists pr. cbn. split; [|split; [lia|exact Logic.I]].
  unfold get_production. rewrite HN, Hpr. reflexivity.
Qed.

Theorem automaton_terminates fuel : List.length all_items <= fuel -> loop_bound < fuel ->
  generate_lr1_automaton ho fuel g tbl <> OutOfFuel.
Proof.
  intros Hf Hb. unfold generate_lr1_automaton. apply bind_no_fuel.
  - apply foldM_no_fuel. intros acc [nt N] Hin. apply enumerate_nth_error in Hin. unfold add_entry.
    destruct (nt_public N) eqn:Hp; [|discriminate]. destruct (Nat.eqb _ 1); [|discriminate].
    apply bind_no_fuel; [|discriminate]. apply closure_terminates; auto.
    + constructor; [intros []|constructor].
    + intros x [<-|[]]. destruct (wfg_pub g Hwf _ _ Hin Hp) as (pr & m & Hpr & Hr). exists pr. cbn. split; [|split; [lia|exact Logic.I]].
      unfold get_production, get_non_terminal. rewrite Hin, Hpr. reflexivity.
  - intros e He. apply bind_no_fuel; [|discriminate].
    apply (entries_ok g tbl ho Hhok Hwf) in He. destruct He as [E1 E2 E3 E4 E5 E6].
    apply automaton_loop_no_fuel with (entries := ea_entries e); auto; [| |lia].
    + constructor; auto.
      * intros i s Hi. destruct (E3 _ _ Hi) as (nt & _ & Hs). apply Hs.
      * intros i s Hi. rewrite (E2 _ _ Hi). constructor.
      * intros i s X j Hi Hj. rewrite (E2 _ _ Hi) in Hj. discriminate.
      * intros i Hi. destruct (nth_error (ea_states e) i) as [s|] eqn:Es; [|apply nth_error_None in Es; lia].
        destruct (E3 _ _ Es) as (nt & Hnt & _). exists nt, i, [], []. split; auto. constructor.
    + intros i s Hi. destruct (E3 _ _ Hi) as (nt & Hnt & Hs). destruct (E4 _ _ Hnt) as (_ & Hpub & _).
      eapply entry_items_ok; eauto.
Qed.
End FirstT.

(** ** The remaining stages never run out of fuel *)
Lemma u16_no_fuel n : u16_try_from n <> OutOfFuel.
Proof. unfold u16_try_from. destruct (_ <? _)%N; discriminate. Qed.
Lemma u32_no_fuel n : u32_try_from n <> OutOfFuel.
Proof. unfold u32_try_from. destruct (_ <? _)%N; discriminate. Qed.

Section Rest.
Context {A : Type}.

Lemma gen_production_no_fuel variants nt (fns : list (sem_fn A)) p : gen_production variants nt fns p <> OutOfFuel.
Proof.
  unfold gen_production. apply bind_no_fuel.
  - apply mapM_no_fuel. intros [b X]. unfold pop_code; cbn. destruct b; [|discriminate]. destruct X; [|discriminate].
    destruct (variant_of _ _); discriminate.
  - intros ps _. destruct (variant_of variants nt); [|discriminate]. apply bind_no_fuel; [apply u16_no_fuel|discriminate].
Qed.

Lemma gen_productions_no_fuel variants nt ps : forall fns : list (sem_fn A), gen_productions variants nt fns ps <> OutOfFuel.
Proof.
  induction ps as [|p ps IH]; intro fns; [discriminate|]. cbn [gen_productions].
  apply bind_no_fuel; [apply gen_production_no_fuel|]. intros [fns1 p'] _.
  apply bind_no_fuel; [apply IH|]. intros [fns2 ps'] _. discriminate.
Qed.

Lemma semantic_table_no_fuel (g : grammar A) variants : generate_semantic_action_table g variants <> OutOfFuel.
Proof.
  unfold generate_semantic_action_table. apply bind_no_fuel; [|intros [f n] _; discriminate].
  assert (H : forall nts nt (fns : list (sem_fn A)), gen_non_terminals variants nt fns nts <> OutOfFuel); [|apply H].
  induction nts as [|n nts IH]; intros nt fns; [discriminate|]. cbn [gen_non_terminals].
  apply bind_no_fuel; [apply gen_productions_no_fuel|]. intros [fns1 ps] _.
  apply bind_no_fuel; [apply IH|]. intros [fns2 nts'] _. discriminate.
Qed.

Lemma build_table_no_fuel {B} ho (g : grammar B) states : build_lr1_table ho g states <> OutOfFuel.
Proof.
  unfold build_lr1_table. apply foldM_no_fuel. intros tb [s st] _. unfold table_state. apply foldM_no_fuel. intros tb' it _.
  unfold table_item. apply bind_no_fuel.
  - destruct (next_terminal g it); [|discriminate]. destruct (map_get _ _ _); [|discriminate].
    unfold add_shift. destruct (get_action _ _ _) as [[s'| |]|]; try discriminate. destruct (Nat.eqb _ _); discriminate.
  - intros tb1 _. destruct (get_non_terminal g (it_nt it)) as [N|]; [|discriminate]. apply bind_no_fuel.
    + destruct (_ && _); [|discriminate]. destruct (get_production _ _ _); [|discriminate].
      unfold add_reduce. destruct (get_action _ _ _) as [[| |]|]; discriminate.
    + intros tb2 _. apply bind_no_fuel; [|discriminate]. destruct (_ && _); [|discriminate]. destruct (Nat.eqb _ 1); discriminate.
Qed.

(** Fuel that is enough for a grammar. *)
Definition enough_fuel (g : grammar A) : nat :=
  S (List.length (facts g) + List.length (all_items g) + loop_bound g).

Theorem generate_lr1_parser_terminates ho fuel (g : grammar A) te : hash_order_ok ho -> wf_grammar g ->
  enough_fuel g <= fuel -> generate_lr1_parser ho fuel g te <> OutOfFuel.
Proof.
  intros Hho Hwf Hf. unfold enough_fuel in Hf. unfold generate_lr1_parser.
  apply bind_no_fuel; [apply first_table_terminates; [apply hok_terms| |lia]; auto|]. intros tbl Ht.
  pose proof (generate_first_table_ok g ho (hok_terms ho Hho) _ _ Ht) as [HJ _].
  apply bind_no_fuel; [apply automaton_terminates; [apply hok_terms; auto|auto|apply justified_range; auto|auto|lia|lia]|].
  intros [states entries] _.
  apply bind_no_fuel; [apply semantic_table_no_fuel|]. intros [fns g'] _.
  apply bind_no_fuel; [apply build_table_no_fuel|]. intros tb _.
  apply bind_no_fuel.
  { unfold generate_action_array. destruct (Nat.eqb _ _); [|discriminate]. apply mapM_no_fuel. intro row.
    destruct (Nat.eqb _ _); [|discriminate]. apply mapM_no_fuel. intros [[s|nt p a|]|]; cbn; try discriminate.
    - apply bind_no_fuel; [apply u32_no_fuel|discriminate].
    - destruct (get_production g' nt p); [|discriminate]. apply bind_no_fuel; [apply u16_no_fuel|]. intros n _.
      apply bind_no_fuel; [apply u16_no_fuel|discriminate]. }
  intros act _. apply bind_no_fuel.
  { unfold generate_goto_vec. apply mapM_no_fuel. intro s. apply mapM_no_fuel. intro n. apply bind_no_fuel; [apply u32_no_fuel|discriminate]. }
  intros gv _. apply bind_no_fuel.
  { unfold generate_goto_array. apply mapM_no_fuel. intro row. apply mapM_no_fuel. intros [s|]; [|discriminate].
    apply bind_no_fuel; [apply u32_no_fuel|discriminate]. }
  intros gt _. apply bind_no_fuel; [unfold token_terminal_idx_fn_name; destruct (is_raw _); discriminate|]. intros u _. apply bind_no_fuel; [|discriminate].
  apply mapM_no_fuel. intros [nt s]. unfold gen_parser. apply bind_no_fuel; [apply u32_no_fuel|]. intros st _.
  destruct (get_non_terminal g' nt) as [n|]; [|discriminate]. destruct (is_raw (nt_name n)); [discriminate|].
  destruct (get_production g' nt 0), (variant_of (variant_names g) nt); discriminate.
Qed.
End Rest.

(** ** More fuel does not change a result *)
Definition stable {X} (r1 r2 : res X) : Prop := r1 <> OutOfFuel -> r2 = r1.

Lemma stable_refl {X} (r : res X) : stable r r.
Proof. intro; reflexivity. Qed.

Lemma bind_stable {X Y} (r1 r2 : res X) (k1 k2 : X -> res Y) :
  stable r1 r2 -> (forall x, stable (k1 x) (k2 x)) -> stable (bind r1 k1) (bind r2 k2).
Proof.
  intros H1 H2. destruct r1 as [x|p|]; cbn; intro H.
  - rewrite H1 by discriminate. cbn. apply H2; auto.
  - rewrite H1 by discriminate. reflexivity.
  - congruence.
Qed.

Lemma foldM_stable {X B} (f1 f2 : B -> X -> res B) l : (forall b x, stable (f1 b x) (f2 b x)) ->
  forall b, stable (foldM f1 l b) (foldM f2 l b).
Proof. intro H. induction l as [|x l IH]; intro b; [apply stable_refl|]. cbn. apply bind_stable; auto. Qed.

Section Stable.
Context {A : Type}.
Variable ho : hash_order.
Variable g : grammar A.

Lemma first_loop_stable f1 : forall f2 tbl, f1 <= f2 -> stable (first_loop ho f1 g tbl) (first_loop ho f2 g tbl).
Proof.
  induction f1 as [|f1 IH]; intros [|f2] tbl Hle; try lia; try (intro H; exfalso; apply H; reflexivity).
  cbn. destruct (first_pass ho g tbl) as [t u]. destruct u; [apply IH; lia|apply stable_refl].
Qed.

Lemma closure_loop_stable tbl f1 : forall f2 cl wl, f1 <= f2 ->
  stable (closure_loop ho f1 g tbl cl wl) (closure_loop ho f2 g tbl cl wl).
Proof.
  induction f1 as [|f1 IH]; intros f2 cl wl Hle.
  - destruct wl; [destruct f2; apply stable_refl|]. intro H. exfalso. apply H. reflexivity.
  - destruct f2 as [|f2]; [lia|]. destruct wl as [|it wl]; [apply stable_refl|]. cbn [closure_loop].
    destruct (closure_step ho g tbl it (cl, wl)) as [c w]. apply IH. lia.
Qed.

Lemma closure_stable tbl f1 f2 items : f1 <= f2 ->
  stable (compute_lr1_closure ho f1 g tbl items) (compute_lr1_closure ho f2 g tbl items).
Proof. intro H. apply bind_stable; [apply closure_loop_stable; auto|]. intro. apply stable_refl. Qed.

Lemma automaton_round_stable tbl f1 f2 states indices : f1 <= f2 ->
  stable (automaton_round ho f1 g tbl states indices) (automaton_round ho f2 g tbl states indices).
Proof.
  intro H. apply bind_stable; [|intro; apply stable_refl]. apply foldM_stable. intros acc [i s]. apply foldM_stable. intros acc' X.
  apply bind_stable; [apply closure_stable; auto|]. intro. apply stable_refl.
Qed.

Lemma automaton_loop_stable tbl f1 f2 n1 : f1 <= f2 -> forall n2 states indices, n1 <= n2 ->
  stable (automaton_loop ho n1 f1 g tbl states indices) (automaton_loop ho n2 f2 g tbl states indices).
Proof.
  intro H. induction n1 as [|n1 IH]; intros n2 states indices Hle; [intro K; exfalso; apply K; reflexivity|].
  destruct n2 as [|n2]; [lia|]. cbn [automaton_loop]. apply bind_stable; [apply automaton_round_stable; auto|].
  intros [[s ix] u]. destruct u; [apply IH; lia|apply stable_refl].
Qed.

Lemma automaton_stable tbl f1 f2 : f1 <= f2 ->
  stable (generate_lr1_automaton ho f1 g tbl) (generate_lr1_automaton ho f2 g tbl).
Proof.
  intro H. apply bind_stable.
  - apply foldM_stable. intros acc [nt N]. unfold add_entry. destruct (nt_public N); [|apply stable_refl].
    destruct (Nat.eqb _ 1); [|apply stable_refl]. apply bind_stable; [apply closure_stable; auto|]. intro. apply stable_refl.
  - intro e. apply bind_stable; [apply automaton_loop_stable; auto|]. intro. apply stable_refl.
Qed.

Lemma generate_stable f1 f2 te : f1 <= f2 ->
  stable (generate_lr1_parser ho f1 g te) (generate_lr1_parser ho f2 g te).
Proof.
  intro H. apply bind_stable; [apply first_loop_stable; auto|]. intro tbl.
  apply bind_stable; [apply automaton_stable; auto|]. intro. apply stable_refl.
Qed.
End Stable.

Theorem macro_stable {A} ho f1 f2 (items : list (grammar_item A)) : f1 <= f2 -> stable (macro ho f1 items) (macro ho f2 items).
Proof.
  intro H. apply bind_stable; [apply stable_refl|]. intro acc. destruct (ia_token acc); [|apply stable_refl].
  apply bind_stable; [apply stable_refl|]. intro g. apply generate_stable. auto.
Qed.

(** Macro expansion always comes to an end: with or without a panic, some amount of fuel is enough,
    and beyond it the result no longer depends on the fuel. *)
Theorem expansion_terminates {A} ho (items : list (grammar_item A)) : hash_order_ok ho ->
  exists fuel r, r <> OutOfFuel /\ forall fuel', fuel <= fuel' -> macro ho fuel' items = r.
Proof.
  intro Hho.
  assert (H : exists fuel, macro ho fuel items <> OutOfFuel).
  { unfold macro. destruct (foldM collect_item items {| ia_nts := []; ia_token := None; ia_state := None |}) as [acc|p|] eqn:E.
    - cbn. destruct (ia_token acc) as [te|]; [|exists 0; discriminate].
      pose proof (lower_spec (ia_nts acc) (te_conversions te)) as Hs.
      destruct (lower (ia_nts acc) (te_conversions te)) as [g|p|] eqn:Eg.
      + exists (enough_fuel g). cbn. destruct Hs as (ti & Hs). apply generate_lr1_parser_terminates; auto. eapply lowered_wf; eauto.
      + exists 0; discriminate.
      + exfalso. eapply lower_no_fuel; eauto.
    - exists 0; discriminate.
    - exfalso. revert E. apply foldM_no_fuel. intros acc gi _; unfold collect_item; destruct gi; destruct (ia_token acc), (ia_state acc); discriminate. }
  destruct H as (fuel & H). exists fuel, (macro ho fuel items). split; auto.
  intros fuel' Hle. apply macro_stable; auto.
Qed.

(** Items of states index existing productions, with the dot inside and a declared lookahead. *)
Theorem state_items_in_range {A} ho fuel (g : grammar A) tbl states entries : hash_order_ok ho -> wf_grammar g ->
  generate_first_table ho fuel g = Ok tbl -> generate_lr1_automaton ho fuel g tbl = Ok (states, entries) ->
  forall s st it, nth_error states s = Some st -> In it (st_items st) -> item_ok g it.
Proof.
  intros Hho Hwf Ht Ha s st it Hs Hit.
  pose proof (generate_first_table_ok g ho (hok_terms ho Hho) _ _ Ht) as [HJ _].
  pose proof (justified_range g Hwf _ HJ) as Hr.
  pose proof (generate_lr1_automaton_ok g tbl ho Hho Hwf _ _ _ Ha) as Haut.
  destruct (ao_reach _ _ _ _ Haut s) as (nt & e & pi & ss & Hin & Hp); [apply nth_error_Some; congruence|].
  revert st it Hs Hit. remember (s :: ss) as st0 eqn:E. revert s ss E.
  induction Hp as [|X pi s1 s2 ss0 Hp IH Htr]; intros s ss E st it Hs Hit; injection E as <- <-.
  - destruct (ao_entry _ _ _ _ Haut _ _ Hin) as (Hpub & se & Hse & Hei). rewrite Hs in Hse. injection Hse as <-.
    eapply entry_items_ok; eauto.
  - unfold trans in Htr. destruct (nth_error states s1) as [st1|] eqn:E1; [|discriminate].
    destruct (ao_goto _ _ _ _ Haut _ _ _ _ E1 Htr) as (s' & Hs' & Hgs & _). rewrite Hs in Hs'. injection Hs' as <-.
    eapply goto_set_items_ok; eauto.
Qed.
