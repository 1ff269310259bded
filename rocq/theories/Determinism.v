(** * Determinism: the result of expansion depends neither on hash iteration order nor on the fuel *)
From Verif Require Export GenShape MacroProofs.
From Coq Require Import NArith.

Definition agree {X} (R : X -> X -> Prop) (r1 r2 : res X) : Prop :=
  match r1, r2 with
  | OutOfFuel, _ | _, OutOfFuel => True
  | Ok x, Ok y => R x y
  | Panic p, Panic q => p = q
  | _, _ => False
  end.

Lemma agree_fuel_r {X} (R : X -> X -> Prop) r : agree R r OutOfFuel.
Proof. destruct r; exact Logic.I. Qed.

Lemma agree_refl {X} (R : X -> X -> Prop) r : (forall x, R x x) -> agree R r r.
Proof. destruct r; simpl; auto. Qed.

Lemma bind_agree {X Y} (R : X -> X -> Prop) (S : Y -> Y -> Prop) r1 r2 f h :
  agree R r1 r2 -> (forall x y, r1 = Ok x -> r2 = Ok y -> R x y -> agree S (f x) (h y)) -> agree S (bind r1 f) (bind r2 h).
Proof.
  destruct r1 as [x|p|], r2 as [y|q|]; simpl; intros H1 H2; auto; try contradiction.
  destruct (f x); exact Logic.I.
Qed.

Lemma foldM_agree {X B} (R : B -> B -> Prop) (f h : B -> X -> res B) l :
  (forall b b' x, In x l -> R b b' -> agree R (f b x) (h b' x)) ->
  forall b b', R b b' -> agree R (foldM f l b) (foldM h l b').
Proof.
  induction l as [|x l IH]; simpl; intros H b b' Hb; [exact Hb|].
  eapply bind_agree; [apply H; auto|]. intros c c' _ _ Hc. apply IH; auto.
Qed.

Lemma mapM_agree {X Y} (f h : X -> res Y) l :
  (forall x, In x l -> agree eq (f x) (h x)) -> agree eq (mapM f l) (mapM h l).
Proof.
  induction l as [|x l IH]; simpl; intro H; [reflexivity|].
  eapply bind_agree; [apply H; auto|]. intros y y' _ _ <-.
  eapply bind_agree; [apply IH; auto|]. intros ys ys' _ _ <-. reflexivity.
Qed.

(** ** FIRST *)
Definition teq (t1 t2 : first_table) : Prop :=
  List.length t1 = List.length t2 /\
  forall n, flag t1 n = flag t2 n /\ forall t, In t (terms t1 n) <-> In t (terms t2 n).
Definition steq (s1 s2 : first_table * bool) : Prop := teq (fst s1) (fst s2) /\ snd s1 = snd s2.

Lemma teq_refl t : teq t t.
Proof. split; [reflexivity|]. intro n; split; [reflexivity|tauto]. Qed.

Lemma set_mem_ext x a b : (forall y : nat, In y a <-> In y b) -> set_mem Nat.eqb x a = set_mem Nat.eqb x b.
Proof.
  intro H. destruct (set_mem Nat.eqb x a) eqn:E.
  - symmetry. apply (set_mem_In Nat.eqb Nat.eqb_eq). apply H. apply (set_mem_In Nat.eqb Nat.eqb_eq). auto.
  - symmetry. apply (set_mem_not_In Nat.eqb Nat.eqb_eq). rewrite <- H. apply (set_mem_not_In Nat.eqb Nat.eqb_eq). auto.
Qed.

Lemma terms_add tbl nt t n : terms (fst (add_first tbl nt t)) n =
  if Nat.eqb nt n && Nat.ltb n (List.length tbl) then set_add Nat.eqb t (terms tbl n) else terms tbl n.
Proof. unfold terms, add_first, get_first. simpl. rewrite nth_update_nth. destruct (_ && _); reflexivity. Qed.
Lemma flag_add tbl nt t n : flag (fst (add_first tbl nt t)) n = flag tbl n.
Proof. unfold flag, add_first, get_first. simpl. rewrite nth_update_nth. destruct (_ && _); reflexivity. Qed.
Lemma terms_empty tbl nt n : terms (fst (set_empty tbl nt)) n = terms tbl n.
Proof. unfold terms, set_empty, get_first. simpl. rewrite nth_update_nth. destruct (_ && _); reflexivity. Qed.
Lemma flag_empty tbl nt n : flag (fst (set_empty tbl nt)) n =
  if Nat.eqb nt n && Nat.ltb n (List.length tbl) then true else flag tbl n.
Proof. unfold flag, set_empty, get_first. simpl. rewrite nth_update_nth. destruct (_ && _); reflexivity. Qed.

Lemma add_first_teq t1 t2 nt t : teq t1 t2 -> steq (add_first t1 nt t) (add_first t2 nt t).
Proof.
  intros [L H]. split.
  - split; [unfold add_first; simpl; rewrite !update_nth_length; auto|].
    intro n. rewrite !flag_add, !terms_add, L. split; [apply H|]. intro x.
    destruct (_ && _); [|apply H]. rewrite !(set_add_In Nat.eqb Nat.eqb_eq). rewrite (proj2 (H n) x). tauto.
  - unfold add_first; simpl. f_equal. apply set_mem_ext. apply H.
Qed.

Lemma set_empty_teq t1 t2 nt : teq t1 t2 -> steq (set_empty t1 nt) (set_empty t2 nt).
Proof.
  intros [L H]. split.
  - split; [unfold set_empty; simpl; rewrite !update_nth_length; auto|].
    intro n. rewrite !flag_empty, !terms_empty, L. split; [|apply H].
    destruct (_ && _); [reflexivity|apply H].
  - unfold set_empty; simpl. f_equal. apply H.
Qed.

Lemma add_all_spec nt ts : forall st,
  List.length (fst (add_all nt ts st)) = List.length (fst st) /\
  (forall n, flag (fst (add_all nt ts st)) n = flag (fst st) n) /\
  (forall n t, In t (terms (fst (add_all nt ts st)) n) <->
     In t (terms (fst st) n) \/ n = nt /\ nt < List.length (fst st) /\ In t ts) /\
  (snd (add_all nt ts st) = true <-> snd st = true \/ exists t, In t ts /\ ~ In t (terms (fst st) nt)).
Proof.
  induction ts as [|t0 ts IH]; intros [tbl upd].
  - simpl. split; [auto|]. split; [auto|]. split.
    + intros n t. split; [auto|]. intros [H|(_ & _ & [])]; auto.
    + split; [auto|]. intros [H|(t & [] & _)]; auto.
  - cbn [add_all]. destruct (add_first tbl nt t0) as [tbl' b] eqn:E.
    destruct (IH (tbl', upd || b)) as (I1 & I2 & I3 & I4). cbn [fst snd] in *.
    assert (Et : tbl' = fst (add_first tbl nt t0)) by (rewrite E; reflexivity).
    assert (Eb : b = snd (add_first tbl nt t0)) by (rewrite E; reflexivity).
    assert (El : List.length tbl' = List.length tbl) by (rewrite Et; unfold add_first; simpl; apply update_nth_length).
    split; [congruence|]. split; [intro n; rewrite I2, Et; apply flag_add|]. split.
    + intros n t. rewrite I3, El, Et, terms_add.
      destruct (Nat.eqb nt n && Nat.ltb n (List.length tbl)) eqn:Ec.
      * apply andb_true_iff in Ec. destruct Ec as [Ec1 Ec2]. apply Nat.eqb_eq in Ec1. apply Nat.ltb_lt in Ec2. subst n.
        rewrite (set_add_In Nat.eqb Nat.eqb_eq). simpl. split; [intros [[->|H]|H]|intros [H|(_ & _ & [H|H])]]; subst; tauto.
      * apply andb_false_iff in Ec. rewrite Nat.eqb_neq, Nat.ltb_ge in Ec. simpl.
        split; [intros [H|(-> & H & H')]; auto; tauto|].
        intros [H|(-> & H & [H'|H'])]; auto. exfalso. destruct Ec as [Ec|Ec]; [congruence|lia].
    + rewrite I4. rewrite orb_true_iff. unfold add_first in Eb. simpl in Eb. fold (terms tbl nt) in Eb.
      assert (Hb : b = true <-> ~ In t0 (terms tbl nt)).
      { rewrite Eb. rewrite negb_true_iff. apply (set_mem_not_In Nat.eqb Nat.eqb_eq). }
      rewrite Hb, Et, terms_add. rewrite Nat.eqb_refl. simpl. destruct (Nat.ltb nt (List.length tbl)).
      * split.
        -- intros [[H|H]|(t & H & H1)]; auto; [right; exists t0; auto|].
           rewrite (set_add_In Nat.eqb Nat.eqb_eq) in H1. right. exists t. tauto.
        -- intros [H|(t & [<-|H] & H1)]; auto. destruct (Nat.eq_dec t t0) as [->|Hne]; auto.
           right. exists t. split; auto. rewrite (set_add_In Nat.eqb Nat.eqb_eq). tauto.
      * split.
        -- intros [[H|H]|(t & H & H1)]; auto; right; eauto.
        -- intros [H|(t & [<-|H] & H1)]; auto. right; eauto.
Qed.

Lemma bool_ext (a b : bool) : (a = true <-> b = true) -> a = b.
Proof. destruct a, b; intro H; auto; [symmetry; apply H; auto | apply H; auto]. Qed.

Lemma add_all_teq nt ts1 ts2 s1 s2 : (forall t, In t ts1 <-> In t ts2) -> steq s1 s2 -> steq (add_all nt ts1 s1) (add_all nt ts2 s2).
Proof.
  intros Ht [[L H] U].
  destruct (add_all_spec nt ts1 s1) as (A1 & A2 & A3 & A4). destruct (add_all_spec nt ts2 s2) as (B1 & B2 & B3 & B4).
  split.
  - split; [congruence|]. intro n. rewrite A2, B2. split; [apply H|]. intro t. rewrite A3, B3, L, (proj2 (H n) t), Ht. tauto.
  - apply bool_ext. rewrite A4, B4, U. split; (intros [?|(t & H1 & H2)]; [auto|right; exists t; split; [apply Ht; auto|]]);
      rewrite ?(proj2 (H nt) t) in *; auto.
Qed.

Section First2.
Context {A : Type}.
Variables ho1 ho2 : hash_order.
Hypothesis Hho1 : hash_order_ok ho1.
Hypothesis Hho2 : hash_order_ok ho2.
Variable g : grammar A.

Lemma first_symbols_teq nt syms : forall s1 s2, steq s1 s2 -> steq (first_symbols ho1 nt syms s1) (first_symbols ho2 nt syms s2).
Proof.
  induction syms as [|[y|t] rest IH]; intros [t1 u1] [t2 u2] Hs; cbn [first_symbols].
  - destruct Hs as [Ht Hu]. simpl in *. destruct (set_empty_teq _ _ nt Ht) as [H _]. split; auto.
  - destruct Hs as [Ht Hu]. pose proof Ht as [L H]. cbn [fst snd] in *.
    change (fs_empty (get_first t1 y)) with (flag t1 y). change (fs_empty (get_first t2 y)) with (flag t2 y).
    rewrite (proj1 (H y)). destruct (flag t2 y).
    + apply IH. split; auto.
    + apply add_all_teq; [|split; auto]. intro t.
      split; intro Hi.
      * apply (Permutation_in _ (Permutation_sym (hok_terms _ Hho2 _))). apply (Permutation_in _ (hok_terms _ Hho1 _)) in Hi.
        apply (proj2 (H y) t). exact Hi.
      * apply (Permutation_in _ (Permutation_sym (hok_terms _ Hho1 _))). apply (Permutation_in _ (hok_terms _ Hho2 _)) in Hi.
        apply (proj2 (H y) t). exact Hi.
  - destruct Hs as [Ht Hu]. cbn [fst snd] in *. pose proof (add_first_teq _ _ nt t Ht) as [H1 H2].
    destruct (add_first t1 nt t) as [a b], (add_first t2 nt t) as [a' b']. cbn [fst snd] in *. split; cbn [fst snd]; [auto|congruence].
Qed.

Lemma first_production_teq nt (p : production A) s1 s2 : steq s1 s2 -> steq (first_production ho1 nt s1 p) (first_production ho2 nt s2 p).
Proof.
  intro Hs. unfold first_production. apply first_symbols_teq. destruct (rhs p); auto.
  destruct s1 as [t1 u1], s2 as [t2 u2]. destruct Hs as [Ht Hu]. cbn [fst snd] in *.
  pose proof (set_empty_teq _ _ nt Ht) as [H1 H2].
  destruct (set_empty t1 nt) as [a b], (set_empty t2 nt) as [a' b']. cbn [fst snd] in *. split; cbn [fst snd]; [auto|congruence].
Qed.

Lemma first_pass_teq t1 t2 : teq t1 t2 -> steq (first_pass ho1 g t1) (first_pass ho2 g t2).
Proof.
  intro Ht. unfold first_pass. assert (Hs : steq (t1, false) (t2, false)) by (split; auto).
  revert Hs. generalize (t1, false), (t2, false). induction (non_terminal_indices g) as [|[nt N] l IH]; intros s1 s2 Hs; [exact Hs|].
  cbn [fold_left]. apply IH. clear IH. revert s1 s2 Hs. induction (nt_productions N) as [|p ps IH]; intros s1 s2 Hs; [exact Hs|].
  cbn [fold_left]. apply IH. apply first_production_teq; auto.
Qed.

Lemma first_loop_agree f1 : forall f2 t1 t2, teq t1 t2 -> agree teq (first_loop ho1 f1 g t1) (first_loop ho2 f2 g t2).
Proof.
  induction f1 as [|f1 IH]; intros f2 t1 t2 Ht; [exact Logic.I|].
  destruct f2 as [|f2]; [apply agree_fuel_r|]. cbn [first_loop].
  pose proof (first_pass_teq _ _ Ht) as [H1 H2].
  destruct (first_pass ho1 g t1) as [a b], (first_pass ho2 g t2) as [a' b']. cbn [fst snd] in *. subst b'.
  destruct b; [apply IH; auto|exact H1].
Qed.

Lemma first_table_agree f1 f2 : agree teq (generate_first_table ho1 f1 g) (generate_first_table ho2 f2 g).
Proof. apply first_loop_agree, teq_refl. Qed.

(** ** Closures *)
Variables tbl1 tbl2 : first_table.
Hypothesis Hteq : teq tbl1 tbl2.

Lemma closure_loop_no_panic (ho : hash_order) f tbl : forall cl wl p, closure_loop ho f g tbl cl wl <> Panic p.
Proof.
  induction f as [|f IH]; intros cl [|it wl] p; cbn; try discriminate.
  destruct (closure_step ho g tbl it (cl, wl)) as [cl' wl']. apply IH.
Qed.

Lemma closure_agree f1 f2 items :
  agree eq (compute_lr1_closure ho1 f1 g tbl1 items) (compute_lr1_closure ho2 f2 g tbl2 items).
Proof.
  destruct (compute_lr1_closure ho1 f1 g tbl1 items) as [c1|p|] eqn:E1;
  destruct (compute_lr1_closure ho2 f2 g tbl2 items) as [c2|q|] eqn:E2; try exact Logic.I.
  - cbn. destruct (compute_lr1_closure_spec g tbl1 ho1 Hho1 _ _ _ E1) as [S1 M1].
    destruct (compute_lr1_closure_spec g tbl2 ho2 Hho2 _ _ _ E2) as [S2 M2].
    apply sorted_ext; auto. intro x. rewrite M1, M2.
    assert (Hfl : forall l la y, first_la tbl1 l la y <-> first_la tbl2 l la y).
    { destruct Hteq as [_ H]. split; induction 1.
      - constructor.
      - constructor.
      - constructor. apply H; auto.
      - apply fl_skip; auto. rewrite <- (proj1 (H n)); auto.
      - constructor.
      - constructor.
      - constructor. apply H; auto.
      - apply fl_skip; auto. rewrite (proj1 (H n)); auto. }
    assert (Hsu : forall a b, succ_item g tbl1 a b <-> succ_item g tbl2 a b).
    { intros a b. split; intros (n & p & pr & la & H1 & H2 & H3 & H4); exists n, p, pr, la; repeat split; auto; apply Hfl; auto. }
    split; induction 1; try (apply ic_kernel; auto; fail); eapply ic_step; eauto; apply Hsu; auto.
  - exfalso. unfold compute_lr1_closure in E2. destruct (closure_loop _ _ _ _ _ _) eqn:E; try discriminate. eapply closure_loop_no_panic; eauto.
  - exfalso. unfold compute_lr1_closure in E1. destruct (closure_loop _ _ _ _ _ _) eqn:E; try discriminate. eapply closure_loop_no_panic; eauto.
  - exfalso. unfold compute_lr1_closure in E1. destruct (closure_loop _ _ _ _ _ _) eqn:E; try discriminate. eapply closure_loop_no_panic; eauto.
Qed.

(** ** Automaton *)
Lemma round_symbol_agree f1 f2 i items acc X :
  agree eq (round_symbol ho1 f1 g tbl1 i items acc X) (round_symbol ho2 f2 g tbl2 i items acc X).
Proof.
  unfold round_symbol. eapply bind_agree; [apply closure_agree|]. intros gt gt' _ _ <-. apply agree_refl. auto.
Qed.

Lemma automaton_round_agree f1 f2 states indices :
  agree eq (automaton_round ho1 f1 g tbl1 states indices) (automaton_round ho2 f2 g tbl2 states indices).
Proof.
  unfold automaton_round. eapply bind_agree.
  - apply (foldM_agree eq); [|reflexivity]. intros b b' x _ <-. unfold round_state.
    apply (foldM_agree eq); [|reflexivity]. intros c c' X _ <-. apply round_symbol_agree.
  - intros r r' _ _ <-. apply agree_refl. auto.
Qed.

Lemma automaton_loop_agree n1 : forall n2 f1 f2 states indices,
  agree eq (automaton_loop ho1 n1 f1 g tbl1 states indices) (automaton_loop ho2 n2 f2 g tbl2 states indices).
Proof.
  induction n1 as [|n1 IH]; intros n2 f1 f2 states indices; [exact Logic.I|].
  destruct n2 as [|n2]; [apply agree_fuel_r|]. cbn [automaton_loop].
  eapply bind_agree; [apply automaton_round_agree|]. intros [[s ix] u] y _ _ <-. destruct u; [apply IH|reflexivity].
Qed.

Lemma automaton_agree f1 f2 : agree eq (generate_lr1_automaton ho1 f1 g tbl1) (generate_lr1_automaton ho2 f2 g tbl2).
Proof.
  unfold generate_lr1_automaton. eapply bind_agree.
  - apply (foldM_agree eq); [|reflexivity]. intros b b' [nt N] _ <-. unfold add_entry.
    destruct (nt_public N); [|reflexivity]. destruct (Nat.eqb _ 1); [|reflexivity].
    eapply bind_agree; [apply closure_agree|]. intros i0 i1 _ _ <-. reflexivity.
  - intros e e' _ _ <-. eapply bind_agree; [apply automaton_loop_agree|]. intros s s' _ _ <-. reflexivity.
Qed.
End First2.

(** ** Table *)
Definition tbeq {A} (a b : lr_table A) : Prop :=
  tb_action a = tb_action b /\ tb_n_states a = tb_n_states b /\ forall s n, get_goto a s n = get_goto b s n.

Section Table2.
Context {A : Type}.
Variables ho1 ho2 : hash_order.
Hypothesis Hho1 : hash_order_ok ho1.
Hypothesis Hho2 : hash_order_ok ho2.
Variable g : grammar A.

Lemma tbeq_action (a b : lr_table A) s la : tbeq a b -> get_action a s la = get_action b s la.
Proof. intros (H & _). unfold get_action. rewrite H. reflexivity. Qed.

Lemma insert_action_tbeq (a b : lr_table A) s la x : tbeq a b -> tbeq (insert_action a s la x) (insert_action b s la x).
Proof. intros (H1 & H2 & H3). unfold insert_action. split; [cbn; rewrite H1; auto|]. split; cbn; auto. Qed.

Lemma add_gotos_tbeq s l1 l2 (a b : lr_table A) : NoDup (map fst l1) -> Permutation l1 l2 -> tbeq a b ->
  tbeq (add_gotos s l1 a) (add_gotos s l2 b).
Proof.
  intros Hn HP (H1 & H2 & H3).
  assert (Hn2 : NoDup (map fst l2)) by (eapply Permutation_NoDup; [apply Permutation_map; eauto|auto]).
  split; [rewrite !add_gotos_action; auto|]. split; [rewrite !add_gotos_n; auto|].
  intros s' n. rewrite !get_goto_add_gotos by auto. rewrite (map_get_perm symbol_eqb symbol_eqb_spec _ l1 l2) by auto. rewrite H3. reflexivity.
Qed.

Lemma table_item_agree s st tb tb' it : NoDup (map fst (st_goto st)) -> tbeq tb tb' ->
  agree tbeq (table_item ho1 g s st tb it) (table_item ho2 g s st tb' it).
Proof.
  intros Hn Ht. unfold table_item. eapply bind_agree with (R := tbeq).
  - destruct (next_terminal g it) as [t|]; [|exact Ht]. destruct (map_get symbol_eqb (T t) (st_goto st)) as [n|]; [|exact Ht].
    unfold add_shift. rewrite (tbeq_action _ _ _ _ Ht). destruct (get_action tb' s (Some t)) as [[s'|nt p a|]|]; try reflexivity.
    + destruct (Nat.eqb s' n); [|reflexivity]. cbn. apply insert_action_tbeq; auto.
    + cbn. apply insert_action_tbeq; auto.
    + cbn. apply insert_action_tbeq; auto.
  - intros a b _ _ Hab. destruct (get_non_terminal g (it_nt it)) as [N|]; [|reflexivity].
    eapply bind_agree with (R := tbeq).
    + destruct (is_complete g it && negb (nt_public N)); [|exact Hab].
      destruct (get_production g (it_nt it) (it_prod it)) as [pr|]; [|reflexivity].
      unfold add_reduce. rewrite (tbeq_action _ _ _ _ Hab). destruct (get_action b s (it_la it)) as [[s'|nt p x|]|]; try reflexivity.
      cbn. apply insert_action_tbeq; auto.
    + intros c d _ _ Hcd. eapply bind_agree with (R := tbeq).
      * destruct (_ && _); [|exact Hcd]. destruct (Nat.eqb _ 1); [|reflexivity]. cbn. apply insert_action_tbeq; auto.
      * intros c1 d1 _ _ Hc. cbn. apply add_gotos_tbeq; auto.
        -- eapply Permutation_NoDup; [apply Permutation_map, Permutation_sym, hok_gotos; auto|auto].
        -- eapply Permutation_trans; [apply hok_gotos; auto|apply Permutation_sym, hok_gotos; auto].
Qed.

Lemma build_table_agree states : (forall s st, nth_error states s = Some st -> NoDup (map fst (st_goto st))) ->
  agree tbeq (build_lr1_table ho1 g states) (build_lr1_table ho2 g states).
Proof.
  intro Hn. unfold build_lr1_table. apply foldM_agree.
  - intros b b' [s st] Hin Hb. apply enumerate_nth_error in Hin. unfold table_state. apply foldM_agree; auto.
    intros c c' it _ Hc. apply table_item_agree; auto. cbn. eapply Hn; eauto.
  - split; auto.
Qed.
End Table2.

(** ** The whole of code generation *)
Definition same_module {A} (a b : generated A) : Prop :=
  gp_action a = gp_action b /\ gp_goto a = gp_goto b /\ gp_sem_actions a = gp_sem_actions b /\
  gp_expected a = gp_expected b /\ gp_terminal_strs a = gp_terminal_strs b /\ gp_n_terminals a = gp_n_terminals b /\
  Permutation (gp_parsers a) (gp_parsers b) /\ gp_conversions a = gp_conversions b.

Lemma mapM_no_fuel {X Y} (f : X -> res Y) l : (forall x, f x <> OutOfFuel) -> mapM f l <> OutOfFuel.
Proof.
  intro H. induction l as [|x l IH]; cbn; [discriminate|]. destruct (f x) as [y|p|] eqn:E; cbn; try discriminate; [|exfalso; apply (H _ E)].
  destruct (mapM f l); cbn; try discriminate. auto.
Qed.

Lemma mapM_perm_agree {X Y} (f : X -> res Y) (p0 : panic) l1 l2 : Permutation l1 l2 ->
  (forall x, In x l1 -> (exists y, f x = Ok y) \/ f x = Panic p0) ->
  agree (@Permutation Y) (mapM f l1) (mapM f l2).
Proof.
  induction 1 as [|x l1 l2 HP IH|x y l|l1 l2 l3 H1 IH1 H2 IH2]; intro Hf.
  - cbn. constructor.
  - cbn. eapply bind_agree; [apply (agree_refl eq); auto|]. intros y y' _ _ <-.
    eapply bind_agree; [apply IH; intros; apply Hf; right; auto|]. intros ys ys' _ _ Hy. cbn. constructor; auto.
  - cbn. destruct (Hf y) as [(y' & ->)| ->]; [left; auto| |]; (destruct (Hf x) as [(x' & ->)| ->]; [right; left; auto| |]); cbn; auto.
    + destruct (mapM f l); cbn; auto. constructor.
  - assert (Hf2 : forall x, In x l2 -> (exists y, f x = Ok y) \/ f x = Panic p0).
    { intros x Hx. apply Hf. apply (Permutation_in _ (Permutation_sym H1)); auto. }
    specialize (IH1 Hf). specialize (IH2 Hf2).
    assert (Hnf : mapM f l2 <> OutOfFuel).
    { clear -Hf2. induction l2 as [|x l IH]; cbn; [discriminate|].
      destruct (Hf2 x (or_introl eq_refl)) as [(y & ->)| ->]; cbn; [|discriminate].
      assert (mapM f l <> OutOfFuel) by (apply IH; intros; apply Hf2; right; auto).
      destruct (mapM f l); cbn; congruence. }
    destruct (mapM f l1), (mapM f l2), (mapM f l3); cbn in *; auto; try contradiction; try congruence.
    eapply Permutation_trans; eauto.
Qed.

Section Gen2.
Variables ho1 ho2 : hash_order.
Hypothesis Hho1 : hash_order_ok ho1.
Hypothesis Hho2 : hash_order_ok ho2.

(** The loop of [generate_goto_vec] converts every non-terminal index once per state. *)
Lemma goto_vec_u32 (tb : lr_table nat) n gv : generate_goto_vec tb n = Ok gv -> 0 < tb_n_states tb ->
  forall k, k < n -> u32_try_from k = Ok k.
Proof.
  intros H Hs k Hk. unfold generate_goto_vec in H.
  assert (H0 : nth_error (seq 0 (tb_n_states tb)) 0 = Some 0) by (rewrite nth_error_seq; destruct (Nat.ltb_spec 0 (tb_n_states tb)); [reflexivity|lia]).
  destruct (nth_error_mapM _ _ _ _ _ H H0) as (row & _ & Hr). cbn beta in Hr.
  assert (H1 : nth_error (seq 0 n) k = Some k) by (rewrite nth_error_seq; destruct (Nat.ltb_spec k n); [reflexivity|lia]).
  destruct (nth_error_mapM _ _ _ _ _ Hr H1) as (x & _ & Hx). cbn beta in Hx.
  unfold u32_try_from in *. destruct (_ <? _)%N; [reflexivity|discriminate].
Qed.

Theorem generate_lr1_parser_agree {A} f1 f2 (g : grammar A) te : wf_grammar g ->
  agree same_module (generate_lr1_parser ho1 f1 g te) (generate_lr1_parser ho2 f2 g te).
Proof.
  intro Hwf. unfold generate_lr1_parser.
  eapply bind_agree; [apply first_table_agree; auto|]. intros tbl1 tbl2 E1 E2 Ht.
  eapply bind_agree; [apply automaton_agree; auto|]. intros [states entries] y Ea1 Ea2 <-.
  pose proof (generate_lr1_automaton_ok g tbl1 ho1 Hho1 Hwf _ _ _ Ea1) as Haut.
  eapply bind_agree; [apply (agree_refl eq); auto|]. intros [fns g'] y Es _ <-.
  pose proof (generate_semantic_action_table_spec _ _ _ _ Es) as Hgo.
  eapply bind_agree; [apply build_table_agree; auto; intros; eapply ao_nodup; eauto|]. intros tb tb' Etb _ Htb.
  pose proof Htb as (T1 & T2 & T3).
  assert (Hv : action_table_vec g' tb = action_table_vec g' tb').
  { unfold action_table_vec, get_action. rewrite T1, T2. reflexivity. }
  rewrite Hv, T2. eapply bind_agree; [apply (agree_refl eq); auto|]. intros ar ar' _ _ <-.
  eapply bind_agree with (R := eq).
  { unfold generate_goto_vec. rewrite T2. apply mapM_agree. intros s _. apply mapM_agree. intros n _.
    eapply bind_agree; [apply (agree_refl eq); auto|]. intros n1 n2 _ _ <-. cbn. rewrite T3. reflexivity. }
  intros gv gv' Egv _ <-. eapply bind_agree; [apply (agree_refl eq); auto|]. intros gt gt' _ _ <-.
  eapply bind_agree; [apply (agree_refl eq); auto|]. intros u u' _ _ _.
  eapply bind_agree with (R := @Permutation parser_struct).
  { apply mapM_perm_agree with (p0 := PRawName).
    - eapply Permutation_trans; [apply hok_entries; auto|apply Permutation_sym, hok_entries; auto].
    - intros [nt e] Hin. apply (Permutation_in _ (hok_entries _ Hho1 _)) in Hin.
      destruct (ao_entry _ _ _ _ Haut _ _ Hin) as ((N & HN & Hp) & _).
      destruct (wfg_pub g Hwf _ _ HN Hp) as (q & m & Hq & _).
      destruct (go_nt _ _ _ _ Hgo _ _ HN) as (N' & HN' & _).
      destruct (go_prod _ _ _ _ Hgo nt 0 q) as (q' & f & Hq' & _).
      { unfold get_production. rewrite HN, Hq. reflexivity. }
      destruct (variant_defined _ _ _ HN) as (v & Hv').
      assert (He : u32_try_from e = Ok e).
      { pose proof (ao_entry_lt _ _ _ _ Haut _ _ Hin) as Hlt. destruct (ao_entry _ _ _ _ Haut _ _ Hin) as (_ & s0 & Hs0 & _).
        rewrite <- (go_len _ _ _ _ Hgo) in Hlt. apply (goto_vec_u32 tb (n_non_terminals g') gv Egv); auto.
        pose proof (automaton_states_ok _ _ _ _ _ _ _ Hwf Hgo Haut) as Hso.
        destruct (build_lr1_table_spec g' ho1 Hho1 states Hso) as (B1 & _ & _). destruct (B1 _ Etb) as (_ & Htab).
        rewrite (to_n _ _ _ Htab). assert (e < List.length states) by (apply nth_error_Some; congruence). lia. }
      unfold gen_parser. rewrite He, HN', Hq', Hv'. cbn [bind]. destruct (is_raw _); eauto. }
  intros ps ps' _ _ Hps. cbn. unfold same_module; cbn. repeat (split; auto).
  unfold expected_state_tokens, get_action. rewrite T1, T2. reflexivity.
Qed.

(** Results of expansion agree, whatever the iteration orders. *)
Theorem macro_agree {A} f1 f2 (items : list (grammar_item A)) :
  agree same_module (macro ho1 f1 items) (macro ho2 f2 items).
Proof.
  unfold macro. eapply bind_agree; [apply (agree_refl eq); auto|]. intros acc acc' _ _ <-.
  destruct (ia_token acc) as [te|]; [|reflexivity].
  eapply bind_agree; [apply (agree_refl eq); auto|]. intros g g' Hg _ <-.
  apply generate_lr1_parser_agree. pose proof (lower_spec (ia_nts acc) (te_conversions te)) as Hs. rewrite Hg in Hs.
  destruct Hs as (ti & Hs). eapply lowered_wf; eauto.
Qed.
End Gen2.
