(** * PropertiesLr0: C78, the LR(0) automaton of src/lr0.rs

    Vocabulary: Lr0Spec.v ([rightmost_valid g gamma n p k]: Knuth's valid items, by rightmost derivations;
    [lr0_valid], the same by induction), GSpec.v (derivations).  The file is not compiled into the macro (src/lib.rs:15). *)
From Verif Require Import Lr0Proofs LowerProofs Decide Grammars PropertiesGen Findings PropertiesFollow.
From Verif Require Export Lr0Spec Lr0.
Local Open Scope string_scope. Local Open Scope list_scope.

(** The state reached from state [s] by the symbols [gamma]. *)
Fixpoint reads (states : list lr1_state) (s : nat) (gamma : list symbol) : option nat :=
  match gamma with
  | [] => Some s
  | X :: gamma' =>
      match nth_error states s with
      | Some st => match map_get symbol_eqb X (st_goto st) with Some s' => reads states s' gamma' | None => None end
      | None => None
      end
  end.
(** The LR(0) items of a state: non-terminal, production, cursor. *)
Definition state_item (states : list lr1_state) (s n p k : nat) : Prop :=
  exists st, nth_error states s = Some st /\ In {| it_nt := n; it_prod := p; it_cursor := k; it_la := None |} (st_items st).

Section Any.
Context {A : Type}.
Variable g : grammar A.

Lemma reads_app states gamma gamma' : forall s, reads states s (gamma ++ gamma') =
  match reads states s gamma with Some s' => reads states s' gamma' | None => None end.
Proof.
  induction gamma as [|X gamma IH]; intro s; cbn; [reflexivity|]. destruct (nth_error states s) as [st|]; [|reflexivity].
  destruct (map_get symbol_eqb X (st_goto st)); [apply IH|reflexivity].
Qed.

Section Result.
Variables (ho : hash_order) (hs : list symbol -> list symbol) (fuel : nat) (states : list lr1_state).
Hypothesis Hho : hash_order_ok ho.
Hypothesis Hhs : forall l, Permutation (hs l) l.
Hypothesis Ha : compute_lr0_automaton ho hs fuel g = Ok states.

Lemma reads_items gamma : forall s, reads states 0 gamma = Some s -> exists st, nth_error states s = Some st /\ items_for g gamma (st_items st).
Proof.
  destruct (automaton0_ok g ho hs Hho Hhs fuel states Ha) as (ix & [I1 I2 I3 I4 I5 I6 I7]). cbn [la_states la_indices] in *.
  induction gamma as [|X gamma IH] using rev_ind; intros s H.
  - cbn in H. injection H as <-. exact I2.
  - rewrite reads_app in H. destruct (reads states 0 gamma) as [s1|]; [|discriminate]. destruct (IH s1 eq_refl) as (st & H1 & H2). cbn in H.
    rewrite H1 in H. destruct (map_get symbol_eqb X (st_goto st)) as [j|] eqn:E; [|discriminate]. injection H as <-.
    destruct (I4 _ _ _ _ H1 E) as (s' & H3 & H4). exists s'. auto.
Qed.
Lemma valid_reads gamma n p k : lr0_valid g gamma n p k -> exists s, reads states 0 gamma = Some s.
Proof.
  destruct (automaton0_ok g ho hs Hho Hhs fuel states Ha) as (ix & [I1 I2 I3 I4 I5 I6 I7]). cbn [la_states la_indices] in *.
  induction 1 as [pr H|gamma n p k pr m q pr' Hv IH Hp Hn Hq|gamma n p k pr X Hv IH Hp Hn]; [exists 0; reflexivity|exact IH|].
  destruct IH as (s & Hs). destruct (reads_items gamma s Hs) as (st & H1 & _ & H2).
  destruct (I6 s st {| it_nt := n; it_prod := p; it_cursor := k; it_la := None |} X H1) as [[]|[(r & K & _)|(j & K)]]; [apply H2; auto|unfold next_symbol, item_rhs; cbn; rewrite Hp; exact Hn|discriminate|].
  exists j. rewrite reads_app, Hs. cbn. rewrite H1, K. reflexivity.
Qed.

(** The state reached by [gamma] has exactly the items valid for [gamma]. *)
Theorem c78_states gamma s n p k : reads states 0 gamma = Some s -> state_item states s n p k <-> lr0_valid g gamma n p k.
Proof.
  intro Hr. destruct (reads_items gamma s Hr) as (st & H1 & _ & H2). unfold state_item. rewrite H1. split.
  - intros (st' & E & Hin). injection E as <-. apply H2 in Hin. apply Hin.
  - intro Hv. exists st. split; auto. apply H2. auto.
Qed.
(** [gamma] reaches a state iff an item is valid for it. *)
Theorem c78_paths gamma : (exists s, reads states 0 gamma = Some s) <-> exists n p k, lr0_valid g gamma n p k.
Proof.
  split; [|intros (n & p & k & H); eapply valid_reads; eauto].
  intros (s & Hs). destruct (reads_items gamma s Hs) as (st & H1 & H2 & H3). destruct (automaton0_ok g ho hs Hho Hhs fuel states Ha) as (ix & HI).
  destruct (i0_reach _ _ _ _ HI _ _ H1) as (Hne & _). destruct (st_items st) as [|it l]; [congruence|].
  exists (it_nt it), (it_prod it), (it_cursor it). apply (H3 it). left; auto.
Qed.
(** Items have no lookahead, every state is reached, and no two states have the same items. *)
Theorem c78_reached s st : nth_error states s = Some st -> (exists gamma, reads states 0 gamma = Some s) /\ forall it, In it (st_items st) -> it_la it = None.
Proof.
  intro Hs. destruct (automaton0_ok g ho hs Hho Hhs fuel states Ha) as (ix & HI).
  destruct (i0_reach _ _ _ _ HI _ _ Hs) as (Hne & gamma & Hg & Hgi). split; [|intros it Hi; apply Hgi; auto]. destruct (st_items st) as [|it l] eqn:E; [congruence|].
  assert (Hv : exists n p k, lr0_valid g gamma n p k) by (exists (it_nt it), (it_prod it), (it_cursor it); apply (Hgi it); left; auto).
  destruct Hv as (n & p & k & Hv). destruct (valid_reads _ _ _ _ Hv) as (s' & Hr). exists gamma. rewrite Hr. f_equal.
  destruct (reads_items _ _ Hr) as (st' & H1 & H2). assert (Heq : st_items st' = st_items st) by (rewrite E; apply (items_for_unique g gamma); [auto|split; auto]).
  pose proof (ix_get _ _ (i0_idx _ _ _ _ HI) _ _ H1) as K1. pose proof (ix_get _ _ (i0_idx _ _ _ _ HI) _ _ Hs) as K2. rewrite Heq in K1. congruence.
Qed.
Theorem c78_distinct s s' : s < List.length states -> (forall n p k, state_item states s n p k <-> state_item states s' n p k) -> s = s'.
Proof.
  intros Hs H. destruct (automaton0_ok g ho hs Hho Hhs fuel states Ha) as (ix & HI).
  destruct (nth_error states s) as [st|] eqn:E; [|apply nth_error_None in E; lia].
  destruct (c78_reached _ _ E) as ((gamma & Hr) & Hla). destruct (i0_reach _ _ _ _ HI _ _ E) as (Hne & gm & Hg).
  destruct (nth_error states s') as [st'|] eqn:E'.
  - destruct (c78_reached _ _ E') as (_ & Hla'). destruct (i0_reach _ _ _ _ HI _ _ E') as (_ & gm' & Hg').
    assert (Heq : st_items st = st_items st').
    { apply sorted_ext; [apply Hg|apply Hg'|]. intros [n p k la]. specialize (H n p k). unfold state_item in H. rewrite E, E' in H. split; intro Hi.
      - pose proof (Hla _ Hi) as L. cbn in L. subst la. destruct (proj1 H) as (st0 & K1 & K2); [eauto|]. injection K1 as <-. exact K2.
      - pose proof (Hla' _ Hi) as L. cbn in L. subst la. destruct (proj2 H) as (st0 & K1 & K2); [eauto|]. injection K1 as <-. exact K2. }
    pose proof (ix_get _ _ (i0_idx _ _ _ _ HI) _ _ E) as K1. pose proof (ix_get _ _ (i0_idx _ _ _ _ HI) _ _ E') as K2. rewrite Heq in K1. congruence.
  - exfalso. destruct (st_items st) as [|[n p k la] l] eqn:El; [congruence|].
    pose proof (Hla {| it_nt := n; it_prod := p; it_cursor := k; it_la := la |} ltac:(left; auto)) as L. cbn in L. subst la.
    destruct (proj1 (H n p k)) as (st0 & K1 & _); [|congruence]. exists st. split; auto. rewrite El. left. auto.
Qed.
End Result.

(** The order of hash sets changes at most the numbers of the states: there are as many, and a viable prefix that leads to
    state [s] in one automaton leads to a state with the same items in the other. *)
Theorem c78_order ho ho' hs hs' f f' states states' : hash_order_ok ho -> hash_order_ok ho' -> (forall l, Permutation (hs l) l) -> (forall l, Permutation (hs' l) l) ->
  compute_lr0_automaton ho hs f g = Ok states -> compute_lr0_automaton ho' hs' f' g = Ok states' ->
  Permutation (map st_items states) (map st_items states') /\
  forall gamma s, reads states 0 gamma = Some s -> exists s', reads states' 0 gamma = Some s' /\ forall n p k, state_item states s n p k <-> state_item states' s' n p k.
Proof.
  assert (H : forall ho ho' hs hs' f f' states states', hash_order_ok ho -> hash_order_ok ho' -> (forall l, Permutation (hs l) l) -> (forall l, Permutation (hs' l) l) ->
    compute_lr0_automaton ho hs f g = Ok states -> compute_lr0_automaton ho' hs' f' g = Ok states' ->
    NoDup (map st_items states) /\ (forall S, In S (map st_items states) -> In S (map st_items states')) /\
    forall gamma s, reads states 0 gamma = Some s -> exists s', reads states' 0 gamma = Some s' /\ forall n p k, state_item states s n p k <-> state_item states' s' n p k).
  { clear ho ho' hs hs' f f' states states'. intros ho ho' hs hs' f f' states states' Hho Hho' Hhs Hhs' Ha Ha'.
    assert (Hr : forall gamma s, reads states 0 gamma = Some s -> exists s', reads states' 0 gamma = Some s' /\ forall n p k, state_item states s n p k <-> state_item states' s' n p k).
    { intros gamma s Hs. assert (He : exists s, reads states 0 gamma = Some s) by eauto. apply (c78_paths ho hs f states Hho Hhs Ha gamma) in He.
      apply (c78_paths ho' hs' f' states' Hho' Hhs' Ha') in He. destruct He as (s' & Hs'). exists s'. split; auto. intros n p k.
      rewrite (c78_states ho hs f states Hho Hhs Ha gamma s n p k Hs), (c78_states ho' hs' f' states' Hho' Hhs' Ha' gamma s' n p k Hs'). reflexivity. }
    destruct (automaton0_ok g ho hs Hho Hhs f states Ha) as (ix & HI). split; [|split; auto].
    - apply NoDup_nth_error. intros i j Hi He. rewrite map_length in Hi. rewrite !nth_error_map in He.
      destruct (nth_error states i) as [s|] eqn:Es; [|apply nth_error_None in Es; lia].
      destruct (nth_error states j) as [s'|] eqn:Es'; cbn in He; [|discriminate]. injection He as He.
      pose proof (ix_get _ _ (i0_idx _ _ _ _ HI) _ _ Es) as G1. pose proof (ix_get _ _ (i0_idx _ _ _ _ HI) _ _ Es') as G2. rewrite He in G1. congruence.
    - intros S HS. apply in_map_iff in HS. destruct HS as (st & <- & Hst). apply In_nth_error in Hst. destruct Hst as (s & Hst).
      destruct (c78_reached ho hs f states Hho Hhs Ha s st Hst) as ((gamma & Hg) & _). destruct (Hr gamma s Hg) as (s' & Hs' & _).
      destruct (reads_items ho hs f states Hho Hhs Ha gamma s Hg) as (st1 & H1 & H2). rewrite Hst in H1. injection H1 as <-.
      destruct (reads_items ho' hs' f' states' Hho' Hhs' Ha' gamma s' Hs') as (st' & H3 & H4).
      rewrite (items_for_unique g gamma _ _ H2 H4). apply in_map. eapply nth_error_In; eauto. }
  intros Hho Hho' Hhs Hhs' Ha Ha'. destruct (H _ _ _ _ _ _ _ _ Hho Hho' Hhs Hhs' Ha Ha') as (H1 & H2 & H3).
  destruct (H _ _ _ _ _ _ _ _ Hho' Hho Hhs' Hhs Ha' Ha) as (H4 & H5 & _). split; [|exact H3]. apply NoDup_Permutation; auto. intro S. split; auto.
Qed.

(** The valid items are Knuth's: given by rightmost derivations, if the non-terminals that occur after the first symbol of a
    right-hand side derive strings of terminals.  Without that, nothing is missing. *)
Theorem c78_rightmost gamma n p k : (forall m q pr X l M, get_production g m q = Some pr -> rhs pr = X :: l -> In (NT M) l -> productive g M) ->
  lr0_valid g gamma n p k <-> rightmost_valid g gamma n p k.
Proof. intro Ht. split; [apply valid_is_rightmost; exact Ht|apply rightmost_is_valid]. Qed.
Theorem c78_nothing_missing gamma n p k : rightmost_valid g gamma n p k -> lr0_valid g gamma n p k.
Proof. apply rightmost_is_valid. Qed.
End Any.

(** For every grammar the macro lowers in which the first non-terminal has a production, the construction stops; if it has none,
    it panics. *)
Theorem c78_terminates {A} (items : list (grammar_item A)) g ho hs : hash_order_ok ho -> (forall l, Permutation (hs l) l) ->
  lower (declared_nts items) (token_entries items) = Ok g ->
  (forall pr, get_production g 0 0 = Some pr -> exists fuel states, compute_lr0_automaton ho hs fuel g = Ok states) /\
  (get_production g 0 0 = None -> forall fuel, compute_lr0_automaton ho hs fuel g = Panic PIndex).
Proof.
  intros Hho Hhs Hl. pose proof (lower_spec (declared_nts items) (token_entries items)) as Hs. rewrite Hl in Hs. destruct Hs as (ti & Hlow).
  pose proof (lowered_wf _ _ _ _ Hlow) as Hwf. split.
  - intros pr Hp. exists (1 + 2 ^ List.length (all_items g)). eapply automaton0_stops; eauto.
  - intros Hp fuel. unfold compute_lr0_automaton. rewrite Hp. reflexivity.
Qed.

(** ** Cases *)
Definition hs_id (l : list symbol) : list symbol := l.
Lemma hs_id_ok l : Permutation (hs_id l) l.
Proof. apply Permutation_refl. Qed.
Lemma hs_rev_ok (l : list symbol) : Permutation (@rev symbol l) l.
Proof. apply Permutation_sym, Permutation_rev. Qed.
Definition arith_lr0 : list lr1_state := Eval vm_compute in match compute_lr0_automaton ho_id hs_id 200 arith_g with Ok s => s | _ => [] end.
Lemma arith_lr0_ok : compute_lr0_automaton ho_id hs_id 200 arith_g = Ok arith_lr0.
Proof. vm_compute. reflexivity. Qed.
(** 12 states, as in the dragon book; after F's predecessors "T *" the items are [T -> T * . F], [F -> . ( E )], [F -> . id]. *)
Example case_c78_states n p k : state_item arith_lr0 10 n p k <-> lr0_valid arith_g [NT 2; T 2] n p k.
Proof. apply (c78_states arith_g ho_id hs_id 200 arith_lr0 ho_id_ok hs_id_ok arith_lr0_ok). vm_compute. reflexivity. Qed.
Example case_c78_paths_yes : exists n p k, lr0_valid arith_g [NT 2; T 2] n p k.
Proof. apply (c78_paths arith_g ho_id hs_id 200 arith_lr0 ho_id_ok hs_id_ok arith_lr0_ok). exists 10. vm_compute. reflexivity. Qed.
Example case_c78_paths_no n p k : ~ lr0_valid arith_g [T 2] n p k.
Proof.
  intro H. assert (He : exists n p k, lr0_valid arith_g [T 2] n p k) by eauto.
  apply (c78_paths arith_g ho_id hs_id 200 arith_lr0 ho_id_ok hs_id_ok arith_lr0_ok) in He. destruct He as (s & Hs). vm_compute in Hs. discriminate.
Qed.
Example case_c78_reached : exists gamma, reads arith_lr0 0 gamma = Some 11.
Proof.
  destruct (nth_error arith_lr0 11) as [st|] eqn:E; [|discriminate].
  exact (proj1 (c78_reached arith_g ho_id hs_id 200 arith_lr0 ho_id_ok hs_id_ok arith_lr0_ok 11 st E)).
Qed.
Definition arith_lr0' : list lr1_state := Eval vm_compute in match compute_lr0_automaton ho_rev (@rev symbol) 200 arith_g with Ok s => s | _ => [] end.
Lemma arith_lr0'_ok : compute_lr0_automaton ho_rev (@rev symbol) 200 arith_g = Ok arith_lr0'.
Proof. vm_compute. reflexivity. Qed.
(** Another hash order numbers the states differently. *)
Example case_c78_order_differs : map st_items arith_lr0 <> map st_items arith_lr0'.
Proof. vm_compute. discriminate. Qed.
Example case_c78_order : Permutation (map st_items arith_lr0) (map st_items arith_lr0').
Proof. exact (proj1 (c78_order arith_g ho_id ho_rev hs_id (@rev symbol) 200 200 _ _ ho_id_ok ho_rev_ok hs_id_ok hs_rev_ok arith_lr0_ok arith_lr0'_ok)). Qed.
Example case_c78_distinct : ~ forall n p k, state_item arith_lr0 3 n p k <-> state_item arith_lr0 4 n p k.
Proof.
  intro H. assert (E : 3 = 4); [|discriminate]. apply (c78_distinct arith_g ho_id hs_id 200 arith_lr0 ho_id_ok hs_id_ok arith_lr0_ok); [cbn; lia|exact H].
Qed.
Example case_c78_terminates : exists fuel states, compute_lr0_automaton ho_rev (@rev symbol) fuel arith_g = Ok states.
Proof. refine (proj1 (c78_terminates arith arith_g ho_rev (@rev symbol) ho_rev_ok hs_rev_ok _) _ eq_refl). vm_compute. reflexivity. Qed.
(** Every symbol of the arithmetic grammar derives terminals, so its valid items are Knuth's. *)
Lemma arith_tails_productive m q pr X l M : get_production arith_g m q = Some pr -> rhs pr = X :: l -> In (NT M) l -> productive arith_g M.
Proof.
  assert (H : forall M, M < 5 -> productive arith_g M).
  { assert (H4 : productive arith_g 4) by (exists [4]; eapply derives_step; [eapply (dstep_intro _ [] 4 1) with (r := []); reflexivity|]; constructor).
    assert (H3 : productive arith_g 3) by (destruct H4 as (w & Hw); exists w; eapply derives_step; [eapply (dstep_intro _ [] 3 1) with (r := []); reflexivity|]; exact Hw).
    assert (H2 : productive arith_g 2) by (destruct H3 as (w & Hw); exists w; eapply derives_step; [eapply (dstep_intro _ [] 2 1) with (r := []); reflexivity|]; exact Hw).
    assert (H0 : productive arith_g 0) by (destruct H2 as (w & Hw); exists w; eapply derives_step; [eapply (dstep_intro _ [] 0 0) with (r := []); reflexivity|]; exact Hw).
    assert (H1 : productive arith_g 1) by (destruct H0 as (w & Hw); exists w; eapply derives_step; [eapply (dstep_intro _ [] 1 0) with (r := []); reflexivity|]; exact Hw).
    intros M0 HM. destruct M0 as [|[|[|[|[|M0]]]]]; auto; lia. }
  intros Hp Hr HM. apply H. assert (HM' : In (NT M) (rhs pr)) by (rewrite Hr; right; exact HM). exact (arith_closed m q pr M Hp HM').
Qed.
Example case_c78_rightmost n p k : state_item arith_lr0 10 n p k <-> rightmost_valid arith_g [NT 2; T 2] n p k.
Proof. rewrite case_c78_states. apply c78_rightmost. exact arith_tails_productive. Qed.
(** The construction starts from production 0 of the first non-terminal only (src/lr0.rs:181): for [P = "a" | "b"] no state is
    reached by "b". *)
Definition two_rules : list (grammar_item string) :=
  [ tokens [unit_tok "a" "Token::A"; unit_tok "b" "Token::B"]; rule true "P" "()" [([$"a"], "()"); ([$"b"], "()")] ].
Example case_c78_start : exists g states, lower (declared_nts two_rules) (token_entries two_rules) = Ok g /\
  compute_lr0_automaton ho_id hs_id 100 g = Ok states /\ derives g [NT 0] [T 1] /\ reads states 0 [T 0] = Some 1 /\ reads states 0 [T 1] = None.
Proof.
  eexists. eexists. split; [vm_compute; reflexivity|]. split; [vm_compute; reflexivity|]. split; [|split; reflexivity].
  eapply derives_step; [eapply (dstep_intro _ [] 0 1) with (r := []); reflexivity|]. constructor.
Qed.
