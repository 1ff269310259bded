(** * PropertiesSlr: C79, the SLR(1) table of src/lr0.rs

    Vocabulary: Lr0Spec.v ([lr0_valid]), [reads] of PropertiesLr0.v (the state a string leads to), [has] (membership in a FOLLOW
    table; C77 says what is in the computed one).  The file is not compiled into the macro (src/lib.rs:15). *)
From Verif Require Import SlrProofs PropertiesLr0 PropertiesFollow LowerProofs Decide Grammars PropertiesGen Findings.
From Verif Require Export Lr0Spec Lr0 FollowSpec.
Local Open Scope string_scope. Local Open Scope list_scope.

(** [la] ([None]: the end of the input) is in the entry of [n]. *)
Definition has (tbl : follow_table) (n : nat) (la : option nat) : Prop :=
  match la with Some t => In t (fo_terminals (get_follow tbl n)) | None => fo_end (get_follow tbl n) = true end.
(** The order of items. *)
Definition before (n p k n' p' k' : nat) : Prop := n < n' \/ n = n' /\ (p < p' \/ p = p' /\ k < k').

Section Any.
Context {A : Type}.
Variable g : grammar A.

(** The cursor of the item is in front of [X], or at the end. *)
Definition at_symbol (n p k : nat) (X : symbol) : Prop := exists pr, get_production g n p = Some pr /\ nth_error (rhs pr) k = Some X.
Definition at_end (n p k : nat) : Prop := exists pr, get_production g n p = Some pr /\ k = List.length (rhs pr).
(** What a valid item asks for at the lookahead [la]: a shift, a reduction, or to accept.  The code takes the item of production 0
    of the first non-terminal with its cursor at 1 for the one that accepts (src/lr0.rs:263-270). *)
Definition asks_shift (gamma : list symbol) (la : option nat) (n p k : nat) : Prop :=
  lr0_valid g gamma n p k /\ exists t, la = Some t /\ at_symbol n p k (T t).
Definition asks_reduce (follow : follow_table) (gamma : list symbol) (la : option nat) (n p k : nat) : Prop :=
  lr0_valid g gamma n p k /\ at_end n p k /\ has follow n la.
Definition asks_accept (gamma : list symbol) (la : option nat) (n p k : nat) : Prop :=
  lr0_valid g gamma n p k /\ n = 0 /\ p = 0 /\ k = 1 /\ la = None.

Section Result.
Variables (ho : hash_order) (hs : list symbol -> list symbol) (fuel ffuel : nat) (first : first_table) (follow : follow_table) (states : list lr1_state).
Hypothesis Hho : hash_order_ok ho.
Hypothesis Hhs : forall l, Permutation (hs l) l.
Hypothesis Ha : compute_lr0_automaton ho hs fuel g = Ok states.
Hypothesis Hf : generate_follow_table ho first ffuel g = Ok follow.

Lemma states_have_prods s st it : nth_error states s = Some st -> In it (st_items st) -> has_prod g it.
Proof.
  intros Hs Hi. destruct (automaton0_ok g ho hs Hho Hhs fuel states Ha) as (ix & HI). destruct (i0_reach _ _ _ _ HI _ _ Hs) as (_ & gamma & Hg).
  apply Hg in Hi. destruct Hi as (_ & Hv). destruct (valid_production g gamma _ _ _ Hv) as (pr & Hp & _). exists pr. exact Hp.
Qed.
Lemma states_nodup s st : nth_error states s = Some st -> NoDup (map fst (st_goto st)).
Proof. intro Hs. destruct (automaton0_ok g ho hs Hho Hhs fuel states Ha) as (ix & HI). exact (i0_nodup _ _ _ _ HI _ _ Hs). Qed.

Lemma next_symbol_at it X : next_symbol g it = Some X <-> at_symbol (it_nt it) (it_prod it) (it_cursor it) X.
Proof.
  unfold next_symbol, item_rhs, at_symbol. destruct (get_production g (it_nt it) (it_prod it)) as [pr|].
  - split; [eauto|]. intros (pr' & E & H). injection E as <-. exact H.
  - split; [destruct (it_cursor it); discriminate|]. intros (pr' & E & _). discriminate.
Qed.
Lemma goto_reads gamma s st X : reads states 0 gamma = Some s -> nth_error states s = Some st -> reads states 0 (gamma ++ [X]) = map_get symbol_eqb X (st_goto st).
Proof. intros Hr Hs. rewrite reads_app, Hr. cbn. rewrite Hs. destruct (map_get symbol_eqb X (st_goto st)); reflexivity. Qed.

(** The requests of an item of the state of [gamma]. *)
Lemma requests_of gamma s st it r : reads states 0 gamma = Some s -> nth_error states s = Some st -> In it (st_items st) ->
  In r (item_reqs ho follow g st it) <->
  match r with
  | QShift t j => asks_shift gamma (Some t) (it_nt it) (it_prod it) (it_cursor it) /\ reads states 0 (gamma ++ [T t]) = Some j
  | QReduce la n p a => asks_reduce follow gamma la (it_nt it) (it_prod it) (it_cursor it) /\ n = it_nt it /\ p = it_prod it /\
      exists pr, get_production g n p = Some pr /\ p_action pr = a
  | QAccept => asks_accept gamma None (it_nt it) (it_prod it) (it_cursor it)
  end.
Proof.
  intros Hr Hs Hi. assert (Hv : lr0_valid g gamma (it_nt it) (it_prod it) (it_cursor it)).
  { destruct (reads_items g ho hs fuel states Hho Hhs Ha gamma s Hr) as (st' & E & Hg). rewrite Hs in E. injection E as <-. apply Hg. exact Hi. }
  unfold item_reqs. rewrite !in_app_iff, (reduce_reqs_spec ho follow g Hho).
  assert (H1 : In r (shift_reqs g st it) <-> exists t j, r = QShift t j /\ at_symbol (it_nt it) (it_prod it) (it_cursor it) (T t) /\ reads states 0 (gamma ++ [T t]) = Some j).
  { unfold shift_reqs. split.
    - intro H. destruct (next_symbol g it) as [[m|t]|] eqn:E; try destruct H. destruct (map_get symbol_eqb (T t) (st_goto st)) as [j|] eqn:Ej; [|destruct H].
      destruct H as [<-|[]]. exists t, j. split; auto. apply next_symbol_at in E. split; auto. rewrite (goto_reads _ _ _ _ Hr Hs). exact Ej.
    - intros (t & j & -> & H1 & H2). apply next_symbol_at in H1. rewrite H1. rewrite (goto_reads _ _ _ _ Hr Hs) in H2. rewrite H2. left. auto. }
  assert (H3 : In r (accept_reqs it) <-> r = QAccept /\ it_nt it = 0 /\ it_prod it = 0 /\ it_cursor it = 1).
  { unfold accept_reqs. destruct (Nat.eqb_spec (it_nt it) 0), (Nat.eqb_spec (it_prod it) 0), (Nat.eqb_spec (it_cursor it) 1); cbn;
      (split; [intros [<-|[]]; auto|intros (-> & ? & ? & ?); auto; contradiction]) || (split; [intros []|intros (-> & ? & ? & ?); contradiction]). }
  rewrite H1, H3. destruct r as [t j|la n p a|].
  - unfold asks_shift. split.
    + intros [(t' & j' & E & K1 & K2)|[(p & la & _ & _ & E & _)|(E & _)]]; try discriminate. injection E as <- <-. split; [split; eauto|auto].
    + intros ((_ & t' & E & K1) & K2). injection E as <-. left. exists t, j. auto.
  - unfold asks_reduce. split.
    + intros [(t' & j' & E & _)|[(pr & la' & K1 & K2 & E & K3)|(E & _)]]; try discriminate. injection E as -> -> -> ->. split; [|split; [auto|split; [auto|eauto]]].
      split; auto. split; [|exact K3]. exists pr. split; auto. destruct (valid_production g gamma _ _ _ Hv) as (pr' & Hp & Hk). rewrite K2 in Hp. injection Hp as <-.
      unfold next_symbol, item_rhs in K1. rewrite K2 in K1. apply nth_error_None in K1. lia.
    + intros ((_ & (pr & Hp & Hk) & Hh) & -> & -> & pr' & Hp' & <-). right. left. rewrite Hp in Hp'. injection Hp' as <-. exists pr, la. split; [|auto].
      unfold next_symbol, item_rhs. rewrite Hp. apply nth_error_None. lia.
  - unfold asks_accept. split.
    + intros [(t' & j' & E & _)|[(pr & la' & K1 & K2 & E & K3)|(_ & E)]]; try discriminate. tauto.
    + intros (_ & K1 & K2 & K3 & _). right. right. auto.
Qed.
Lemma valid_item gamma s st n p k : reads states 0 gamma = Some s -> nth_error states s = Some st -> lr0_valid g gamma n p k ->
  In {| it_nt := n; it_prod := p; it_cursor := k; it_la := None |} (st_items st).
Proof.
  intros Hr Hs Hv. destruct (reads_items g ho hs fuel states Hho Hhs Ha gamma s Hr) as (st' & E & Hg). rewrite Hs in E. injection E as <-. apply Hg. auto.
Qed.

(** The table can be built iff no item that asks for a reduction comes after an item that asks for something at the same lookahead;
    otherwise the builder panics. *)
Definition no_clash : Prop :=
  forall gamma la n p k n' p' k', asks_reduce follow gamma la n p k ->
    asks_shift gamma la n' p' k' \/ asks_reduce follow gamma la n' p' k' \/ asks_accept gamma la n' p' k' ->
    ~ before n' p' k' n p k.
Theorem c79_builds : (exists tb, build_slr_table ho follow g states = Ok tb) <-> no_clash.
Proof.
  rewrite (slr_builds ho follow g Hho states states_have_prods states_nodup). split.
  - intros H gamma la n p k n' p' k' Hr Ho Hb.
    destruct (valid_reads g ho hs fuel states Hho Hhs Ha _ _ _ _ (proj1 Hr)) as (s & Hs). destruct (reads_items g ho hs fuel states Hho Hhs Ha gamma s Hs) as (st & Hst & Hg).
    specialize (H st (nth_error_In _ _ Hst)). rewrite (free_row ho follow g Hho (follow_nodup ho first ffuel g follow Hf) st (proj1 Hg)) in H.
    pose proof (valid_item gamma s st n p k Hs Hst (proj1 Hr)) as Hi.
    assert (Hv' : lr0_valid g gamma n' p' k') by (destruct Ho as [Ho|[Ho|Ho]]; apply Ho). pose proof (valid_item gamma s st n' p' k' Hs Hst Hv') as Hi'.
    assert (Hlt : item_lt {| it_nt := n'; it_prod := p'; it_cursor := k'; it_la := None |} {| it_nt := n; it_prod := p; it_cursor := k; it_la := None |}).
    { apply item_lt_iff. cbn. unfold before in Hb. lia. }
    destruct Hr as (Hv & (pr & Hp & Hk) & Hh).
    assert (Hin : In (QReduce la n p (p_action pr)) (item_reqs ho follow g st {| it_nt := n; it_prod := p; it_cursor := k; it_la := None |})).
    { apply (requests_of gamma s st _ _ Hs Hst Hi). cbn. split; [split; [exact Hv|split; [exists pr; auto|exact Hh]]|]. split; [auto|split; [auto|eauto]]. }
    assert (Hex : exists r', In r' (item_reqs ho follow g st {| it_nt := n'; it_prod := p'; it_cursor := k'; it_la := None |}) /\ r_at r' = la).
    { destruct Ho as [(_ & t & -> & Ht)|[(_ & (pr' & Hp' & Hk') & Hh')|(_ & -> & -> & -> & ->)]].
      - assert (Hvm : lr0_valid g (gamma ++ [T t]) n' p' (k' + 1)) by (destruct Ht as (pr' & Hp' & Hn'); eapply l0_move; eauto).
        destruct (valid_reads g ho hs fuel states Hho Hhs Ha _ _ _ _ Hvm) as (j & Hj). exists (QShift t j). split; [|reflexivity].
        apply (requests_of gamma s st _ _ Hs Hst Hi'). cbn. split; [|exact Hj]. split; [exact Hv'|]. eauto.
      - exists (QReduce la n' p' (p_action pr')). split; [|reflexivity]. apply (requests_of gamma s st _ _ Hs Hst Hi'). cbn.
        split; [split; [exact Hv'|split; [exists pr'; auto|exact Hh']]|]. split; [auto|split; [auto|eauto]].
      - exists QAccept. split; [|reflexivity]. apply (requests_of gamma s st _ _ Hs Hst Hi'). cbn. split; [exact Hv'|]. auto. }
    destruct Hex as (r' & Hin' & Hat). exact (H _ _ _ _ Hi Hi' Hlt Hin Logic.I Hin' Hat).
  - intros H st Hst. apply In_nth_error in Hst. destruct Hst as (s & Hst).
    destruct (c78_reached g ho hs fuel states Hho Hhs Ha s st Hst) as ((gamma & Hs) & Hla). destruct (reads_items g ho hs fuel states Hho Hhs Ha gamma s Hs) as (st' & E & Hg). rewrite Hst in E. injection E as <-.
    apply (free_row ho follow g Hho (follow_nodup ho first ffuel g follow Hf) st (proj1 Hg)). intros it it' r r' Hi Hi' Hlt Hr Hk Hr' Hat.
    apply (requests_of gamma s st _ _ Hs Hst Hi) in Hr. apply (requests_of gamma s st _ _ Hs Hst Hi') in Hr'.
    destruct r as [t j|la n p a|]; try destruct Hk. destruct Hr as (Hr & -> & -> & _).
    apply (H gamma la (it_nt it) (it_prod it) (it_cursor it) (it_nt it') (it_prod it') (it_cursor it') Hr).
    + destruct r' as [t j|la' n' p' a'|]; cbn in Hat; subst la; [left; apply Hr'|right; left; apply Hr'|right; right; exact Hr'].
    + apply item_lt_iff in Hlt. rewrite (Hla _ Hi), (Hla _ Hi') in Hlt. cbn in Hlt. unfold before. lia.
Qed.
Theorem c79_panics : ~ no_clash -> exists e, build_slr_table ho follow g states = Panic e.
Proof.
  intro H. destruct (build_slr_table ho follow g states) as [tb|e|] eqn:E; [|eauto|].
  - exfalso. apply H, c79_builds. eauto.
  - exfalso. exact (slr_no_fuel ho follow g states states_have_prods E).
Qed.

(** The actions of the table.  A shift replaces a reduction that comes first in item order, and accepting replaces whatever is there. *)
Theorem c79_actions tb gamma s la act : build_slr_table ho follow g states = Ok tb -> reads states 0 gamma = Some s ->
  get_action tb s la = Some act <->
  match act with
  | Shift j => exists t, la = Some t /\ (exists n p k, asks_shift gamma la n p k) /\ reads states 0 (gamma ++ [T t]) = Some j
  | Accept => exists n p k, asks_accept gamma la n p k
  | Reduce n p a => (exists k, asks_reduce follow gamma la n p k) /\ (exists pr, get_production g n p = Some pr /\ p_action pr = a) /\
      (forall n' p' k', ~ asks_shift gamma la n' p' k') /\ (forall n' p' k', ~ asks_accept gamma la n' p' k')
  end.
Proof.
  intros Hb Hs. destruct (reads_items g ho hs fuel states Hho Hhs Ha gamma s Hs) as (st & Hst & Hg).
  destruct (slr_values ho follow g Hho states states_have_prods states_nodup tb Hb) as (Hvals & _). destruct (Hvals s st Hst) as (Hfree & Hact & _).
  rewrite Hact, (value_spec _ Hfree (row_agreeing ho follow g st)).
  assert (Hrow : forall r, In r (row ho follow g st) <-> exists it, In it (st_items st) /\ In r (item_reqs ho follow g st it)) by (intro r; apply in_flat_map).
  assert (Hshift : forall t j, In (QShift t j) (row ho follow g st) <-> (exists n p k, asks_shift gamma (Some t) n p k) /\ reads states 0 (gamma ++ [T t]) = Some j).
  { intros t j. rewrite Hrow. split.
    - intros (it & Hi & Hr). apply (requests_of gamma s st _ _ Hs Hst Hi) in Hr. destruct Hr as (H1 & H2). split; [eauto|exact H2].
    - intros ((n & p & k & H1) & H2). pose proof (valid_item gamma s st n p k Hs Hst (proj1 H1)) as Hi. eexists. split; [exact Hi|]. apply (requests_of gamma s st _ _ Hs Hst Hi). cbn. split; [exact H1|exact H2]. }
  assert (Hacc : In QAccept (row ho follow g st) <-> exists n p k, asks_accept gamma None n p k).
  { rewrite Hrow. split.
    - intros (it & Hi & Hr). apply (requests_of gamma s st _ _ Hs Hst Hi) in Hr. exists (it_nt it), (it_prod it), (it_cursor it). exact Hr.
    - intros (n & p & k & H1). pose proof (valid_item gamma s st n p k Hs Hst (proj1 H1)) as Hi. eexists. split; [exact Hi|]. apply (requests_of gamma s st _ _ Hs Hst Hi). cbn. pose proof H1 as (_ & -> & -> & -> & _). exact H1. }
  destruct act as [j|n p a|].
  - split.
    + intros (t & -> & H). apply Hshift in H. exists t. tauto.
    + intros (t & -> & H). exists t. split; auto. apply Hshift. exact H.
  - split.
    + intros (H1 & H2). apply Hrow in H1. destruct H1 as (it & Hi & Hr). apply (requests_of gamma s st _ _ Hs Hst Hi) in Hr. destruct Hr as (Hr & -> & -> & Hp). split; [eauto|]. split; [exact Hp|]. split.
      * intros n' p' k' Hc. pose proof Hc as (Hv & t & -> & pr & Hp' & Hn). assert (Hvm : lr0_valid g (gamma ++ [T t]) n' p' (k' + 1)) by (eapply l0_move; eauto).
        destruct (valid_reads g ho hs fuel states Hho Hhs Ha _ _ _ _ Hvm) as (j & Hj). apply (H2 (QShift t j)); [|reflexivity]. apply Hshift. eauto.
      * intros n' p' k' Hc. pose proof Hc as (_ & _ & _ & _ & ->). apply (H2 QAccept); [|reflexivity]. apply Hacc. eauto.
    + intros ((k & Hr) & Hp & H1 & H2). pose proof (valid_item gamma s st n p k Hs Hst (proj1 Hr)) as Hi. split.
      * apply Hrow. eexists. split; [exact Hi|]. apply (requests_of gamma s st _ _ Hs Hst Hi). cbn. auto.
      * intros r Hin Hat. destruct r as [t j|la' n' p' a'|]; [|exact Logic.I|]; cbn in Hat; subst la.
        -- apply Hshift in Hin. destruct Hin as ((n' & p' & k' & Hc) & _). exact (H1 _ _ _ Hc).
        -- apply Hacc in Hin. destruct Hin as (n' & p' & k' & Hc). exact (H2 _ _ _ Hc).
  - split.
    + intros (-> & H). apply Hacc. exact H.
    + intros (n & p & k & H). pose proof H as (_ & _ & _ & _ & ->). split; auto. apply Hacc. eauto.
Qed.
(** The gotos of the table. *)
Theorem c79_gotos tb gamma s n : build_slr_table ho follow g states = Ok tb -> reads states 0 gamma = Some s ->
  get_goto tb s n = reads states 0 (gamma ++ [NT n]).
Proof.
  intros Hb Hs. destruct (reads_items g ho hs fuel states Hho Hhs Ha gamma s Hs) as (st & Hst & _).
  destruct (slr_values ho follow g Hho states states_have_prods states_nodup tb Hb) as (Hvals & _). destruct (Hvals s st Hst) as (_ & _ & Hgo).
  rewrite Hgo. symmetry. apply goto_reads with (1 := Hs) (2 := Hst).
Qed.
End Result.
End Any.

(** ** Cases *)
Definition arith_slr : lr_table (lexpr string) := Eval vm_compute in match build_slr_table ho_id arith_follow arith_g arith_lr0 with Ok t => t | _ => table_new 0 end.
Lemma arith_slr_ok : build_slr_table ho_id arith_follow arith_g arith_lr0 = Ok arith_slr.
Proof. vm_compute. reflexivity. Qed.
Lemma arith_follow_ok : generate_follow_table ho_id arith_tbl 100 arith_g = Ok arith_follow.
Proof. vm_compute. reflexivity. Qed.
Example case_c79_builds : no_clash arith_g arith_follow.
Proof. apply (c79_builds arith_g ho_id hs_id 200 100 arith_tbl arith_follow arith_lr0 ho_id_ok hs_id_ok arith_lr0_ok arith_follow_ok). exists arith_slr. exact arith_slr_ok. Qed.
(** After [T] the table reduces [E -> T] at the end, and shifts "*". *)
Example case_c79_actions la act : (exists s, reads arith_lr0 0 [NT 3] = Some s /\ get_action arith_slr s la = Some act) <->
  match act with
  | Shift j => exists t, la = Some t /\ (exists n p k, asks_shift arith_g [NT 3] la n p k) /\ reads arith_lr0 0 [NT 3; T t] = Some j
  | Accept => exists n p k, asks_accept arith_g [NT 3] la n p k
  | Reduce n p a => (exists k, asks_reduce arith_g arith_follow [NT 3] la n p k) /\ (exists pr, get_production arith_g n p = Some pr /\ p_action pr = a) /\
      (forall n' p' k', ~ asks_shift arith_g [NT 3] la n' p' k') /\ (forall n' p' k', ~ asks_accept arith_g [NT 3] la n' p' k')
  end.
Proof.
  destruct (reads arith_lr0 0 [NT 3]) as [s|] eqn:E; [|vm_compute in E; discriminate].
  rewrite <- (c79_actions arith_g ho_id hs_id 200 arith_follow arith_lr0 ho_id_ok hs_id_ok arith_lr0_ok arith_slr [NT 3] s la act arith_slr_ok E).
  split; [intros (s' & E' & H); injection E' as <-; exact H|intro H; exists s; auto].
Qed.
Example case_c79_reduce s : reads arith_lr0 0 [NT 3] = Some s -> exists a, get_action arith_slr s None = Some (Reduce 2 1 a) /\ get_action arith_slr s (Some 2) = Some (Reduce 2 1 a).
Proof. intro H. vm_compute in H. injection H as <-. eexists. vm_compute. auto. Qed.
Example case_c79_gotos : get_goto arith_slr 10 3 = reads arith_lr0 0 [NT 2; T 2; NT 3].
Proof. apply (c79_gotos arith_g ho_id hs_id 200 arith_follow arith_lr0 ho_id_ok hs_id_ok arith_lr0_ok arith_slr [NT 2; T 2] 10 3 arith_slr_ok). vm_compute. reflexivity. Qed.
(** An ambiguous grammar: [P = P "a" P | "b"].  After [P "a" P] the item [P -> P . "a" P] comes before [P -> P "a" P .]: a panic. *)
Definition sums : list (grammar_item string) :=
  [ tokens [unit_tok "a" "Token::A"; unit_tok "b" "Token::B"]; rule true "P" "()" [([#"P"; $"a"; #"P"], "()"); ([$"b"], "()")] ].
Example case_c79_panics : exists g first follow states, lower (declared_nts sums) (token_entries sums) = Ok g /\ generate_first_table ho_id 100 g = Ok first /\
  generate_follow_table ho_id first 100 g = Ok follow /\ compute_lr0_automaton ho_id hs_id 100 g = Ok states /\
  ~ no_clash g follow /\ exists e, build_slr_table ho_id follow g states = Panic e.
Proof.
  assert (H : exists g first follow states, (lower (declared_nts sums) (token_entries sums) = Ok g /\ generate_first_table ho_id 100 g = Ok first /\
    generate_follow_table ho_id first 100 g = Ok follow /\ compute_lr0_automaton ho_id hs_id 100 g = Ok states) /\
    forall tb, build_slr_table ho_id follow g states <> Ok tb).
  { eexists. eexists. eexists. eexists. split; [repeat (split; [vm_compute; reflexivity|]); vm_compute; reflexivity|]. intros tb E. vm_compute in E. discriminate. }
  destruct H as (g & first & follow & states & (H1 & H2 & H3 & H4) & H5). exists g, first, follow, states.
  assert (HP : ~ no_clash g follow).
  { intro H. apply (c79_builds g ho_id hs_id 100 100 first follow states ho_id_ok hs_id_ok H4 H3) in H. destruct H as (tb & H). exact (H5 tb H). }
  repeat (split; [assumption|]). exact (c79_panics g ho_id hs_id 100 100 first follow states ho_id_ok hs_id_ok H4 H3 HP).
Qed.
(** The table accepts too early if production 0 has more than one symbol: for [P = "a" "b"], after "a" it accepts at the end of the
    input, although "a" is not in the language. *)
Definition ab : list (grammar_item string) :=
  [ tokens [unit_tok "a" "Token::A"; unit_tok "b" "Token::B"]; rule true "P" "()" [([$"a"; $"b"], "()")] ].
Example case_c79_accepts_early : exists g first follow states tb s, lower (declared_nts ab) (token_entries ab) = Ok g /\ generate_first_table ho_id 100 g = Ok first /\
  generate_follow_table ho_id first 100 g = Ok follow /\ compute_lr0_automaton ho_id hs_id 100 g = Ok states /\ build_slr_table ho_id follow g states = Ok tb /\
  reads states 0 [T 0] = Some s /\ get_action tb s None = Some Accept.
Proof.
  eexists. eexists. eexists. eexists. eexists. eexists. repeat (split; [vm_compute; reflexivity|]). vm_compute. reflexivity.
Qed.
