(** * PropertiesGen: the properties of the expansion of [parser! { .. }]

    One group of theorems per property (properties.jsonl), in the vocabulary of GenSpec.v.  Concrete cases
    that meet the hypotheses follow each group; the grammars are those of tests/tests.rs (Grammars.v). *)
From Verif Require Import ActionProofs Grammars.
From Coq Require Import NArith.
Notation nts items := (declared_nts items).
Notation cs items := (token_entries items).
Local Open Scope string_scope. Local Open Scope list_scope.

(** ** The running example of this file

    [arith] (tests/tests.rs [test_grammar_6]) and its automaton: [1] is the entry point of [E], [0] is [E],
    [2] is [E1], [3] is [T] and [4] is [F]; terminals are numbered in declaration order. *)
Definition stages_data_of (items : list (grammar_item string)) : grammar (lexpr string) * first_table * list lr1_state * list (nat * nat) :=
  match automaton items with Ok a => a | _ => (grammar_new, [], [], []) end.
Definition arith_g : grammar (lexpr string) := Eval vm_compute in fst (fst (fst (stages_data_of arith))).
Definition arith_tbl : first_table := Eval vm_compute in snd (fst (fst (stages_data_of arith))).
Definition arith_states : list lr1_state := Eval vm_compute in snd (fst (stages_data_of arith)).
Definition arith_entries : list (nat * nat) := Eval vm_compute in snd (stages_data_of arith).
Ltac prove_stages := exists ho_id, 100; split; [exact ho_id_ok|split; [vm_compute; reflexivity|split; vm_compute; reflexivity]].
Lemma arith_stages : stages arith arith_g arith_tbl arith_states arith_entries.
Proof. prove_stages. Qed.
Lemma arith_expansion : expansion_of arith arith_g arith_tbl arith_states arith_entries arith_gp.
Proof. exists ho_id, 100; split; [exact ho_id_ok|split; [vm_compute; reflexivity|split; [vm_compute; reflexivity|split; vm_compute; reflexivity]]]. Qed.
Lemma arith_expands : expands arith arith_gp. Proof. apply arith_parser. Qed.
Lemma arith_names : distinct_names arith. Proof. apply arith_parser. Qed.
Definition the_E : ast_non_terminal string := Eval vm_compute in hd {| an_pub := false; an_name := ""; an_type := ""; an_productions := [] |} (nts arith).
Ltac holds_it := eexists; split; [reflexivity|vm_compute; tauto].
Ltac of_prod := eexists; split; reflexivity.
(** The same grammar with [enum Token] declared twice: LR(1), but expansion panics. *)
Lemma twice_panics : expansion_panics (arith_tokens :: arith) PDupToken.
Proof. exists ho_id, 100. split; [exact ho_id_ok|vm_compute; reflexivity]. Qed.


(** ** C15: reduce/reduce conflicts are rejected *)

(** For the user's grammar: if expansion succeeds, no string of symbols makes two different productions
    reducible on the same lookahead. *)
Theorem c15_reduce_reduce_rejected_partial {A} (items : list (grammar_item A)) gp N gamma :
  distinct_names items -> tails_plain (nts items) -> expands items gp -> In N (nts items) -> an_pub N = true ->
  ~ reduce_reduce (nts items) (an_name N) gamma.
Proof.
  intros Hn Ht He HN Hp Hrr. destruct (expands_expansion items gp He) as (g & tbl & states & entries & He').
  destruct (stages_data items _ _ _ _ (expansion_stages items _ _ _ _ _ He')) as (ti & Hlow & Hwf & Haut & _ & Hfc).
  destruct (expansion_data items _ _ _ _ _ He') as (_ & act & _ & _ & _ & Hnd & _).
  apply (no_detected_no_reported items Hn ti g Hlow tbl states entries Haut _ _ (true_down items Hn ti g Hlow tbl (Hfc Hn Ht)) Hnd N gamma HN Hp).
  left. exact Hrr.
Qed.
Example case_c15 gamma : ~ reduce_reduce (nts arith) "E" gamma.
Proof. apply (c15_reduce_reduce_rejected_partial arith arith_gp the_E gamma arith_names arith_plain arith_expands); [left; reflexivity|reflexivity]. Qed.

Lemma in_two {X} (l : list X) a b : In a l -> In b l -> a <> b ->
  (exists l1 l2, l = l1 ++ b :: l2 /\ In a l1) \/ (exists l1 l2, l = l1 ++ a :: l2 /\ In b l1).
Proof.
  induction l as [|x l IH]; [contradiction|]. intros [->|Ha] [->|Hb] Hne; try congruence.
  - left. apply in_split in Hb. destruct Hb as (l1 & l2 & ->). exists (a :: l1), l2. split; [reflexivity|left; reflexivity].
  - right. apply in_split in Ha. destruct Ha as (l1 & l2 & ->). exists (b :: l1), l2. split; [reflexivity|left; reflexivity].
  - destruct (IH Ha Hb Hne) as [(l1 & l2 & -> & H)|(l1 & l2 & -> & H)]; [left|right]; exists (x :: l1), l2; split; auto; right; auto.
Qed.

(** For the automaton, and any grammar: if a state holds two different complete items (of non-terminals
    other than entry points) with the same lookahead, [parser!] panics, whatever the hash order. *)
Theorem c15_items_rejected {A} (items : list (grammar_item A)) g tbl states entries s a b :
  stages items g tbl states entries -> holds states s a -> holds states s b ->
  completed g a -> completed g b -> ordinary g (it_nt a) -> ordinary g (it_nt b) -> it_la a = it_la b -> a <> b ->
  (forall gp, ~ expands items gp) /\ exists p, expansion_panics items p.
Proof.
  intros Hst (st & Hs & Ha) (st' & Hs' & Hb) Hca Hcb Hoa Hob Hla Hne. assert (st' = st) by congruence; subst st'.
  destruct (in_two _ a b Ha Hb Hne) as [(l1 & l2 & Hl & Hi)|(l1 & l2 & Hl & Hi)].
  - eapply (clash_rejects items g tbl states entries s st l1 b l2 a (it_la a)); eauto.
    + split; [apply completed_is_complete; auto|split; auto].
    + right. left. split; [apply completed_is_complete; auto|split; auto].
  - eapply (clash_rejects items g tbl states entries s st l1 a l2 b (it_la a)); eauto.
    + split; [apply completed_is_complete; auto|split; auto].
    + right. left. split; [apply completed_is_complete; auto|split; auto].
Qed.
(** [S -> A | B], [A -> "a"], [B -> "a"]: after "a", both can be reduced at end of input. *)
Definition rr_grammar : list (grammar_item string) :=
  [ tokens [unit_tok "a" "Token::A"]; rule true "S" "()" [([#"A"], "()"); ([#"B"], "()")];
    rule false "A" "()" [([$"a"], "()")]; rule false "B" "()" [([$"a"], "()")] ].
Example case_c15_items : (forall gp, ~ expands rr_grammar gp) /\ exists p, expansion_panics rr_grammar p.
Proof.
  assert (H : exists g tbl states entries, stages rr_grammar g tbl states entries /\ exists s,
            holds states s {| it_nt := 2; it_prod := 0; it_cursor := 1; it_la := None |} /\
            holds states s {| it_nt := 3; it_prod := 0; it_cursor := 1; it_la := None |} /\
            (forall n, n = 2 \/ n = 3 -> ordinary g n /\ exists pr, get_production g n 0 = Some pr /\ 1 = List.length (rhs pr))).
  { do 4 eexists. split; [exists ho_id, 100; split; [exact ho_id_ok|split; [vm_compute; reflexivity|split; [vm_compute; reflexivity|vm_compute; reflexivity]]]|].
    exists 4. split; [holds_it|]. split; [holds_it|].
    intros n [->| ->]; (split; [eexists; split; reflexivity|eexists; split; reflexivity]). }
  destruct H as (g & tbl & states & entries & Hst & s & Ha & Hb & Hn).
  eapply (c15_items_rejected rr_grammar g tbl states entries s _ _ Hst Ha Hb); try (apply Hn; auto); [reflexivity|discriminate].
Qed.

(** ** C16: which shift/reduce and accept/reduce conflicts are rejected

    The full property ("never resolved silently") fails: see [c16_refuted] in Findings.v.  Rejected are
    those in which the shifting production is declared before (or is) the one to reduce, and those in which
    the entry point is declared before the non-terminal to reduce. *)
Theorem c16_shift_reduce_rejected_partial {A} (items : list (grammar_item A)) gp N gamma :
  distinct_names items -> tails_plain (nts items) -> expands items gp -> In N (nts items) -> an_pub N = true ->
  ~ shift_before_reduce (nts items) (an_name N) gamma /\ ~ accept_before_reduce (nts items) (an_name N) gamma.
Proof.
  intros Hn Ht He HN Hp. destruct (expands_expansion items gp He) as (g & tbl & states & entries & He').
  destruct (stages_data items _ _ _ _ (expansion_stages items _ _ _ _ _ He')) as (ti & Hlow & Hwf & Haut & _ & Hfc).
  destruct (expansion_data items _ _ _ _ _ He') as (_ & act & _ & _ & _ & Hnd & _).
  pose proof (no_detected_no_reported items Hn ti g Hlow tbl states entries Haut _ _ (true_down items Hn ti g Hlow tbl (Hfc Hn Ht)) Hnd N gamma HN Hp) as Hr.
  split; intro H; apply Hr; [right; left|right; right]; exact H.
Qed.
Example case_c16 gamma : ~ shift_before_reduce (nts arith) "E" gamma /\ ~ accept_before_reduce (nts arith) "E" gamma.
Proof. apply (c16_shift_reduce_rejected_partial arith arith_gp the_E gamma arith_names arith_plain arith_expands); [left; reflexivity|reflexivity]. Qed.

Lemma state_sorted {A} (items : list (grammar_item A)) g tbl states entries s st : stages items g tbl states entries ->
  nth_error states s = Some st -> sorted_items (st_items st).
Proof.
  intros Hst Hs. destruct (stages_data items _ _ _ _ Hst) as (ti & _ & _ & Haut & _). eapply ao_sorted; eauto.
Qed.

(** For the automaton, and any grammar: item [a] expects the terminal [t] next, item [b] is complete with
    lookahead [t], and the production of [a] comes before, or is, that of [b]. *)
Theorem c16_items_rejected_partial {A} (items : list (grammar_item A)) g tbl states entries s a b t :
  stages items g tbl states entries -> holds states s a -> holds states s b ->
  expects g a (T t) -> completed g b -> ordinary g (it_nt b) -> it_la b = Some t ->
  it_nt a < it_nt b \/ it_nt a = it_nt b /\ it_prod a <= it_prod b ->
  (forall gp, ~ expands items gp) /\ exists p, expansion_panics items p.
Proof.
  intros Hst (st & Hs & Ha) (st' & Hs' & Hb) Hea Hcb Hob Hla Hord. assert (st' = st) by congruence; subst st'.
  assert (Hlt : item_lt a b).
  { apply item_lt_iff. destruct Hord as [Hlt|(He & Hle)]; [left; exact Hlt|right; split; [exact He|]].
    destruct (Nat.eq_dec (it_prod a) (it_prod b)) as [Hp|Hp]; [right; split; [exact Hp|left]|left; lia].
    destruct Hea as (pr & Hpr & Hn), Hcb as (pr' & Hpr' & Hc). rewrite He, Hp, Hpr' in Hpr. injection Hpr as ->.
    rewrite Hc. apply nth_error_Some. congruence. }
  destruct (sorted_before _ (state_sorted items _ _ _ _ _ _ Hst Hs) a b Ha Hb Hlt) as (l1 & l2 & Hl & Hi).
  destruct (stages_data items _ _ _ _ Hst) as (ti & _ & _ & Haut & _).
  apply expects_next in Hea. destruct (ao_total _ _ _ _ Haut s st a (T t) Hs Ha Hea) as (j & Hj).
  eapply (clash_rejects items g tbl states entries s st l1 b l2 a (Some t)); eauto.
  - split; [apply completed_is_complete; auto|split; auto].
  - left. exists j, t. auto.
Qed.
(** The dangling else with the longer production first: rejected (the other way round it is accepted, see
    [c16_refuted]). *)
Definition dangling_rejected : list (grammar_item string) :=
  [ tokens [unit_tok "if" "Token::If"; unit_tok "else" "Token::Else"; unit_tok "x" "Token::X"];
    rule true "E" "()" [([#"S"], "()")];
    rule false "S" "()" [([$"if"; #"S"; $"else"; #"S"], "()"); ([$"if"; #"S"], "()"); ([$"x"], "()")] ].
Example case_c16_items : (forall gp, ~ expands dangling_rejected gp) /\ exists p, expansion_panics dangling_rejected p.
Proof.
  assert (H : exists g tbl states entries, stages dangling_rejected g tbl states entries /\ exists s,
            holds states s {| it_nt := 2; it_prod := 0; it_cursor := 2; it_la := Some 1 |} /\
            holds states s {| it_nt := 2; it_prod := 1; it_cursor := 2; it_la := Some 1 |} /\
            expects g {| it_nt := 2; it_prod := 0; it_cursor := 2; it_la := Some 1 |} (T 1) /\
            completed g {| it_nt := 2; it_prod := 1; it_cursor := 2; it_la := Some 1 |} /\ ordinary g 2).
  { do 4 eexists. split; [exists ho_id, 100; split; [exact ho_id_ok|split; [vm_compute; reflexivity|split; [vm_compute; reflexivity|vm_compute; reflexivity]]]|].
    exists 9. split; [holds_it|]. split; [holds_it|]. split; [of_prod|]. split; of_prod. }
  destruct H as (g & tbl & states & entries & Hst & s & Ha & Hb & He & Hc & Ho).
  apply (c16_items_rejected_partial dangling_rejected g tbl states entries s _ _ 1 Hst Ha Hb He Hc Ho eq_refl). right. cbn. lia.
Qed.

(** ** C17: what the emitted ACTION array says, in terms of the item sets

    In particular a shift always wins over a reduction, and so does accepting. *)
Lemma act_entry {A} (items : list (grammar_item A)) g tbl states entries gp : expansion_of items g tbl states entries gp ->
  exists act, act_ok g states act /\ forall s la, s < List.length states -> lookahead g la ->
    exists r, array_at (gp_action gp) s (column g la) = Some r /\
      entry_for g (variant_names g) (gp_sem_actions gp) (act s la) r.
Proof.
  intro He. destruct (expansion_data items _ _ _ _ _ He) as (ti & act & _ & _ & Hgen & _).
  exists act. split; [apply (gn_act _ _ _ _ _ _ _ Hgen)|]. intros s la Hs Hla.
  exact (gn_action _ _ _ _ _ _ _ Hgen s la Hs Hla).
Qed.
Lemma holds_lt states s it : holds states s it -> s < List.length states.
Proof. intros (st & Hs & _). apply nth_error_Some. congruence. Qed.

Theorem c17_shift {A} (items : list (grammar_item A)) g tbl states entries gp s it t :
  expansion_of items g tbl states entries gp -> holds states s it -> expects g it (T t) ->
  exists s', array_at (gp_action gp) s (column g (Some t)) = Some (Some (RShift s')) /\ transition states s (T t) = Some s'.
Proof.
  intros He Hh Hex. destruct (act_entry items _ _ _ _ _ He) as (act & Hact & Hent).
  destruct (expansion_data items _ _ _ _ _ He) as (ti & _ & _ & Hwf & _).
  pose proof (holds_lt _ _ _ Hh) as Hlt. destruct Hh as (st & Hs & Hi).
  assert (Ht : lookahead g (Some t)).
  { destruct Hex as (pr & Hp & Hn). exact (wfg_t g Hwf _ _ _ _ Hp (nth_error_In _ _ Hn)). }
  destruct (ac_shift _ _ _ Hact s st it t Hs Hi (proj1 (expects_next g it _) Hex)) as (n & Hn & Ha).
  destruct (Hent s (Some t) Hlt Ht) as (r & Hr & Hf). rewrite Ha in Hf. destruct r as [[n'| |]|]; try contradiction.
  cbn in Hf. subst n'. exists n. auto.
Qed.
Theorem c17_accept {A} (items : list (grammar_item A)) g tbl states entries gp s it :
  expansion_of items g tbl states entries gp -> holds states s it -> completed g it -> entry_point g (it_nt it) ->
  array_at (gp_action gp) s (column g None) = Some (Some RAccept) /\ it_la it = None.
Proof.
  intros He Hh Hc Hep. destruct (act_entry items _ _ _ _ _ He) as (act & Hact & Hent).
  destruct (stages_data items _ _ _ _ (expansion_stages items _ _ _ _ _ He)) as (ti & _ & Hwf & Haut & Hso & _).
  pose proof (holds_lt _ _ _ Hh) as Hlt. destruct Hh as (st & Hs & Hi).
  assert (Hcur : it_cursor it = 1).
  { destruct Hc as (pr & Hp & Hcu), Hep as (N & HN & Hpub). destruct (wfg_pub g Hwf _ _ HN Hpub) as (q & m & Hq & Hrq).
    unfold get_production in Hp. rewrite HN, Hq in Hp. destruct (it_prod it) as [|[|]]; cbn in Hp; try discriminate.
    injection Hp as <-. rewrite Hcu, Hrq. reflexivity. }
  assert (Hla : it_la it = None).
  { destruct (state_items_valid g tbl Hso states entries Haut s st Hs) as (S & gamma & _ & Hv). specialize (Hv it Hi).
    unfold iv in Hv. clear - Hv Hep Hwf Hcur. remember (it_cursor it) as k eqn:Ek. clear Ek.
    remember (it_nt it) as n eqn:En. remember (it_la it) as la eqn:El. clear En El Hcur.
    induction Hv as [|gamma B p k la pr C q pr' x Hv IH Hp Hn Hq Hf|gamma B p k la pr X Hv IH Hp Hn]; auto.
    exfalso. destruct (wfg_nt g Hwf _ _ _ _ Hp (nth_error_In _ _ Hn)) as (N & HN & Hpr), Hep as (N' & HN' & Hpu). congruence. }
  split; auto. assert (Hacc : act s None = Some AAccept).
  { eapply (ac_accept _ _ _ Hact s st it Hs Hi). split; [exact Hep|auto]. }
  destruct (Hent s None Hlt Logic.I) as (r & Hr & Hf). rewrite Hacc in Hf. destruct r as [[n'| |]|]; try contradiction. exact Hr.
Qed.
(** Every entry comes from an item. *)
Theorem c17_entries {A} (items : list (grammar_item A)) g tbl states entries gp s la r :
  expansion_of items g tbl states entries gp -> s < List.length states -> lookahead g la ->
  array_at (gp_action gp) s (column g la) = Some (Some r) ->
  match r with
  | RShift s' => exists it t, la = Some t /\ holds states s it /\ expects g it (T t) /\ transition states s (T t) = Some s'
  | RReduce nt k idx => exists it pr f, holds states s it /\ completed g it /\ ordinary g nt /\ it_nt it = nt /\ it_la it = la /\
      get_production g nt (it_prod it) = Some pr /\ k = List.length (rhs pr) /\
      nth_error (gp_sem_actions gp) idx = Some f /\ sf_action f = p_action pr
  | RAccept => la = None /\ exists it, holds states s it /\ completed g it /\ entry_point g (it_nt it)
  end.
Proof.
  intros He Hlt Hla Hr. destruct (act_entry items _ _ _ _ _ He) as (act & Hact & Hent).
  destruct (stages_data items _ _ _ _ (expansion_stages items _ _ _ _ _ He)) as (ti & _ & Hwf & Haut & Hso & _).
  destruct (Hent s la Hlt Hla) as (r' & Hr' & Hf). rewrite Hr in Hr'. injection Hr' as <-.
  destruct (act s la) as [a|] eqn:Ea; [|contradiction]. destruct (ac_inv _ _ _ Hact s la a Ea) as (st & Hs & Hinv).
  assert (Hprod : forall it, In it (st_items st) -> exists pr, get_production g (it_nt it) (it_prod it) = Some pr).
  { intros it Hi. destruct (state_items_valid g tbl Hso states entries Haut s st Hs) as (S & gamma & HS & Hv).
    eapply iv_prod; eauto. }
  destruct a as [n|n p|], r as [n'|nt k idx|]; try contradiction; cbn in Hf.
  - subst n'. destruct Hinv as (it & t & -> & Hi & Hn & Ht). exists it, t. split; auto. split; [exists st; auto|].
    split; [apply expects_next; auto|exact Ht].
  - destruct Hf as (<- & pr & f & Hp & Hk & Hfn & Hfa & _). destruct Hinv as (it & Hi & (Hc & Ho) & <- & <- & Hl).
    exists it, pr, f. split; [exists st; auto|]. split; [eapply is_complete_completed; eauto|]. split; [exact Ho|].
    repeat (split; [auto; fail|]). auto.
  - destruct Hinv as (-> & it & Hi & Hpub & Hc & Hl). split; auto. exists it. split; [exists st; auto|]. split; [|exact Hpub].
    destruct (Hprod it Hi) as (pr & Hp). exists pr. split; auto.
    destruct Hpub as (N & HN & Hpu). destruct (wfg_pub g Hwf _ _ HN Hpu) as (q & m & Hq & Hrq).
    unfold get_production in Hp. rewrite HN, Hq in Hp. destruct (it_prod it) as [|[|]]; cbn in Hp; try discriminate.
    injection Hp as <-. rewrite Hrq. exact Hc.
Qed.
(** A complete item's reduction is in the table, unless it lost against a shift or against accepting. *)
Theorem c17_reduce {A} (items : list (grammar_item A)) g tbl states entries gp s it :
  expansion_of items g tbl states entries gp -> holds states s it -> completed g it -> ordinary g (it_nt it) ->
  (exists k idx, array_at (gp_action gp) s (column g (it_la it)) = Some (Some (RReduce (it_nt it) k idx))) \/
  (exists t it', it_la it = Some t /\ holds states s it' /\ expects g it' (T t)) \/
  (it_la it = None /\ exists it', holds states s it' /\ completed g it' /\ entry_point g (it_nt it')).
Proof.
  intros He Hh Hc Ho. pose proof (holds_lt _ _ _ Hh) as Hlt.
  assert (Hla : lookahead g (it_la it)).
  { destruct (expansion_data items _ _ _ _ _ He) as (ti & act & _ & Hwf & _ & _ & _ & ho & fuel & Hho & _ & Hf & Ha).
    destruct Hh as (st & Hs & Hi). destruct (state_items_in_range ho fuel g tbl states entries Hho Hwf Hf Ha s st it Hs Hi) as (pr & _ & _ & Hl). exact Hl. }
  destruct (act_entry items _ _ _ _ _ He) as (act & Hact & Hent). pose proof Hh as (st & Hs & Hi).
  destruct (Hent s (it_la it) Hlt Hla) as (r & Hr & Hf).
  destruct (ac_reduce _ _ _ Hact s st it Hs Hi) as [Ha|[(n & Ha)|Ha]].
  - split; [apply completed_is_complete; auto|exact Ho].
  - rewrite Ha in Hf. destruct r as [[n'|nt k idx|]|]; try contradiction. destruct Hf as (<- & _). left. exists k, idx. auto.
  - rewrite Ha in Hf. destruct r as [[n'|nt k idx|]|]; try contradiction. right. left.
    destruct (c17_entries items _ _ _ _ _ s (it_la it) _ He Hlt Hla Hr) as (it' & t & Ht & Hh' & Hx & _). exists t, it'. auto.
  - rewrite Ha in Hf. destruct r as [[n'|nt k idx|]|]; try contradiction. right. right.
    exact (c17_entries items _ _ _ _ _ s (it_la it) _ He Hlt Hla Hr).
Qed.
(** State 2 of [arith] is that after [E1]: it shifts "+" (terminal 2) and reduces [E -> E1] at end of
    input; state 1 accepts. *)
Example case_c17_shift : exists s', array_at (gp_action arith_gp) 2 2 = Some (Some (RShift s')) /\ transition arith_states 2 (T 2) = Some s'.
Proof.
  apply (c17_shift arith arith_g arith_tbl arith_states arith_entries arith_gp 2 {| it_nt := 2; it_prod := 0; it_cursor := 1; it_la := Some 2 |} 2 arith_expansion);
    [holds_it|of_prod].
Qed.
Example case_c17_accept : array_at (gp_action arith_gp) 1 5 = Some (Some RAccept).
Proof.
  apply (c17_accept arith arith_g arith_tbl arith_states arith_entries arith_gp 1 {| it_nt := 1; it_prod := 0; it_cursor := 1; it_la := None |} arith_expansion);
    [holds_it|of_prod|of_prod].
Qed.
Example case_c17_reduce : exists k idx, array_at (gp_action arith_gp) 2 5 = Some (Some (RReduce 0 k idx)).
Proof.
  destruct (c17_reduce arith arith_g arith_tbl arith_states arith_entries arith_gp 2 {| it_nt := 0; it_prod := 0; it_cursor := 1; it_la := None |} arith_expansion)
    as [H|[(t & it & H & _)|(_ & it & (st & Hs & Hi) & _ & (N & HN & Hp))]]; [holds_it|of_prod|of_prod|exact H|discriminate H|].
  exfalso. vm_compute in Hs. injection Hs as <-. cbn in Hi. destruct Hi as [<-|[<-|[<-|[]]]]; vm_compute in HN; injection HN as <-; discriminate Hp.
Qed.

(** ** C18: no spurious conflict diagnostics *)
Lemma is_raw_spec s : is_raw s = true <-> exists r, s = ("r#" ++ r)%string.
Proof.
  unfold is_raw. split.
  - intro H. destruct s as [|a [|b r]]; cbn [prefix] in H; try discriminate.
    + destruct (Ascii.ascii_dec (Ascii.Ascii false true false false true true true false) a); discriminate.
    + destruct (Ascii.ascii_dec (Ascii.Ascii false true false false true true true false) a) as [<-|]; [|discriminate]. destruct (Ascii.ascii_dec (Ascii.Ascii true true false false false true false false) b) as [<-|]; [|discriminate]. exists r. reflexivity.
  - intros (r & ->). simpl. destruct r; reflexivity.
Qed.
Lemma pub_raw_source {A} (items : list (grammar_item A)) cs ti g : lowered (nts items) cs ti g -> (pub_raw g <-> raw_entry_point items).
Proof.
  intro Hlow. split.
  - intros (nt & N & HN & Hp & Hr). destruct (public_inv _ _ _ _ Hlow _ _ HN Hp) as (D & i & Hin & Hpub & _ & Hname & _).
    rewrite Hname in Hr. apply is_raw_spec in Hr. destruct Hr as (r & Hr). exists D, r. split; auto. eapply slots_In; eauto.
  - intros (D & r & HD & Hpub & Hname). destruct (slot_exists (nts items) D HD) as (i & Hi).
    exists (S i), (nt_of (an_name D) [entry_production i] (an_type D) true). split; [eapply entry_nt; eauto|]. split; auto.
    apply is_raw_spec. exists r. exact Hname.
Qed.
Lemma entry_points_sum {A} (l : list (ast_non_terminal A)) f :
  list_sum (map (fun N => f N + (if an_pub N then 1 else 0)) l) = List.length (filter an_pub l) + list_sum (map f l).
Proof.
  induction l as [|N l IH]; [reflexivity|]. cbn [map filter list_sum fold_right]. fold (list_sum (map (fun N => f N + (if an_pub N then 1 else 0)) l)).
  fold (list_sum (map f l)). rewrite IH. destruct (an_pub N); cbn [List.length]; lia.
Qed.
Lemma lowered_length {A} (nts : list (ast_non_terminal A)) cs ti g : lowered nts cs ti g ->
  n_non_terminals g = List.length (filter an_pub nts) + List.length nts.
Proof.
  intro Hlow. assert (Hl : n_non_terminals g = List.length (skeleton (A := A) 0 nts)).
  { unfold n_non_terminals. pose proof (lo_nts _ _ _ _ Hlow) as H. apply Nat.le_antisymm.
    - destruct (Nat.le_gt_cases (List.length (g_nts g)) (List.length (skeleton (A := A) 0 nts))) as [|Hgt]; auto.
      specialize (H (List.length (skeleton (A := A) 0 nts))). rewrite (proj2 (nth_error_None (skeleton 0 nts) _)) in H by lia. simpl in H. apply nth_error_None in H. lia.
    - destruct (Nat.le_gt_cases (List.length (skeleton (A := A) 0 nts)) (List.length (g_nts g))) as [|Hgt]; auto.
      specialize (H (List.length (g_nts g))). rewrite (proj2 (nth_error_None (g_nts g) _)) in H by lia.
      destruct (nth_error (skeleton 0 nts) (List.length (g_nts g))) eqn:E; [discriminate|]. apply nth_error_None in E. lia. }
  rewrite Hl. clear. generalize 0. induction nts as [|N l IH]; intro k; [reflexivity|]. unfold skeleton in *. cbn [slots flat_map fst snd filter].
  rewrite app_length, IH. unfold block. destruct (an_pub N); cbn [List.length]; lia.
Qed.
Lemma too_big_source {A} (items : list (grammar_item A)) ho fuel te ti g : hash_order_ok ho -> declared_tokens items = [te] ->
  lower (nts items) (te_conversions te) = Ok g -> lowered (nts items) (te_conversions te) ti g -> too_big ho fuel g -> too_large items.
Proof.
  intros Hho Hte Hl Hlow [H|[(nt & k & pr & Hp & H)|[H|(tbl & states & entries & Ht & Ha & H)]]].
  - right. left. rewrite (lower_count _ _ _ Hl), entry_points_sum in H. cbv zeta.
    assert (Hf : forall l : list (ast_non_terminal A), List.length (flat_map an_productions l) = list_sum (map (fun N => List.length (an_productions N)) l)).
    { induction l as [|N l IH]; [reflexivity|]. cbn [flat_map map list_sum fold_right]. rewrite app_length, IH. reflexivity. }
    rewrite Hf. exact H.
  - right. right. right. left. destruct (get_production_inv _ _ _ _ Hlow _ _ _ Hp) as [(N & i & _ & _ & _ & _ & ->)|(N & i & H1 & _ & Hj)].
    + cbn in H. lia.
    + apply nth_error_In in Hj. destruct (added_In _ _ _ _ Hj) as (N' & p & HN' & Hin & _ & Hlp).
      destruct (lprod_rhs _ _ _ _ Hlow _ _ Hlp) as (_ & _ & Hs). exists N', p. split; auto. split; auto.
      rewrite (Forall2_length_ _ _ _ Hs). exact H.
  - right. right. left. rewrite (lowered_length _ _ _ _ Hlow) in H. exact H.
  - right. right. right. right. exists g, tbl, states, entries. split; auto. exists ho, fuel. rewrite (token_entries_one items te Hte). auto.
Qed.

Lemma panic_cases {A} (items : list (grammar_item A)) p : expansion_panics items p ->
  (2 <= List.length (declared_tokens items) /\ p = PDupToken) \/
  (2 <= List.length (declared_states items) /\ p = PDupState) \/
  (declared_tokens items = [] /\ List.length (declared_states items) <= 1 /\ p = PNoToken) \/
  (List.length (declared_tokens items) = 1 /\ List.length (declared_states items) <= 1 /\ lowering_diagnostic (nts items) (cs items) p) \/
  (List.length (declared_tokens items) = 1 /\ List.length (declared_states items) <= 1 /\ supported (nts items) (cs items) /\
   (p = PTryFrom /\ too_large items \/ p = PRawName /\ (raw_token_type items \/ raw_entry_point items) \/ is_conflict p /\ exists g tbl states entries, stages items g tbl states entries /\ ~ no_detected_conflict g states)).
Proof.
  intros (ho & fuel & Hho & Hm). pose proof (macro_unfold ho fuel items) as H. rewrite Hm in H.
  destruct H as [H|[H|[H|(te & Hte & Hst & [Hl|(g & Hl & Hg)])]]]; auto.
  - do 3 right. left. rewrite Hte. split; [reflexivity|]. split; auto. rewrite (token_entries_one items te Hte). apply lower_diagnostic; auto.
  - do 4 right. rewrite Hte. split; [reflexivity|]. split; auto. rewrite (token_entries_one items te Hte).
    split; [apply lower_ok_iff; eauto|].
    pose proof (lower_spec (nts items) (te_conversions te)) as Hs. rewrite Hl in Hs. destruct Hs as (ti & Hlow).
    pose proof (lowered_wf _ _ _ _ Hlow) as Hwf.
    destruct (generate_panics ho Hho fuel g te Hwf p Hg) as [[-> Hb]|[[-> Hr]|Hc]].
    { left. split; auto. eapply too_big_source; eauto. }
    { right. left. split; auto. destruct Hr as [Hr|Hr]; [left|right; apply (pub_raw_source items _ _ _ Hlow); auto].
      apply is_raw_spec in Hr. destruct Hr as (r & Hr). exists te, r. rewrite Hte. split; [left; auto|auto]. }
    right. right. split; auto.
    destruct (generate_conflict ho Hho fuel g te p Hwf Hg Hc) as (tbl & states & entries & H1 & H2 & H3).
    exists g, tbl, states, entries. split; auto. exists ho, fuel. rewrite (token_entries_one items te Hte). auto.
Qed.
Lemma is_conflict_panic p : is_conflict p -> conflict_panic p.
Proof. destruct p; cbn; auto. Qed.

(** A conflict is reported only if the user's grammar has one (of the kinds the macro looks for). *)
Theorem c18_no_spurious_conflict {A} (items : list (grammar_item A)) p :
  distinct_names items -> no_reported_conflict (nts items) -> expansion_panics items p -> ~ conflict_panic p.
Proof.
  intros Hn Hnr Hp Hc. destruct (panic_cases items p Hp) as [(_ & ->)|[(_ & ->)|[(_ & _ & ->)|[(_ & _ & Hd)|(_ & _ & _ & [[-> _]|[[-> _]|(_ & g & tbl & states & entries & Hst & Hnd)]])]]]];
    try contradiction.
  - destruct p; contradiction.
  - destruct (stages_data items _ _ _ _ Hst) as (ti & Hlow & Hwf & Haut & Hso & _). apply Hnd.
    eapply (no_reported_no_detected items Hn ti g Hlow tbl _ _ Haut _ _ (true_up items Hn ti g Hlow tbl Hso)); eauto.
Qed.
(** In particular LR(1) grammars are never rejected because of a conflict. *)
Theorem c18_lr1_no_conflict {A} (items : list (grammar_item A)) p :
  distinct_names items -> ulr1_grammar (nts items) -> expansion_panics items p -> ~ conflict_panic p.
Proof.
  intros Hn Hl. apply c18_no_spurious_conflict; auto. intros N gamma HN Hp [Hrr|[Hsr|Har]]; destruct (Hl N gamma HN Hp) as (H1 & H2).
  - destruct Hrr as (a & p0 & b & q & la & Ha & Hb & Hne). destruct (H1 _ _ _ _ _ Ha Hb) as (E & ->). injection E as ->. auto.
  - destruct Hsr as (a & p0 & b & q & k & la & l & t & Ha & Hv & Hr & Hk & _). eapply H2; [exact Ha|]. exists (Some b), q, k, la, l. auto.
  - destruct Har as (a & p0 & Ha & Hb & _). destruct (H1 _ _ _ _ _ Ha Hb) as (E & _). discriminate.
Qed.
(** On [tails_plain] grammars conflict reporting is exact. *)
Theorem c18_conflicts_exact {A} (items : list (grammar_item A)) :
  distinct_names items -> tails_plain (nts items) ->
  (forall gp, expands items gp -> no_reported_conflict (nts items)) /\
  (forall p, expansion_panics items p -> conflict_panic p -> ~ no_reported_conflict (nts items)).
Proof.
  intros Hn Ht. split.
  - intros gp He N gamma HN Hp Hr. destruct (expands_expansion items gp He) as (g & tbl & states & entries & He').
    destruct (stages_data items _ _ _ _ (expansion_stages items _ _ _ _ _ He')) as (ti & Hlow & Hwf & Haut & _ & Hfc).
    destruct (expansion_data items _ _ _ _ _ He') as (_ & act & _ & _ & _ & Hnd & _).
    exact (no_detected_no_reported items Hn ti g Hlow tbl states entries Haut _ _ (true_down items Hn ti g Hlow tbl (Hfc Hn Ht)) Hnd N gamma HN Hp Hr).
  - intros p Hp Hc Hnr. exact (c18_no_spurious_conflict items p Hn Hnr Hp Hc).
Qed.
Example case_c18 : ~ conflict_panic PDupToken.
Proof. exact (c18_lr1_no_conflict (arith_tokens :: arith) PDupToken arith_names arith_lr1 twice_panics). Qed.
Example case_c18_exact : no_reported_conflict (nts arith).
Proof. exact (proj1 (c18_conflicts_exact arith arith_names arith_plain) arith_gp arith_expands). Qed.

(** ** C19, C20: FIRST sets *)

(** For any grammar: every terminal in the FIRST entry of [n] starts a string derived from [n], and the
    empty flag is set only if [n] derives the empty string. *)
Theorem c19_first_sound {A} (g : grammar A) ho fuel tbl n : hash_order_ok ho -> generate_first_table ho fuel g = Ok tbl ->
  (forall t, In t (fs_terminals (get_first tbl n)) -> derives_first g [NT n] t) /\
  (fs_empty (get_first tbl n) = true -> derives_empty g [NT n]).
Proof.
  intros Hho H. destruct (first_table_sound g ho (hok_terms ho Hho) fuel tbl H) as (H1 & H2). split.
  - intros t Ht. apply first_of_iff. exact (H2 n t Ht).
  - intro Hf. apply nullable_iff. exact (H1 n Hf).
Qed.
(** The converse holds from every set of non-terminals below which no nullable non-terminal comes first
    in a right-hand side; in general it fails ([c20_refuted] in Findings.v). *)
Theorem c20_first_complete_partial {A} (g : grammar A) ho fuel tbl (R : nat -> Prop) n : hash_order_ok ho ->
  generate_first_table ho fuel g = Ok tbl ->
  (forall n p pr m r, R n -> get_production g n p = Some pr -> rhs pr = NT m :: r -> ~ derives_empty g [NT m] /\ R m) ->
  R n ->
  (forall t, derives_first g [NT n] t -> In t (fs_terminals (get_first tbl n))) /\
  (derives_empty g [NT n] -> fs_empty (get_first tbl n) = true).
Proof.
  intros Hho H HR Hn.
  assert (Hpl : plain_leading g R).
  { intros m p pr k r Hm Hp Hr. destruct (HR m p pr k r Hm Hp Hr) as (H1 & H2). split; auto. intro Hk. apply H1. apply nullable_iff; auto. }
  destruct (first_table_complete_on g ho (hok_terms ho Hho) fuel tbl R H Hpl n Hn) as (H1 & H2). split.
  - intros t Ht. apply H2. apply first_of_iff; auto.
  - intro He. apply H1. apply nullable_iff; auto.
Qed.
(** Without empty productions FIRST sets are exact. *)
Theorem c20_eps_free_exact_partial {A} (g : grammar A) ho fuel tbl n t : hash_order_ok ho ->
  generate_first_table ho fuel g = Ok tbl -> eps_free g ->
  In t (fs_terminals (get_first tbl n)) <-> derives_first g [NT n] t.
Proof.
  intros Hho H He. split; [apply (c19_first_sound g ho fuel tbl n Hho H)|].
  intro Hd. eapply first_table_complete_eps_free; eauto; [exact (hok_terms ho Hho)|]. apply first_of_iff; auto.
Qed.
(** FIRST(F) = FIRST(T) = .. = [ "(", "int" ]. *)
Lemma arith_first : generate_first_table ho_id 100 arith_g = Ok arith_tbl. Proof. vm_compute. reflexivity. Qed.
Lemma arith_eps_free : eps_free arith_g.
Proof.
  intros n p pr H Hs. unfold get_production in H. destruct (get_non_terminal arith_g n) as [N|] eqn:E; [|discriminate].
  apply nth_error_In in E. apply nth_error_In in H. revert H.
  cbn in E. destruct E as [<-|[<-|[<-|[<-|[<-|[]]]]]]; cbn; intros H; repeat destruct H as [<-|H]; try contradiction; discriminate Hs.
Qed.
Example case_c19 : derives_first arith_g [NT 2] 4.
Proof. apply (c19_first_sound arith_g ho_id 100 arith_tbl 2 ho_id_ok arith_first). vm_compute. tauto. Qed.
Example case_c20 t : In t [0; 4] <-> derives_first arith_g [NT 2] t.
Proof. exact (c20_eps_free_exact_partial arith_g ho_id 100 arith_tbl 2 t ho_id_ok arith_first arith_eps_free). Qed.
(** With an empty production: the FIRST set of [Test] in [parens]. *)
Definition parens_g : grammar (lexpr string) := Eval vm_compute in fst (fst (fst (stages_data_of parens))).
Definition parens_tbl : first_table := Eval vm_compute in snd (fst (fst (stages_data_of parens))).
Example case_c20_empty : (forall t, derives_first parens_g [NT 2] t -> In t [0]) /\ (derives_empty parens_g [NT 2] -> fs_empty (get_first parens_tbl 2) = true).
Proof.
  apply (c20_first_complete_partial parens_g ho_id 100 parens_tbl (fun n => n = 2) 2 ho_id_ok); [vm_compute; reflexivity| |reflexivity].
  intros n p pr m r -> Hp Hr. exfalso. destruct p as [|[|p]]; [vm_compute in Hp; injection Hp as <-; discriminate Hr..|].
  destruct p; discriminate Hp.
Qed.

(** ** C21: expansion terminates *)
Theorem c21_expansion_terminates {A} (items : list (grammar_item A)) ho : hash_order_ok ho ->
  exists fuel, (exists gp, forall fuel', fuel <= fuel' -> macro ho fuel' items = Ok gp) \/
               (exists p, forall fuel', fuel <= fuel' -> macro ho fuel' items = Panic p).
Proof.
  intro Hho. destruct (expansion_terminates ho items Hho) as (fuel & r & Hr & Hm). exists fuel.
  destruct r as [gp|p|]; [left; exists gp|right; exists p|contradiction]; auto.
Qed.

(** ** C22: expansion does not depend on the iteration order of hash sets and maps *)
Theorem c22_hash_order_irrelevant {A} (items : list (grammar_item A)) ho1 ho2 f1 f2 gp1 : hash_order_ok ho1 -> hash_order_ok ho2 ->
  macro ho1 f1 items = Ok gp1 -> macro ho2 f2 items <> OutOfFuel ->
  exists gp2, macro ho2 f2 items = Ok gp2 /\
    gp_action gp2 = gp_action gp1 /\ gp_goto gp2 = gp_goto gp1 /\ gp_sem_actions gp2 = gp_sem_actions gp1 /\
    gp_expected gp2 = gp_expected gp1 /\ gp_terminal_strs gp2 = gp_terminal_strs gp1 /\ gp_n_terminals gp2 = gp_n_terminals gp1 /\
    gp_conversions gp2 = gp_conversions gp1 /\ Permutation (gp_parsers gp2) (gp_parsers gp1).
Proof.
  intros H1 H2 Hm Hf. pose proof (macro_agree ho1 ho2 H1 H2 f1 f2 items) as H. rewrite Hm in H.
  destruct (macro ho2 f2 items) as [gp2|p|]; try contradiction. exists gp2. split; auto.
  destruct H as (E1 & E2 & E3 & E4 & E5 & E6 & E7 & E8). repeat (split; [auto; fail|]). apply Permutation_sym. exact E7.
Qed.
Theorem c22_same_panic {A} (items : list (grammar_item A)) p q : expansion_panics items p -> expansion_panics items q -> p = q.
Proof. apply panics_once. Qed.
Theorem c22_expands_or_panics {A} (items : list (grammar_item A)) :
  ((exists gp, expands items gp) \/ (exists p, expansion_panics items p)) /\
  ((exists gp, expands items gp) -> (exists p, expansion_panics items p) -> False).
Proof.
  split; [apply expands_or_panics|]. intros (gp & He) (p & Hp). eapply expands_not_panics; eauto.
Qed.
(** The hash order that iterates backwards everywhere gives the same module for [arith]. *)
Definition ho_rev : hash_order := {| ho_terms := @rev _; ho_items := @rev _; ho_gotos := @rev _; ho_entries := @rev _ |}.
Lemma ho_rev_ok : hash_order_ok ho_rev. Proof. split; intro l; apply Permutation_sym, Permutation_rev. Qed.
Example case_c21 : macro ho_id 100 arith = Ok arith_gp /\ macro ho_id 100 rr_grammar = Panic (PReduceReduce 4 None 2 0 3 0).
Proof. split; vm_compute; reflexivity. Qed.
Example case_c22 : exists gp2, macro ho_rev 100 arith = Ok gp2 /\ gp_action gp2 = gp_action arith_gp.
Proof.
  destruct (c22_hash_order_irrelevant arith ho_id ho_rev 100 100 arith_gp ho_id_ok ho_rev_ok) as (gp2 & H1 & H2 & _);
    [vm_compute; reflexivity|vm_compute; discriminate|eauto].
Qed.

(** ** C23: the states are the canonical LR(1) item sets *)

(** Every item of the state reached by [gamma] is LR(1)-valid for [gamma] (any grammar). *)
Theorem c23_items_valid {A} (items : list (grammar_item A)) g tbl states entries n e gamma s it :
  stages items g tbl states entries -> In (n, e) entries -> follow states e gamma = Some s -> holds states s it ->
  lr1_valid g n gamma (it_nt it) (it_prod it) (it_cursor it) (it_la it).
Proof.
  intros Hst He Hf (st & Hs & Hi). destruct (stages_data items _ _ _ _ Hst) as (ti & Hlow & Hwf & Haut & Hso & _).
  apply follow_path in Hf. destruct Hf as (ss & Hp).
  destruct (valid_items g tbl states entries Haut n e He _ _ Hp) as (s' & ss' & st' & E & Hs' & _ & Hv). injection E as -> ->.
  assert (st' = st) by congruence; subst st'. apply Hv in Hi. destruct Hi as (d & Hd).
  pose proof (valid_lr1 g tbl Hso n d _ it Hd) as H. rewrite rev_involutive in H. exact H.
Qed.
(** Conversely, for [tails_plain] grammars; in general it fails ([c23_refuted] in Findings.v). *)
Theorem c23_valid_items_partial {A} (items : list (grammar_item A)) g tbl states entries n e gamma N p k la :
  stages items g tbl states entries -> distinct_names items -> tails_plain (nts items) -> In (n, e) entries ->
  lr1_valid g n gamma N p k la ->
  exists s, follow states e gamma = Some s /\ holds states s {| it_nt := N; it_prod := p; it_cursor := k; it_la := la |}.
Proof.
  intros Hst Hn Ht He Hv. destruct (stages_data items _ _ _ _ Hst) as (ti & Hlow & Hwf & Haut & Hso & Hfc).
  destruct (lr1_valid_complete g tbl n (Hfc Hn Ht) gamma N p k la Hv) as (d & Hd).
  destruct (valid_path g tbl states entries Haut n e He d _ _ Hd) as (ss & Hp).
  destruct (valid_items g tbl states entries Haut n e He _ _ Hp) as (s & ss' & st & -> & Hs & _ & Hi).
  exists s. split; [apply follow_path; eauto|]. exists st. split; auto. apply Hi. eauto.
Qed.
(** There is a transition on [X] exactly if some item expects [X]. *)
Theorem c23_transitions {A} (items : list (grammar_item A)) g tbl states entries s X :
  stages items g tbl states entries ->
  (exists s', transition states s X = Some s') <-> (exists it, holds states s it /\ expects g it X).
Proof.
  intros Hst. destruct (stages_data items _ _ _ _ Hst) as (ti & Hlow & Hwf & Haut & Hso & Hfc). unfold transition. split.
  - intros (s' & H). destruct (nth_error states s) as [st|] eqn:Hs; [|discriminate].
    destruct (ao_goto _ _ _ _ Haut s st X s' Hs H) as (st' & Hs' & Hg & Hne).
    destruct (st_items st') as [|x l] eqn:El; [contradiction|].
    assert (Hx : In x (st_items st')) by (rewrite El; left; auto).
    rewrite <- El in Hg.
    assert (Hk : exists it, In it (st_items st) /\ next_symbol g it = Some X).
    { pose proof (proj1 (proj2 Hg x) Hx) as Hc. clear - Hc.
      induction Hc as [y Hy|y z Hy IH Hsucc]; auto. destruct Hy as (it & H1 & H2 & _). eauto. }
    destruct Hk as (it & Hi & Hx'). exists it. split; [exists st; auto|]. apply expects_next; auto.
  - intros (it & (st & Hs & Hi) & Hx). rewrite Hs. apply expects_next in Hx. eapply ao_total; eauto.
Qed.
Example case_c23_valid : lr1_valid arith_g 1 [NT 2] 2 0 1 (Some 2).
Proof.
  apply (c23_items_valid arith arith_g arith_tbl arith_states arith_entries 1 0 [NT 2] 2 {| it_nt := 2; it_prod := 0; it_cursor := 1; it_la := Some 2 |} arith_stages);
    [vm_compute; tauto|reflexivity|holds_it].
Qed.
Example case_c23_complete : exists s, follow arith_states 0 [NT 2] = Some s /\ holds arith_states s {| it_nt := 2; it_prod := 0; it_cursor := 1; it_la := Some 2 |}.
Proof.
  apply (c23_valid_items_partial arith arith_g arith_tbl arith_states arith_entries 1 0 [NT 2] 2 0 1 (Some 2) arith_stages arith_names arith_plain);
    [vm_compute; tauto|exact case_c23_valid].
Qed.
Example case_c23_transition : exists s', transition arith_states 2 (T 2) = Some s'.
Proof.
  apply (c23_transitions arith arith_g arith_tbl arith_states arith_entries 2 (T 2) arith_stages).
  exists {| it_nt := 2; it_prod := 0; it_cursor := 1; it_la := Some 2 |}. split; [holds_it|of_prod].
Qed.

(** ** C24: states are distinct and reachable *)
Theorem c24_distinct {A} (items : list (grammar_item A)) g tbl states entries i j :
  stages items g tbl states entries -> i < List.length states -> j < List.length states ->
  (forall it, holds states i it <-> holds states j it) -> i = j.
Proof.
  intros Hst Hi Hj H. destruct (stages_data items _ _ _ _ Hst) as (ti & Hlow & Hwf & Haut & Hso & Hfc).
  destruct (nth_error states i) as [si|] eqn:Ei; [|apply nth_error_None in Ei; lia].
  destruct (nth_error states j) as [sj|] eqn:Ej; [|apply nth_error_None in Ej; lia].
  eapply (ao_distinct _ _ _ _ Haut); eauto. apply sorted_ext; [eapply ao_sorted; eauto..|].
  intro x. split; intro Hx.
  - destruct (proj1 (H x) (ex_intro _ si (conj Ei Hx))) as (s & Hs & Hin). congruence.
  - destruct (proj2 (H x) (ex_intro _ sj (conj Ej Hx))) as (s & Hs & Hin). congruence.
Qed.
Theorem c24_reachable {A} (items : list (grammar_item A)) g tbl states entries s :
  stages items g tbl states entries -> s < List.length states ->
  exists n e gamma, In (n, e) entries /\ entry_point g n /\ follow states e gamma = Some s.
Proof.
  intros Hst Hs. destruct (stages_data items _ _ _ _ Hst) as (ti & Hlow & Hwf & Haut & Hso & Hfc).
  destruct (ao_reach _ _ _ _ Haut s Hs) as (n & e & pi & ss & He & Hp). exists n, e, (rev pi).
  split; auto. split; [apply (ao_entry _ _ _ _ Haut n e He)|]. apply follow_path. rewrite rev_involutive. eauto.
Qed.
Example case_c24 : exists n e gamma, In (n, e) arith_entries /\ entry_point arith_g n /\ follow arith_states e gamma = Some 23.
Proof. apply (c24_reachable arith arith_g arith_tbl arith_states arith_entries 23 arith_stages). vm_compute. lia. Qed.
