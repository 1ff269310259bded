(** * PropertiesMessage: C61 *)
From Coq Require Import NArith Ascii.
From Verif Require Import MessageProofs PropertiesComputed Findings.
Local Open Scope string_scope.

Lemma conflict_panic_data {A} (items : list (grammar_item A)) p : expansion_panics items p -> is_conflict p ->
  exists g tbl states entries, stages items g tbl states entries /\ conflict_in g states p.
Proof.
  intros (ho & fuel & Hho & Hm) Hc. pose proof (macro_unfold ho fuel items) as H. rewrite Hm in H.
  destruct H as [(_ & ->)|[(_ & ->)|[(_ & _ & ->)|(te & Hte & Hst & [Hl|(g & Hl & Hg)])]]]; try contradiction.
  - apply lower_diagnostic in Hl. destruct p; contradiction.
  - pose proof (lower_spec (nts items) (te_conversions te)) as Hs. rewrite Hl in Hs. destruct Hs as (ti & Hlow).
    destruct (generate_panic_conflict ho fuel g te p Hho (lowered_wf _ _ _ _ Hlow) Hg Hc) as (tbl & states & entries & H1 & H2 & H3).
    exists g, tbl, states, entries. split; auto. exists ho, fuel. rewrite (token_entries_one items te Hte). auto.
Qed.

(** ** C61: messages are truthful

    Whatever message [parser!] stops with, what it says is the case ([explained], MessageSpec.v): the declaration it
    names is doubled or missing, the symbol it names is used and not defined, and for a conflict: there is an entry
    point and a sequence of symbols after which the automaton is in the state of that number and at the
    lookahead printed there, the productions with the printed indices both apply. *)
Lemma explained_by {A} (items : list (grammar_item A)) uf msg : distinct_names items ->
  (forall g tbl states entries, stages items g tbl states entries -> exists gf, lookahead_up items g tbl gf uf) ->
  stops_with items msg -> explained items uf msg.
Proof.
  intros Hn Hup (p & Hp & Hm).
  destruct (panic_cases items p Hp) as [(H & ->)|[(H & ->)|[(H & _ & ->)|[(_ & _ & Hd)|(_ & _ & _ & [[-> _]|[[-> _]|(Hc & _)]])]]]];
    try discriminate; try (injection Hm as <-; constructor; assumption).
  - destruct p; cbn in Hd; try contradiction; try discriminate; injection Hm as <-.
    + destruct Hd as (i & j & H1 & H2 & H3). econstructor; eauto.
    + destruct Hd as (H1 & H2). constructor; auto.
    + destruct Hd as (H1 & H2). constructor; auto.
    + destruct Hd as (op & s & H). econstructor; eauto.
    + destruct Hd as (N & q & e & H1 & H2 & H3). econstructor; eauto.
  - destruct (conflict_panic_data items p Hp Hc) as (g & tbl & states & entries & Hst & Hcf).
    destruct (stages_data items _ _ _ _ Hst) as (ti & Hlow & Hwf & Haut & Hso & _).
    destruct (Hup _ _ _ _ Hst) as (gf & Hlu).
    destruct (conflict_explained items Hn ti g Hlow tbl states entries Hst Haut gf uf Hlu p msg Hcf Hm) as (N & gamma & H1 & H2 & H3).
    eapply ex_conflict; eauto.
Qed.

Theorem c61_messages {A} (items : list (grammar_item A)) msg : distinct_names items -> stops_with items msg ->
  explained items (uin_first (nts items)) msg.
Proof.
  intros Hn. apply explained_by; auto. intros g tbl states entries Hst.
  destruct (stages_data items _ _ _ _ Hst) as (ti & Hlow & Hwf & Haut & Hso & _). exists (in_first g).
  exact (true_up items Hn ti g Hlow tbl Hso).
Qed.
(** The conflict is also one for the lookaheads the automaton is built with. *)
Theorem c61_computed {A} (items : list (grammar_item A)) msg : distinct_names items -> stops_with items msg ->
  explained items (ffirst (computed items)) msg.
Proof.
  intros Hn. apply explained_by; auto. intros g tbl states entries Hst. exists (first_la tbl).
  apply (computed_up_down items g tbl states entries Hn Hst).
Qed.
(** [parser!] stops with one of these messages, except for numbers that are too large and raw names (C21): those end
    in a failed conversion and a failed library call. *)
Theorem c61_always_a_message {A} (items : list (grammar_item A)) p : distinct_names items -> expansion_panics items p ->
  (exists msg, panic_message (map cv_from (token_entries items)) p = Some msg /\ stops_with items msg) \/
  (p = PTryFrom /\ (too_large items \/ ~ (N.of_nat (List.length (token_entries items)) <= 4294967296)%N)) \/
  (p = PRawName /\ (raw_token_type items \/ raw_entry_point items)).
Proof.
  intros Hn Hp.
  assert (Hok : forall msg, panic_message (map cv_from (token_entries items)) p = Some msg ->
            exists msg, panic_message (map cv_from (token_entries items)) p = Some msg /\ stops_with items msg).
  { intros msg Hm. exists msg. split; auto. exists p. auto. }
  destruct (panic_cases items p Hp) as [(H & ->)|[(H & ->)|[(H & _ & ->)|[(_ & _ & Hd)|(_ & _ & _ & [[-> Hb]|[[-> Hb]|(Hc & _)]])]]]];
    try (left; eapply Hok; reflexivity); auto.
  - destruct p; cbn in Hd; try contradiction; try (left; eapply Hok; reflexivity). right; left. split; auto.
  - left. destruct (conflict_panic_data items p Hp Hc) as (g & tbl & states & entries & Hst & Hcf).
    destruct (stages_data items _ _ _ _ Hst) as (ti & Hlow & Hwf & Haut & Hso & _).
    destruct Hcf as (s & st & l1 & it & l2 & b & Hs & Heq & Hb & (Hcc & Hpriv & _) & Hcf).
    assert (Hla : forall t, it_la it = Some t -> exists x, nth_error (map cv_from (token_entries items)) t = Some x).
    { intros t Ht. assert (Hit : In it (st_items st)) by (rewrite Heq; apply in_app_iff; right; left; auto).
      destruct (b_state_items items g tbl _ _ (true_up items Hn ti g Hlow tbl Hso) states entries Haut _ _ Hs) as (S0 & gamma & HS & Hv).
      pose proof HS as (M & HM & HMp). destruct (public_inv _ _ ti g Hlow _ _ HM HMp) as (N & i & HN & Hpub & -> & _).
      destruct (b_valid_up items Hn ti g Hlow tbl _ _ (true_up items Hn ti g Hlow tbl Hso) N i HN Hpub _ _ _ _ _ (Hv _ Hit)) as (g2 & bl & la2 & B1 & B2 & B3 & B4 & B5).
      rewrite Ht in B4. destruct la2 as [x|]; [|contradiction]. exists x. exact B4. }
    destruct Hcf as [(n & (t & Ela & _) & ->)|[(_ & ->)|((_ & _ & _ & Ela) & ->)]].
    + rewrite Ela in *. destruct (Hla t eq_refl) as (x & Hx). eapply Hok. cbn [panic_message]. rewrite Hx. reflexivity.
    + destruct (it_la it) as [t|]; [|eapply Hok; reflexivity]. destruct (Hla t eq_refl) as (x & Hx). eapply Hok. cbn [panic_message]. rewrite Hx. reflexivity.
    + rewrite Ela in *. eapply Hok. reflexivity.
Qed.
(** The numbers in a message stand for one state and one production only. *)
Theorem c61_state_unique {A} (items : list (grammar_item A)) S gamma s s' : distinct_names items ->
  state_after items S gamma s -> state_after items S gamma s' -> s = s'.
Proof.
  intros Hn (g & tbl & states & entries & n & N & e & gamma' & Hst & HN & Hpub & HNm & He & Hg & Hf)
    (g2 & tbl2 & states2 & entries2 & n2 & N2 & e2 & gamma2 & Hst2 & HN2 & Hpub2 & HNm2 & He2 & Hg2 & Hf2).
  destruct (stages_same items _ _ _ _ _ _ _ _ Hst Hst2) as (<- & _ & <- & <-).
  destruct (stages_data items _ _ _ _ Hst) as (ti & Hlow & Hwf & Haut & _).
  destruct (public_inv _ _ ti g Hlow _ _ HN Hpub) as (D & i & HD & _ & -> & E & _).
  destruct (public_inv _ _ ti g Hlow _ _ HN2 Hpub2) as (D2 & i2 & HD2 & _ & -> & E2 & _).
  assert (i2 = i).
  { pose proof (slot_index (nts items) Hn _ _ HD) as Q1. pose proof (slot_index (nts items) Hn _ _ HD2) as Q2. congruence. }
  subst i2.
  assert (e2 = e).
  { pose proof (ao_entries_nodup _ _ _ _ Haut) as Hnd. clear - He He2 Hnd. induction entries as [|[a b] l IH]; cbn in *; [contradiction|].
    inversion Hnd as [|? ? H1 H2]; subst. destruct He as [He|He], He2 as [He2|He2].
    - congruence.
    - injection He as -> ->. exfalso. apply H1. apply (in_map fst) in He2. exact He2.
    - injection He2 as -> ->. exfalso. apply H1. apply (in_map fst) in He. exact He.
    - auto. }
  subst e2. assert (gamma2 = gamma').
  { clear - Hg Hg2 Hn Hlow. revert gamma2 Hg2. induction Hg as [|x y l l' H1 H2 IH]; intros gamma2 Hg2; inversion Hg2 as [|? y2 ? l2 H3 H4]; subst; auto.
    f_equal; [|auto]. destruct x as [x|x|x|x], y as [y|y], y2 as [y2|y2]; cbn in H1, H3; try contradiction.
    - f_equal. eapply terminal_unique; eauto.
    - f_equal. apply lowered_index_iff in H1, H3; auto. congruence. }
  congruence.
Qed.

(** One grammar, one message. *)
Theorem c61_one_message {A} (items : list (grammar_item A)) m1 m2 : stops_with items m1 -> stops_with items m2 -> m1 = m2.
Proof.
  intros (p & (ho & f & Hho & H) & Hm) (p' & (ho' & f' & Hho' & H') & Hm').
  pose proof (macro_agree ho ho' Hho Hho' f f' items) as E. rewrite H, H' in E. cbn in E. congruence.
Qed.

(** Names in messages can be read back: different tokens are printed differently. *)
Fixpoint all_chars (n : nat) : list Ascii.ascii := match n with 0 => [] | S k => all_chars k ++ [Ascii.ascii_of_nat k] end.
Lemma all_chars_In n : forall k, k < n -> In (Ascii.ascii_of_nat k) (all_chars n).
Proof.
  induction n as [|n IH]; intros k Hk; [lia|]. cbn. apply in_app_iff. destruct (Nat.eq_dec k n) as [->|]; [right; left; auto|left; apply IH; lia].
Qed.
Lemma every_char c : In c (all_chars 256).
Proof. rewrite <- (Ascii.ascii_nat_embedding c). apply all_chars_In. apply Ascii.nat_ascii_bounded. Qed.
Lemma debug_prefix_free : forall c d, prefix (debug_char c) (debug_char d) = true -> c = d.
Proof.
  assert (H : forallb (fun c => forallb (fun d => negb (prefix (debug_char c) (debug_char d)) || Ascii.eqb c d) (all_chars 256)) (all_chars 256) = true)
    by (vm_compute; reflexivity).
  intros c d Hp. rewrite forallb_forall in H. specialize (H c (every_char c)). rewrite forallb_forall in H. specialize (H d (every_char d)).
  rewrite Hp in H. cbn in H. apply Ascii.eqb_eq. exact H.
Qed.
Lemma app_prefix (a b x y : string) : a ++ x = b ++ y -> prefix a b = true \/ prefix b a = true.
Proof.
  revert b. induction a as [|c a IH]; intros b H; [left; destruct b; reflexivity|]. destruct b as [|d b]; [right; reflexivity|].
  cbn in H. injection H as -> H. cbn. destruct (Ascii.ascii_dec d d) as [_|n]; [|contradiction]. exact (IH b H).
Qed.
Lemma app_cancel (a x y : string) : a ++ x = a ++ y -> x = y.
Proof. induction a as [|c a IH]; cbn; intro H; [exact H|]. injection H as H. auto. Qed.
Lemma debug_char_not_quote c : exists d r, debug_char c = String d r /\ d <> """"%char.
Proof.
  assert (H : forallb (fun c => match debug_char c with String d _ => negb (Ascii.eqb d """"%char) | "" => false end) (all_chars 256) = true)
    by (vm_compute; reflexivity).
  rewrite forallb_forall in H. specialize (H c (every_char c)). destruct (debug_char c) as [|d r]; [discriminate|].
  exists d, r. split; auto. intros ->. discriminate.
Qed.
Lemma debug_chars_inj a : forall b x y, debug_chars a ++ """" ++ x = debug_chars b ++ """" ++ y -> a = b /\ x = y.
Proof.
  induction a as [|c a IH]; intros [|d b] x y H; cbn [debug_chars] in H.
  - cbn in H. injection H as ->. auto.
  - destruct (debug_char_not_quote d) as (e & r & E & Hne). rewrite E in H. cbn in H. injection H as <- _. contradiction.
  - destruct (debug_char_not_quote c) as (e & r & E & Hne). rewrite E in H. cbn in H. injection H as -> _. contradiction.
  - rewrite !str_assoc in H. assert (c = d).
    { destruct (app_prefix _ _ _ _ H) as [Hp|Hp]; apply debug_prefix_free in Hp; auto. }
    subst d. apply app_cancel in H. destruct (IH _ _ _ H) as (-> & ->). auto.
Qed.
Theorem c61_names_readable a b : debug_str a = debug_str b -> a = b.
Proof.
  unfold debug_str. intro H. apply app_cancel in H.
  destruct (debug_chars_inj a b "" "") as (E & _); [|exact E]. exact H.
Qed.
Example case_c61_readable : debug_str "\" <> debug_str "\\".
Proof. intro H. apply c61_names_readable in H. discriminate. Qed.

(** A name is printed as a Rust literal for it. *)
Fixpoint hex_read (n : nat) (s : string) : option nat :=
  match s with "" => Some n | String c s' => match digit_value c with Some d => hex_read (16 * n + d) s' | None => None end end.
Lemma hex_read_more s : forall h n m, hex_number h n -> hex_read n s = Some m -> hex_number (h ++ s) m.
Proof.
  induction s as [|c s IH]; intros h n m Hh Hr; cbn [hex_read] in Hr.
  - injection Hr as <-. replace (h ++ "") with h by (clear; induction h as [|a h IH]; [reflexivity|cbn; f_equal; exact IH]). exact Hh.
  - destruct (digit_value c) as [d|] eqn:Ed; [|discriminate].
    replace (h ++ String c s) with ((h ++ String c "") ++ s) by (rewrite str_assoc; reflexivity). eapply IH; [|exact Hr]. constructor; assumption.
Qed.
Lemma hex_read_number c s m : hex_read 0 (String c s) = Some m -> hex_number (String c s) m.
Proof.
  cbn [hex_read]. destruct (digit_value c) as [d|] eqn:Ed; [|discriminate]. intro H. exact (hex_read_more s (String c "") d m (hx_one c d Ed) H).
Qed.
Lemma debug_char_literal c : literal_char (debug_char c) c.
Proof.
  unfold debug_char. pose proof (Ascii.ascii_nat_embedding c) as E. pose proof (Ascii.nat_ascii_bounded c) as B.
  remember (Ascii.nat_of_ascii c) as n eqn:En.
  destruct (Nat.eqb_spec n 0) as [->|H0]; [rewrite <- E; constructor|].
  destruct (Nat.eqb_spec n 9) as [->|H9]; [rewrite <- E; constructor|].
  destruct (Nat.eqb_spec n 10) as [->|H10]; [rewrite <- E; constructor|].
  destruct (Nat.eqb_spec n 13) as [->|H13]; [rewrite <- E; constructor|].
  destruct (Nat.eqb_spec n 34) as [->|H34]; [rewrite <- E; constructor|].
  destruct (Nat.eqb_spec n 92) as [->|H92]; [rewrite <- E; constructor|].
  destruct (Nat.ltb_spec n 16) as [L|L].
  - rewrite <- E. apply lc_unicode; [|lia]. clear - L. do 16 (destruct n as [|n]; [apply hex_read_number; vm_compute; reflexivity|]). lia.
  - destruct (Nat.ltb n 32 || Nat.eqb n 127) eqn:Eo.
    + rewrite <- E. rewrite <- (str_assoc (hex_digit (n / 16))). apply lc_unicode; [|apply Bool.orb_true_iff in Eo; rewrite Nat.ltb_lt, Nat.eqb_eq in Eo; lia].
      apply Bool.orb_true_iff in Eo. rewrite Nat.ltb_lt, Nat.eqb_eq in Eo. destruct Eo as [L2| ->]; [|apply hex_read_number; vm_compute; reflexivity].
      clear - L L2. do 16 (destruct n as [|n]; [lia|]). do 16 (destruct n as [|n]; [apply hex_read_number; vm_compute; reflexivity|]). lia.
    + apply Bool.orb_false_iff in Eo. rewrite Nat.ltb_ge, Nat.eqb_neq in Eo. destruct Eo as [L2 L3].
      apply lc_plain; rewrite <- ?En; auto; intros ->; subst n; [apply H34|apply H92]; reflexivity.
Qed.
Theorem c61_literal s : string_literal (debug_str s) s.
Proof.
  exists (debug_chars s). split; [reflexivity|]. induction s as [|c s IH]; [constructor|]. cbn [debug_chars]. constructor; [apply debug_char_literal|exact IH].
Qed.
Example case_c61_literal : string_literal (debug_str (String (Ascii.ascii_of_nat 27) "[x")) (String (Ascii.ascii_of_nat 27) "[x") /\
  debug_str (String (Ascii.ascii_of_nat 27) "[x") = """\u{1b}[x""".
Proof. split; [apply c61_literal|reflexivity]. Qed.

(** *** Cases *)
Ltac stops p := exists p; split; [exists ho_id, 100; split; [exact ho_id_ok|vm_compute; reflexivity]|vm_compute; reflexivity].

(** Two productions end after "a". *)
Lemma rr_message : stops_with rr_grammar "(4, None): Overriding Reduce(2, 0) action with Reduce(3, 0)".
Proof. stops (PReduceReduce 4 None 2 0 3 0). Qed.
Example case_c61_reduce_reduce : explained rr_grammar (uin_first (nts rr_grammar)) "(4, None): Overriding Reduce(2, 0) action with Reduce(3, 0)".
Proof. apply c61_messages; [prove_distinct|exact rr_message]. Qed.

(** The dangling else with the longer production first. *)
Definition dangling2 : list (grammar_item string) :=
  [ tokens [unit_tok "if" "Token::If"; unit_tok "else" "Token::Else"; unit_tok "x" "Token::X"];
    rule true "E" "()" [([#"S"], "()")];
    rule false "S" "()" [([$"if"; #"S"; $"else"; #"S"], "()"); ([$"if"; #"S"], "()"); ([$"x"], "()")] ].
Lemma sr_message : stops_with dangling2 "(9, Some(""else"")): Overriding Shift(11) with Reduce(2, 1)".
Proof. stops (PShiftReduce 9 (Some 1) 11 2 1). Qed.
Example case_c61_shift_reduce : exists N gamma, In N (nts dangling2) /\ an_pub N = true /\
  conflict_message dangling2 (uin_first (nts dangling2)) (an_name N) gamma "(9, Some(""else"")): Overriding Shift(11) with Reduce(2, 1)".
Proof.
  assert (Hd : distinct_names dangling2) by prove_distinct. pose proof (c61_messages dangling2 _ Hd sr_message) as H.
  remember "(9, Some(""else"")): Overriding Shift(11) with Reduce(2, 1)" as m eqn:E. destruct H; try discriminate. eauto.
Qed.
(** [S -> X | "a"], [X -> S]: after [S] the input may be over, or another [X] may end. *)
Definition around : list (grammar_item string) :=
  [ tokens [unit_tok "a" "Token::A"]; rule true "S" "()" [([#"X"], "()"); ([$"a"], "()")]; rule false "X" "()" [([#"S"], "()")] ].
Lemma ar_message : stops_with around "(1, None): Overriding Accept action with Reduce(2, 0)".
Proof. stops (PAcceptReduce 1 None 2 0). Qed.
Example case_c61_accept_reduce : explained around (uin_first (nts around)) "(1, None): Overriding Accept action with Reduce(2, 0)".
Proof. apply c61_messages; [prove_distinct|exact ar_message]. Qed.
Example case_c61_one : ~ stops_with around "`enum Token` is declared multiple times".
Proof. intro H. pose proof (c61_one_message around _ _ H ar_message). discriminate. Qed.
Example case_c61_state : forall s, state_after around "S" [ASNonTerminal "S"] s -> s = 1.
Proof.
  intros s H. apply (c61_state_unique around "S" [ASNonTerminal "S"]); auto; [prove_distinct|].
  assert (Hd : exists g tbl states entries, stages around g tbl states entries /\ exists N e, get_non_terminal g 1 = Some N /\ nt_public N = true /\ nt_name N = "S" /\
            In (1, e) entries /\ follow states e [NT 0] = Some 1).
  { do 4 eexists. split; [exists ho_id, 100; split; [exact ho_id_ok|split; [vm_compute; reflexivity|split; [vm_compute; reflexivity|vm_compute; reflexivity]]]|].
    eexists. exists 0. split; [vm_compute; reflexivity|]. split; [reflexivity|]. split; [reflexivity|]. split; [vm_compute; auto|vm_compute; reflexivity]. }
  destruct Hd as (g2 & tbl2 & states2 & entries2 & Hst2 & N & e & H1 & H2 & H3 & H4 & H5).
  exists g2, tbl2, states2, entries2, 1, N, e, [NT 0]. repeat (split; [assumption|]). split; [|exact H5].
  constructor; [|constructor]. exists [], (nth 0 (nts around) (Build_ast_non_terminal _ false "" "" [])), (tl (nts around)). vm_compute. auto.
Qed.

(** The message for a token without an entry calls it a non-terminal; quotes, backslashes and control characters in
    it are escaped. *)
Definition no_token : list (grammar_item string) :=
  [ tokens [unit_tok "a" "Token::A"]; rule true "S" "()" [([$"a"; $"say ""b"""], "()")] ].
Example case_c61_terminal : stops_with no_token "Unknown non-terminal: ""say \""b\""""" /\
  explained no_token (uin_first (nts no_token)) "Unknown non-terminal: ""say \""b\""""".
Proof.
  assert (H : stops_with no_token "Unknown non-terminal: ""say \""b\""""") by stops (PUnknownTerminal "say ""b""").
  split; [exact H|]. apply c61_messages; [prove_distinct|exact H].
Qed.
Example case_c61_always : exists msg, stops_with no_token msg.
Proof.
  assert (Hp : expansion_panics no_token (PUnknownTerminal "say ""b""")) by (exists ho_id, 100; split; [exact ho_id_ok|vm_compute; reflexivity]).
  destruct (c61_always_a_message no_token _ ltac:(prove_distinct) Hp) as [(m & _ & H)|[(E & _)|(E & _)]]; [eauto|discriminate|discriminate].
Qed.
Example case_c61_computed : explained around (ffirst (computed around)) "(1, None): Overriding Accept action with Reduce(2, 0)".
Proof. apply c61_computed; [prove_distinct|exact ar_message]. Qed.
