(** * PropertiesKnuth: generated parsers are canonical LR(1) machines (C54), and what follows (C55)

    Vocabulary: KnuthSpec.v (Knuth's machine over the declared grammar), GenSpec.v ([numbering]: the indices
    of SEMANTIC_ACTIONS), PropSpec.v ([returns_with], [running]). *)
From Verif Require Import LocalProofs Findings Reorder.
From Verif Require Export KnuthSpec PropertiesCode.
From Coq Require Import Permutation.
Local Open Scope string_scope. Local Open Scope list_scope.

(** ** C54: a generated parser does what Knuth's LR(1) machine of the grammar does

    For every grammar in [tails_plain] that expands, LR(1) or not: for all actions, iterators and worlds,
    [parse] returns an outcome after a series of calls exactly if the machine does -- value, error with its
    lists of tokens, panic, position of the iterator, side effects -- and goes on forever exactly if the
    machine does: after [n] iterations of the loop both have made the same calls. *)
Theorem c54_knuth {A} (items : list (grammar_item A)) gp pr : parser_of items gp pr -> tails_plain (nts items) ->
  exists nt_no no variant, numbering items gp nt_no no variant /\
  forall (E V W I : Type) (inj : rval -> V) (usem : A -> list (string * bval V) -> W -> option (V * W)) (next : I -> option (rval + E) * I) it w,
  (forall o evs, returns_with gp inj usem next pr it w o evs <->
     exists kevs, kreturns (nts items) (map cv_from (cs items)) (class items) (fields items inj) usem next (pr_name pr) it w o kevs /\
       evs = map (rendered no pr) kevs) /\
  (forall n it' w' evs, running gp inj usem next pr it w n it' w' evs <->
     exists c kevs, kruns (nts items) (class items) (fields items inj) usem next (pr_name pr) it w n c kevs /\
       kc_iter c = it' /\ kc_world c = w' /\ evs = map (rendered no pr) kevs).
Proof. exact (knuth items gp pr). Qed.

Definition one_plus_two : list (rval + string) := [int 1; ok "Token::Plus"; int 2].
(** [1 + 2]: four [next()] calls, seven reductions, then accepting. *)
Example case_c54 : exists kevs,
  kreturns (nts arith) (map cv_from (cs arith)) (class arith) (fields arith (fun v => v)) sem vec_next "E" one_plus_two []
    {| oc_result := POk (RVOther 3); oc_iter := []; oc_world := ["e"; "e + t"; "f"; "i"; "t"; "f"; "i"] |} kevs /\ List.length kevs = 12.
Proof.
  destruct (c54_knuth _ _ _ arith_parser arith_plain) as (nn & no & va & _ & H).
  destruct (H string rval (list string) (list (rval + string)) (fun v => v) sem vec_next one_plus_two []) as (H1 & _).
  destruct (proj1 (H1 {| oc_result := POk (RVOther 3); oc_iter := []; oc_world := ["e"; "e + t"; "f"; "i"; "t"; "f"; "i"] |} (events_vec arith_gp arith_E one_plus_two)))
    as (kevs & Hk & He); [exists 300; split; vm_compute; reflexivity|].
  exists kevs. split; [exact Hk|]. rewrite <- (map_length (rendered no arith_E) kevs), <- He. vm_compute. reflexivity.
Qed.

(** The dangling else is not LR(1), but accepted by the macro (C16): there the machine shifts. *)
Lemma dangling_plain : tails_plain (nts dangling).
Proof. apply (tails_check_plain _ ["E"; "S"] ["S"]). vm_compute. reflexivity. Qed.
Example case_c54_dangling : exists kevs,
  kreturns (nts dangling) (map cv_from (cs dangling)) (class dangling) (fields dangling (fun v => v)) sem vec_next "E"
    (map ok ["Token::If"; "Token::If"; "Token::X"; "Token::Else"; "Token::X"]) []
    {| oc_result := POk (RVTuple []); oc_iter := []; oc_world := ["()"; "()"; "()"; "()"; "()"] |} kevs /\ List.length kevs = 12.
Proof.
  destruct (c54_knuth _ _ _ dangling_parser dangling_plain) as (nn & no & va & Hn & H).
  destruct (H string rval (list string) (list (rval + string)) (fun v => v) sem vec_next (map ok ["Token::If"; "Token::If"; "Token::X"; "Token::Else"; "Token::X"]) []) as (H1 & _).
  destruct (proj1 (H1 {| oc_result := POk (RVTuple []); oc_iter := []; oc_world := ["()"; "()"; "()"; "()"; "()"] |}
    (events_vec dangling_gp dangling_E (map ok ["Token::If"; "Token::If"; "Token::X"; "Token::Else"; "Token::X"]))))
    as (kevs & Hk & He); [exists 300; split; vm_compute; reflexivity|].
  exists kevs. split; [exact Hk|]. rewrite <- (map_length (rendered no dangling_E) kevs), <- He. vm_compute. reflexivity.
Qed.
Example case_c54_shift : exists gamma, ulr1_reduces (nts dangling) "E" gamma (Some "S") 0 (Some "else") /\
  kshifts (nts dangling) "E" gamma (Some "else") /\ forall n p, ~ kreduces (nts dangling) "E" gamma (Some "else") n p.
Proof.
  destruct dangling_conflict as (gamma & H1 & H2). assert (Hs : kshifts (nts dangling) "E" gamma (Some "else")) by (exists "else"; auto).
  exists gamma. split; auto. split; auto. intros n p (_ & H & _). auto.
Qed.

(** ** C55: what a parser does depends only on the rules below its entry point, and not on declaration order

    Two grammars with the same token entries that agree on the productions of every non-terminal mentioned,
    directly or indirectly, from an entry point: its two parsers do the same -- the same calls of [next()]
    and of action expressions in the same order, the same outcome.  Rules used by other entry points only,
    unused rules, [pub] on other rules, declared types and the order of rules and productions do not matter. *)
Theorem c55_local {A} (items items' : list (grammar_item A)) gp gp' pr pr' :
  parser_of items gp pr -> parser_of items' gp' pr' -> pr_name pr = pr_name pr' -> cs items = cs items' ->
  tails_plain (nts items) -> tails_plain (nts items') -> agree_below (nts items) (nts items') (pr_name pr) ->
  forall (E V W I : Type) (inj : rval -> V) (usem : A -> list (string * bval V) -> W -> option (V * W)) (next : I -> option (rval + E) * I) it w,
  (forall o l, (exists evs, returns_with gp inj usem next pr it w o evs /\ map (called gp) evs = l) <->
               (exists evs, returns_with gp' inj usem next pr' it w o evs /\ map (called gp') evs = l)) /\
  (forall n it' w' l, (exists evs, running gp inj usem next pr it w n it' w' evs /\ map (called gp) evs = l) <->
                      (exists evs, running gp' inj usem next pr' it w n it' w' evs /\ map (called gp') evs = l)).
Proof.
  intros Hp Hp' Hnm Hcs Htp Htp' Hag E V W I inj usem next it w.
  assert (Hag' : agree_below (nts items') (nts items) (pr_name pr')) by (rewrite <- Hnm; apply agree_sym; exact Hag).
  split.
  - intros o l. split; intros (evs & Hr & <-).
    + destruct (local_returns items' items gp' gp pr' pr Hp' Hp (eq_sym Hnm) Htp' Htp Hag' ltac:(congruence) ltac:(rewrite Hcs; apply Permutation_refl) inj usem next it w _ _ Hr)
        as (o' & evs' & H1 & H2 & _ & H3). rewrite Hcs in H3. rewrite <- (H3 eq_refl). eauto.
    + destruct (local_returns items items' gp gp' pr pr' Hp Hp' Hnm Htp Htp' Hag ltac:(congruence) ltac:(rewrite Hcs; apply Permutation_refl) inj usem next it w _ _ Hr)
        as (o' & evs' & H1 & H2 & _ & H3). rewrite Hcs in H3. rewrite <- (H3 eq_refl). eauto.
  - intros n it' w' l. split; intros (evs & Hr & <-).
    + destruct (local_running items' items gp' gp pr' pr Hp' Hp (eq_sym Hnm) Htp' Htp Hag' ltac:(congruence) inj usem next it w _ _ _ _ Hr) as (evs' & H1 & H2). eauto.
    + destruct (local_running items items' gp gp' pr pr' Hp Hp' Hnm Htp Htp' Hag ltac:(congruence) inj usem next it w _ _ _ _ Hr) as (evs' & H1 & H2). eauto.
Qed.

(** [arith] with rules in another order, [pub] on [T], another declared type, and a rule nobody uses. *)
Definition arith_more : list (grammar_item string) :=
  [ arith_tokens;
    rule false "F" "u32" [(["i" ::= $"int"], "i"); ([$"("; "e" ::= #"E"; $")"], "e")];
    rule true "T" "u64" [(["t" ::= #"T"; $"*"; "f" ::= #"F"], "t * f"); (["f" ::= #"F"], "f")];
    rule true "U" "()" [([#"T"; $"+"; #"U"; #"F"], "()"); ([$"*"], "()")];
    rule true "E" "u64" [(["e" ::= #"E1"], "e")];
    rule false "E1" "u64" [(["e" ::= #"E1"; $"+"; "t" ::= #"T"], "e + t"); (["t" ::= #"T"], "t")] ].
Definition arith_more_gp : generated (lexpr string) := Eval vm_compute in module_of arith_more.
Definition arith_more_E : parser_struct := Eval vm_compute in parser_named arith_more_gp "E".
Lemma arith_more_parser : parser_of arith_more arith_more_gp arith_more_E. Proof. prove_parser_of. Qed.
Lemma arith_more_plain : tails_plain (nts arith_more).
Proof. apply (tails_check_plain _ ["E"; "E1"; "T"; "F"; "U"] ["E"; "E1"; "T"; "F"; "U"]). vm_compute. reflexivity. Qed.
Lemma arith_agree : agree_below (nts arith) (nts arith_more) "E".
Proof.
  exists (fun n => In n ["E"; "E1"; "T"; "F"]). split; [left; reflexivity|]. intros n Hn.
  cbn in Hn. destruct Hn as [<-|[<-|[<-|[<-|[]]]]]; (split; [intro pr; cbn; tauto|]);
    intros pr m Hp Hm; cbn in Hp; repeat (destruct Hp as [<-|Hp]); try contradiction; cbn in Hm;
    repeat (destruct Hm as [Hm|Hm]; [try discriminate Hm; injection Hm as <-; cbn; tauto|]); contradiction.
Qed.
Example case_c55 input o l :
  (exists evs, returns_with arith_gp (fun v => v) sem vec_next arith_E input [] o evs /\ map (called arith_gp) evs = l) <->
  (exists evs, returns_with arith_more_gp (fun v => v) sem vec_next arith_more_E input [] o evs /\ map (called arith_more_gp) evs = l).
Proof.
  apply (c55_local arith arith_more); [exact arith_parser|exact arith_more_parser|reflexivity|reflexivity|exact arith_plain|exact arith_more_plain|exact arith_agree].
Qed.
(** The two modules are not the same: their tables have different sizes. *)
Example case_c55_differ : List.length (gp_action arith_gp) <> List.length (gp_action arith_more_gp).
Proof. vm_compute. discriminate. Qed.

(** ** C38, for all outcomes and without LR(1)

    Rules, productions and token entries declared in any order: the same calls and the same outcome; only the
    list of expected tokens in a [ParserError] follows the order of the token entries. *)
Lemma agree_reordered {A} (ns ns' : list (ast_non_terminal A)) S : NoDup (map an_name ns) -> reordered ns ns' -> agree_below ns ns' S.
Proof.
  intros Hn Hre. exists (fun _ => True). split; [exact Logic.I|]. intros n _. split; auto. intro pr.
  destruct (renumbering ns ns' Hn Hre) as (sg & _ & Hs). destruct (renumbering ns' ns (reordered_names _ _ Hn Hre) (reordered_sym _ _ Hre)) as (sg' & _ & Hs').
  split; intro H; apply In_nth_error in H; destruct H as (p & H); rewrite <- uproduction_rules in H.
  - rewrite Hs', uproduction_rules in H. eapply nth_error_In; eauto.
  - rewrite Hs, uproduction_rules in H. eapply nth_error_In; eauto.
Qed.
Theorem c38_outcomes {A} (items items' : list (grammar_item A)) gp gp' pr pr' :
  parser_of items gp pr -> parser_of items' gp' pr' -> pr_name pr = pr_name pr' ->
  reordered (nts items) (nts items') -> Permutation (cs items) (cs items') -> disjoint_patterns (cs items) -> tails_plain (nts items) ->
  forall (E V W I : Type) (inj : rval -> V) (usem : A -> list (string * bval V) -> W -> option (V * W)) (next : I -> option (rval + E) * I) it w,
  (forall o evs, returns_with gp inj usem next pr it w o evs ->
     exists o' evs', returns_with gp' inj usem next pr' it w o' evs' /\ map (called gp') evs' = map (called gp) evs /\ same_outcome o o') /\
  (forall n it' w' l, (exists evs, running gp inj usem next pr it w n it' w' evs /\ map (called gp) evs = l) <->
                      (exists evs, running gp' inj usem next pr' it w n it' w' evs /\ map (called gp') evs = l)).
Proof.
  intros Hp Hp' Hnm Hre Hperm Hdis Htp E V W I inj usem next it w.
  pose proof (proj1 Hp) as Hn. unfold distinct_names in Hn.
  destruct (renumbering (nts items) (nts items') (proj1 Hp) Hre) as (sg & _ & Hs).
  assert (Htp' : tails_plain (nts items')) by (eapply tails_plain_transfer; eauto).
  assert (Hfm : forall tok, first_match (cs items) tok = first_match (cs items') tok) by (intro; apply first_match_perm; auto).
  assert (Hag : agree_below (nts items) (nts items') (pr_name pr)) by (apply agree_reordered; [exact (proj1 Hp)|exact Hre]).
  assert (Hag' : agree_below (nts items') (nts items) (pr_name pr')) by (rewrite <- Hnm; apply agree_sym; exact Hag).
  assert (Hsym : forall o o' : outcome E V W I, same_outcome o o' -> same_outcome o' o).
  { intros o o' (S1 & S2 & [S3|(f & l & l' & S3 & S4 & S5)]); split; auto; split; auto. right. exists f, l', l. auto using Permutation_sym. }
  split.
  - intros o evs Hr. destruct (local_returns items' items gp' gp pr' pr Hp' Hp (eq_sym Hnm) Htp' Htp Hag' (fun tok => eq_sym (Hfm tok))
      (Permutation_map cv_from (Permutation_sym Hperm)) inj usem next it w _ _ Hr) as (o' & evs' & H1 & H2 & H3 & _). exists o', evs'. auto.
  - intros n it' w' l. split; intros (evs & Hr & <-).
    + destruct (local_running items' items gp' gp pr' pr Hp' Hp (eq_sym Hnm) Htp' Htp Hag' (fun tok => eq_sym (Hfm tok)) inj usem next it w _ _ _ _ Hr) as (evs' & H1 & H2). eauto.
    + destruct (local_running items items' gp gp' pr pr' Hp Hp' Hnm Htp Htp' Hag Hfm inj usem next it w _ _ _ _ Hr) as (evs' & H1 & H2). eauto.
Qed.
(** The same error, with the expected tokens listed in the other order. *)
Example case_c38_outcomes : exists o evs, returns_with htira_gp (fun v => v) sem vec_next htira_E [int 1; PLUS; STAR; int 2] [] o evs /\
  same_outcome {| oc_result := PParserError "*" "(, int"; oc_iter := [int 2]; oc_world := ["t"; "f"; "i"]%string |} o.
Proof.
  destruct (c38_outcomes arith htira arith_gp htira_gp arith_E htira_E arith_parser htira_parser eq_refl
    ltac:(exists (rev (nts arith)); split; [apply Permutation_rev|]; cbn; repeat constructor; try (split; [reflexivity|]; split; [reflexivity|]; split; [reflexivity|]); try apply Permutation_refl; try apply perm_swap)
    (Permutation_rev (cs arith)) arith_disjoint arith_plain string rval (list string) (list (rval + string)) (fun v => v) sem vec_next [int 1; PLUS; STAR; int 2] []) as (H & _).
  destruct (H _ _ case_error_token) as (o & evs & H1 & _ & H2). eauto.
Qed.
Example case_c38_error : returns htira_gp (fun v => v) sem vec_next htira_E [int 1; PLUS; STAR; int 2] []
  {| oc_result := PParserError "*" "int, ("; oc_iter := [int 2]; oc_world := ["t"; "f"; "i"]%string |}.
Proof. run_vec. Qed.

(** Without [tails_plain] the order matters: the FIRST sets depend on it (C20).  [c a b] is a sentence; with
    the rules in one order it is accepted, in the other rejected. *)
Definition order1 : list (grammar_item string) :=
  [ tokens [unit_tok "a" "Token::A"; unit_tok "b" "Token::B"; unit_tok "c" "Token::C"];
    rule true "S" "()" [([#"P"; #"X"], "()")];
    rule false "P" "()" [([$"c"], "()")];
    rule false "X" "()" [([#"Y"; $"b"], "()")];
    rule false "Y" "()" [([$"a"], "()"); ([#"Z"], "()")];
    rule false "Z" "()" [([], "()")] ].
Definition order2 : list (grammar_item string) :=
  match order1 with [t; s; p; x; y; z] => [t; s; p; z; y; x] | l => l end.
Definition order1_gp : generated (lexpr string) := Eval vm_compute in module_of order1.
Definition order2_gp : generated (lexpr string) := Eval vm_compute in module_of order2.
Definition order1_S : parser_struct := Eval vm_compute in parser_named order1_gp "S".
Definition order2_S : parser_struct := Eval vm_compute in parser_named order2_gp "S".
Lemma order1_parser : parser_of order1 order1_gp order1_S. Proof. prove_parser_of. Qed.
Lemma order2_parser : parser_of order2 order2_gp order2_S. Proof. prove_parser_of. Qed.
Lemma order1_lr1 : ulr1_grammar (nts order1).
Proof.
  set (tbl := [ {| fs_empty := false; fs_terminals := [2] |}; {| fs_empty := false; fs_terminals := [2] |};
                {| fs_empty := false; fs_terminals := [2] |}; {| fs_empty := false; fs_terminals := [0; 1] |};
                {| fs_empty := true; fs_terminals := [0] |}; {| fs_empty := true; fs_terminals := [] |} ]).
  destruct (lower (nts order1) (cs order1)) as [g| |] eqn:Eg; [|vm_compute in Eg; discriminate..].
  destruct (generate_lr1_automaton ho_id 100 g tbl) as [(states & entries)| |] eqn:Ea.
  - assert (Hc : forallb (clean_state g) states = true /\ first_check g tbl = true).
    { vm_compute in Eg. injection Eg as <-. vm_compute in Ea. injection Ea as <- <-. split; vm_compute; reflexivity. }
    destruct Hc as [Hc1 Hc2].
    refine (clean_lr1_any order1 _ ho_id 100 ho_id_ok g tbl states entries Eg Ea (first_check_tails g tbl Hc2) Hc1). prove_distinct.
  - vm_compute in Eg. injection Eg as <-. vm_compute in Ea. discriminate.
  - vm_compute in Eg. injection Eg as <-. vm_compute in Ea. discriminate.
Qed.
Lemma order_reordered : reordered (nts order1) (nts order2).
Proof.
  exists (nts order2). split.
  - cbn. do 2 apply perm_skip. match goal with |- Permutation [?x; ?y; ?z] _ => exact (Permutation_rev [x; y; z]) end.
  - cbn. repeat constructor; apply Permutation_refl.
Qed.
Lemma order_disjoint : disjoint_patterns (cs order1).
Proof.
  intros tok c d Hc Hd H1 H2. cbn in Hc, Hd.
  destruct Hc as [<-|[<-|[<-|[]]]], Hd as [<-|[<-|[<-|[]]]]; try reflexivity; exfalso; cbn -[String.eqb] in H1, H2; destruct tok; try congruence;
    destruct (String.eqb _ _) eqn:E1 in H1; try congruence; destruct (String.eqb _ _) eqn:E2 in H2; try congruence;
    apply String.eqb_eq in E1, E2; congruence.
Qed.
Definition cab : list (rval + string) := map ok ["Token::C"; "Token::A"; "Token::B"].
Theorem c38_refuted : ~ (forall (items items' : list (grammar_item string)) gp gp' pr pr' l o,
  parser_of items gp pr -> parser_of items' gp' pr' -> pr_name pr = pr_name pr' ->
  reordered (nts items) (nts items') -> cs items = cs items' -> disjoint_patterns (cs items) -> ulr1_grammar (nts items) ->
  returns gp (fun v => v) sem vec_next pr l [] o -> returns gp' (fun v => v) sem vec_next pr' l [] o).
Proof.
  intro H.
  assert (H1 : returns order1_gp (fun v => v) sem vec_next order1_S cab []
    {| oc_result := POk (RVTuple []); oc_iter := []; oc_world := ["()"; "()"; "()"; "()"] |}) by run_vec.
  assert (H2 : returns order2_gp (fun v => v) sem vec_next order2_S cab []
    {| oc_result := PParserError "a" "b"; oc_iter := [ok "Token::B"]; oc_world := [] |}) by run_vec.
  pose proof (H _ _ _ _ _ _ _ _ order1_parser order2_parser eq_refl order_reordered eq_refl order_disjoint order1_lr1 H1) as H3.
  pose proof (c00_deterministic order2_gp order2_S _ _ _ _ _ _ _ H2 H3) as He. discriminate.
Qed.
(** C54 without [tails_plain], even for LR(1) grammars, is false: the machine does not depend on the order. *)
Theorem c54_refuted : ~ (forall (items : list (grammar_item string)) gp pr l o,
  parser_of items gp pr -> ulr1_grammar (nts items) ->
  (exists evs, returns_with gp (fun v => v) sem vec_next pr l [] o evs) <->
  exists kevs, kreturns (nts items) (map cv_from (cs items)) (class items) (fields items (fun v => v)) sem vec_next (pr_name pr) l [] o kevs).
Proof.
  intro H.
  set (o1 := {| oc_result := POk (RVTuple []); oc_iter := []; oc_world := ["()"; "()"; "()"; "()"] |} : outcome string rval (list string) (list (rval + string))).
  assert (H1 : exists evs, returns_with order1_gp (fun v => v) sem vec_next order1_S cab [] o1 evs) by (eexists; run_it).
  assert (H2 : returns order2_gp (fun v => v) sem vec_next order2_S cab []
    {| oc_result := PParserError "a" "b"; oc_iter := [ok "Token::B"]; oc_world := [] |}) by run_vec.
  apply (H order1 order1_gp order1_S cab o1 order1_parser order1_lr1) in H1. destruct H1 as (kevs & Hk).
  assert (Hag : agree_below (nts order2) (nts order1) "S").
  { apply agree_sym. apply agree_reordered; [exact (proj1 order1_parser)|exact order_reordered]. }
  destruct (b_returns (nts order2) (nts order1) "S" Hag (map cv_from (cs order2)) (map cv_from (cs order1)) (class order2) (class order1)
    (fields order2 (fun v => v)) (fields order1 (fun v => v)) (fun _ => eq_refl) (fun _ => eq_refl) (Permutation_refl _) sem vec_next _ _ _ _ Hk) as (kevs' & o & Hk' & _ & _ & Ho).
  rewrite (Ho eq_refl) in Hk'.
  destruct (renumbering (nts order1) (nts order2) (proj1 order1_parser) order_reordered) as (sg & Hinj & Hs).
  destruct (proj2 (H order2 order2_gp order2_S cab o1 order2_parser (ulr1_transfer _ _ sg Hs Hinj order_reordered order1_lr1)) (ex_intro _ kevs' Hk')) as (evs & Hr).
  assert (H3 : returns order2_gp (fun v => v) sem vec_next order2_S cab [] o1) by (destruct Hr as (f & Hr & _); exists f; exact Hr).
  pose proof (c00_deterministic order2_gp order2_S _ _ _ _ _ _ _ H2 H3) as He. discriminate.
Qed.
