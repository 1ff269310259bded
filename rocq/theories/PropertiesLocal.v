(** * PropertiesLocal: what a parser depends on (C63)

    C55 and C62 together, for every accepted grammar: a parser is determined by the productions below its entry point
    and their computed FIRST sets.  The latter are not determined by these productions: rules that nothing refers
    to can change a parser. *)
From Verif Require Import LocalBy AddedRuns EntryProofs ComputedProofs Findings PropertiesKnuth PropertiesGen PropertiesEntry.
From Verif Require Export EntrySpec PropertiesCode PropertiesComputed.
From Coq Require Import Permutation.
Local Open Scope string_scope. Local Open Scope list_scope.

Theorem c63_below {A} (items items' : list (grammar_item A)) gp gp' pr pr' :
  parser_of items gp pr -> parser_of items' gp' pr' -> pr_name pr = pr_name pr' -> same_below items items' (pr_name pr) ->
  forall (E V W I : Type) (inj : rval -> V) (usem : A -> list (string * bval V) -> W -> option (V * W)) (next : I -> option (rval + E) * I) it w,
  (forall tok, upcoming next it tok -> first_match (cs items) tok = first_match (cs items') tok) ->
  (forall o evs, returns_with gp inj usem next pr it w o evs ->
     exists o' evs', returns_with gp' inj usem next pr' it w o' evs' /\ map (called gp) evs = map (called gp') evs' /\ same_outcome o o' /\
       (same_used_order (nts items) (map cv_from (cs items)) (map cv_from (cs items')) -> o = o')) /\
  (forall n it1 w1 evs, running gp inj usem next pr it w n it1 w1 evs ->
     exists evs', running gp' inj usem next pr' it w n it1 w1 evs' /\ map (called gp) evs = map (called gp') evs').
Proof.
  intros Hp Hp' Hnm (R & HS & HR) E V W I inj usem next it w Hnext.
  pose proof (fun n Hn => conj (proj1 (HR n Hn)) (proj1 (proj2 (HR n Hn)))) as HR1.
  pose proof (fun n Hn => proj2 (proj2 (HR n Hn))) as HF1. split.
  - intros o evs Hr. destruct (below_returns items items' gp gp' pr pr' Hp Hp' Hnm R HS HR1 HF1 inj usem next it Hnext w o evs Hr) as (o' & evs' & H1 & H2 & H3 & H4).
    exists o', evs'. split; auto. split; auto. split; auto. intros (keep & K1 & K2). apply H4. exists keep. split; auto.
    intros t Ht. apply K1. eapply rules_mentioned; eauto.
  - exact (below_running items items' gp gp' pr pr' Hp Hp' Hnm R HS HR1 HF1 inj usem next it Hnext w).
Qed.

(** [c b] is a sentence of [far1]; it is rejected, because the round of src/first.rs that would add [b] to the FIRST set of
    X is not made: setting "may be empty" does not ask for another round.  Rules for U1, U2, U3, which nothing
    refers to, ask for it. *)
Definition far1 : list (grammar_item string) :=
  [ tokens [unit_tok "a" "Token::A"; unit_tok "b" "Token::B"; unit_tok "c" "Token::C"];
    rule true "S" "()" [([#"P"; #"X"], "()")];
    rule false "P" "()" [([$"c"], "()")];
    rule false "X" "()" [([#"Y"; $"b"], "()")];
    rule false "Y" "()" [([$"a"], "()"); ([#"Z"], "()")];
    rule false "Z" "()" [([#"Q"], "()")];
    rule false "Q" "()" [([], "()")] ].
Definition far2 : list (grammar_item string) :=
  far1 ++ [ rule false "U3" "()" [([#"U2"], "()")]; rule false "U2" "()" [([#"U1"], "()")]; rule false "U1" "()" [([$"a"], "()")] ].
Definition far1_gp : generated (lexpr string) := Eval vm_compute in module_of far1.
Definition far2_gp : generated (lexpr string) := Eval vm_compute in module_of far2.
Definition far1_S : parser_struct := Eval vm_compute in parser_named far1_gp "S".
Definition far2_S : parser_struct := Eval vm_compute in parser_named far2_gp "S".
Lemma far1_parser : parser_of far1 far1_gp far1_S. Proof. prove_parser_of. Qed.
Lemma far2_parser : parser_of far2 far2_gp far2_S. Proof. prove_parser_of. Qed.
Definition cb : list (rval + string) := map ok ["Token::C"; "Token::B"].
Lemma far1_rejects : returns far1_gp (fun v => v) sem vec_next far1_S cb [] {| oc_result := PParserError "b" "a"; oc_iter := []; oc_world := [] |}.
Proof. run_vec. Qed.
Lemma far2_accepts : returns far2_gp (fun v => v) sem vec_next far2_S cb [] {| oc_result := POk (RVTuple []); oc_iter := []; oc_world := ["()"; "()"; "()"; "()"; "()"; "()"] |}.
Proof. run_vec. Qed.
Lemma far_agree : agree_below (nts far1) (nts far2) "S".
Proof.
  exists (fun n => In n ["S"; "P"; "X"; "Y"; "Z"; "Q"]). split; [left; reflexivity|]. intros n Hn.
  cbn in Hn. destruct Hn as [<-|[<-|[<-|[<-|[<-|[<-|[]]]]]]]; (split; [intro pr; cbn; tauto|]);
    intros pr m Hp Hm; cbn in Hp; repeat (destruct Hp as [<-|Hp]); try contradiction; cbn in Hm;
    repeat (destruct Hm as [Hm|Hm]; [try discriminate Hm; injection Hm as <-; cbn; tauto|]); contradiction.
Qed.
(** C55 for grammars that are not [tails_plain] is false: the two grammars have the same rules for everything reachable. *)
Theorem c63_refuted : ~ (forall (items items' : list (grammar_item string)) gp gp' pr pr' l o,
  parser_of items gp pr -> parser_of items' gp' pr' -> pr_name pr = pr_name pr' -> cs items = cs items' ->
  agree_below (nts items) (nts items') (pr_name pr) ->
  returns gp (fun v => v) sem vec_next pr l [] o -> returns gp' (fun v => v) sem vec_next pr' l [] o).
Proof.
  intro H. pose proof (H _ _ _ _ _ _ _ _ far1_parser far2_parser eq_refl eq_refl far_agree far1_rejects) as H3.
  pose proof (c00_deterministic far2_gp far2_S _ _ _ _ _ _ _ far2_accepts H3) as He. discriminate.
Qed.

(** Another entry point and another token entry, which leave the computed sets of the others alone: both parsers reject [c b]. *)
Definition far3 : list (grammar_item string) :=
  tokens [unit_tok "b" "Token::B"; unit_tok "d" "Token::D"; unit_tok "c" "Token::C"; unit_tok "a" "Token::A"] ::
  rule true "M" "()" [([$"d"; #"X"], "()")] :: tl far1.
Definition far3_gp : generated (lexpr string) := Eval vm_compute in module_of far3.
Definition far3_S : parser_struct := Eval vm_compute in parser_named far3_gp "S".
Lemma far3_parser : parser_of far3 far3_gp far3_S. Proof. prove_parser_of. Qed.
Definition far1_st := Eval vm_compute in stages_data_of far1.
Definition far3_st := Eval vm_compute in stages_data_of far3.
Lemma far1_stages : stages far1 (fst (fst (fst far1_st))) (snd (fst (fst far1_st))) (snd (fst far1_st)) (snd far1_st).
Proof. prove_stages. Qed.
Lemma far3_stages : stages far3 (fst (fst (fst far3_st))) (snd (fst (fst far3_st))) (snd (fst far3_st)) (snd far3_st).
Proof. prove_stages. Qed.
(** Comparing computed sets, given the tables. *)
Definition first_names {A} (items : list (grammar_item A)) (tbl : first_table) (n : string) : list (option string) :=
  match map_get String.eqb n (nt_indices_of (nts items)) with
  | Some i => map (nth_error (map cv_from (cs items))) (terms tbl i)
  | None => []
  end.
Lemma first_names_terms {A} (items : list (grammar_item A)) g tbl states entries n t : distinct_names items -> stages items g tbl states entries ->
  f_terms (computed items) n t <-> In (Some t) (first_names items tbl n).
Proof.
  intros Hd Hst. rewrite (computed_terms items Hd _ _ _ _ Hst). unfold first_names. split.
  - intros (i & j & -> & Hj & Ht). apply in_map_iff. eauto.
  - destruct (map_get _ _ _) as [i|]; [|contradiction]. intro H. apply in_map_iff in H. destruct H as (j & Hj & Hi). eauto.
Qed.
Lemma far3_below : same_below far1 far3 "S".
Proof.
  exists (fun n => In n ["S"; "P"; "X"; "Y"; "Z"; "Q"]). split; [left; reflexivity|]. intros n Hn.
  destruct far1_parser as (Hd & _), far3_parser as (Hd' & _).
  rewrite (computed_empty far1 Hd _ _ _ _ far1_stages), (computed_empty far3 Hd' _ _ _ _ far3_stages).
  split; [|split; [|split; [|intro t; rewrite (first_names_terms far1 _ _ _ _ n t Hd far1_stages), (first_names_terms far3 _ _ _ _ n t Hd' far3_stages)]]];
    cbn in Hn; destruct Hn as [<-|[<-|[<-|[<-|[<-|[<-|[]]]]]]].
  1-6: intro pr; cbn; tauto.
  1-6: intros pr m Hp Hm; cbn in Hp; repeat (destruct Hp as [<-|Hp]); try contradiction; cbn in Hm;
    repeat (destruct Hm as [Hm|Hm]; [try discriminate Hm; injection Hm as <-; cbn; tauto|]); contradiction.
  1-6: split; intros (i & Hi & Hf); vm_compute in Hi; injection Hi as <-; vm_compute in Hf; try discriminate Hf; eexists; split; reflexivity.
  all: vm_compute; tauto.
Qed.
Example case_c63_below l : exists p, p = "S"%string /\ same_below far1 far3 p /\
  ((forall tok, upcoming vec_next l tok -> first_match (cs far1) tok = first_match (cs far3) tok) ->
   forall o evs, returns_with far1_gp (fun v => v) sem vec_next far1_S l [] o evs ->
     exists o' evs', returns_with far3_gp (fun v => v) sem vec_next far3_S l [] o' evs' /\ map (called far1_gp) evs = map (called far3_gp) evs' /\ same_outcome o o').
Proof.
  exists "S"%string. split; [reflexivity|]. split; [exact far3_below|]. intros Hl o evs Hr.
  destruct (proj1 (c63_below far1 far3 far1_gp far3_gp far1_S far3_S far1_parser far3_parser eq_refl far3_below _ _ _ _ (fun v => v) sem vec_next l [] Hl) o evs Hr)
    as (o' & evs' & H1 & H2 & H3 & _). eauto.
Qed.
(** [c b] is such an input, and its error is the one above. *)
Example case_c63_cb : (forall tok, upcoming vec_next cb tok -> first_match (cs far1) tok = first_match (cs far3) tok) /\
  returns far3_gp (fun v => v) sem vec_next far3_S cb [] {| oc_result := PParserError "b" "a"; oc_iter := []; oc_world := [] |} /\
  gp_action far1_gp <> gp_action far3_gp.
Proof.
  split; [|split].
  - intros tok H. apply upcoming_vec in H. cbn in H. destruct H as [E|[E|[]]]; injection E as <-; reflexivity.
  - run_vec.
  - vm_compute. discriminate.
Qed.
(** [far1] and [far2] do not meet the hypothesis. *)
Example case_c63_far2 : ~ same_below far1 far2 "S".
Proof.
  intro H. destruct (proj1 (c63_below far1 far2 far1_gp far2_gp far1_S far2_S far1_parser far2_parser eq_refl H _ _ _ _ (fun v => v) sem vec_next cb [] (fun _ _ => eq_refl))
    {| oc_result := PParserError "b" "a"; oc_iter := []; oc_world := [] |} (events_vec far1_gp far1_S cb)) as (o' & evs' & H1 & _ & H3 & _).
  { exists 300. split; vm_compute; reflexivity. }
  assert (H2 : returns far2_gp (fun v => v) sem vec_next far2_S cb [] o') by (destruct H1 as (f & Hf & _); exists f; exact Hf).
  pose proof (c00_deterministic far2_gp far2_S _ _ _ _ _ _ _ far2_accepts H2) as <-.
  destruct H3 as (_ & H3 & _). discriminate H3.
Qed.

(** Adding rules (anywhere between the others) can only help, if the grammar is LR(1): whatever the parser did
    before, other than reporting a parser error, it still does. *)
Theorem c63_added {A} (items items' : list (grammar_item A)) gp gp' pr pr' keep :
  parser_of items gp pr -> parser_of items' gp' pr' -> pr_name pr = pr_name pr' ->
  nts items = filter keep (nts items') -> ulr1_grammar (nts items) ->
  forall (E V W I : Type) (inj : rval -> V) (usem : A -> list (string * bval V) -> W -> option (V * W)) (next : I -> option (rval + E) * I) it w,
  (forall tok, upcoming next it tok -> first_match (cs items) tok = first_match (cs items') tok) ->
  (forall o evs, returns_with gp inj usem next pr it w o evs -> (forall found expected, oc_result o <> PParserError found expected) ->
     exists evs', returns_with gp' inj usem next pr' it w o evs' /\ map (called gp) evs = map (called gp') evs') /\
  (forall n it1 w1 evs, running gp inj usem next pr it w n it1 w1 evs ->
     exists evs', running gp' inj usem next pr' it w n it1 w1 evs' /\ map (called gp) evs = map (called gp') evs').
Proof.
  intros Hp Hp' Hnm Hnts Hlr E V W I inj usem next it w Hnext. split.
  - intros o evs Hr Ho. exact (added_returns items items' gp gp' pr pr' Hp Hp' Hnm keep Hnts Hlr inj usem next it Hnext w o evs Ho Hr).
  - intros n it1 w1 evs Hr. exact (added_running items items' gp gp' pr pr' Hp Hp' Hnm keep Hnts Hlr inj usem next it Hnext w n it1 w1 evs Hr).
Qed.
(** [far2] is [far1] with rules added; [c a b] is accepted by both. *)
Lemma far1_lr1 : ulr1_grammar (nts far1).
Proof.
  set (tbl := [ {| fs_empty := false; fs_terminals := [2] |}; {| fs_empty := false; fs_terminals := [2] |};
                {| fs_empty := false; fs_terminals := [2] |}; {| fs_empty := false; fs_terminals := [0; 1] |};
                {| fs_empty := true; fs_terminals := [0] |}; {| fs_empty := true; fs_terminals := [] |}; {| fs_empty := true; fs_terminals := [] |} ]).
  destruct (lower (nts far1) (cs far1)) as [g| |] eqn:Eg; [|vm_compute in Eg; discriminate..].
  destruct (generate_lr1_automaton ho_id 100 g tbl) as [(states & entries)| |] eqn:Ea.
  - assert (Hc : forallb (clean_state g) states = true /\ first_check g tbl = true).
    { vm_compute in Eg. injection Eg as <-. vm_compute in Ea. injection Ea as <- <-. split; vm_compute; reflexivity. }
    destruct Hc as [Hc1 Hc2].
    refine (clean_lr1_any far1 _ ho_id 100 ho_id_ok g tbl states entries Eg Ea (first_check_tails g tbl Hc2) Hc1). prove_distinct.
  - vm_compute in Eg. injection Eg as <-. vm_compute in Ea. discriminate.
  - vm_compute in Eg. injection Eg as <-. vm_compute in Ea. discriminate.
Qed.
Example case_c63_added : (exists keep, nts far1 = filter keep (nts far2)) /\ ulr1_grammar (nts far1) /\
  returns far1_gp (fun v => v) sem vec_next far1_S cab [] {| oc_result := POk (RVTuple []); oc_iter := []; oc_world := ["()"; "()"; "()"; "()"] |} /\
  returns far2_gp (fun v => v) sem vec_next far2_S cab [] {| oc_result := POk (RVTuple []); oc_iter := []; oc_world := ["()"; "()"; "()"; "()"] |}.
Proof.
  split; [|split; [exact far1_lr1|split; run_vec]].
  exists (fun N => negb (existsb (String.eqb (an_name N)) ["U1"; "U2"; "U3"])). reflexivity.
Qed.

(** The hypothesis LR(1) of [c63_added] is needed: [far4] accepts [c d], reading it as [R d] with R empty.  With the rules for U1, U2, U3, which nothing
    refers to, the FIRST set of X is found not to be empty, so D can begin with [d] after all; the parser now shifts [d] as a D and
    reports an error at the end. *)
Definition far4 : list (grammar_item string) :=
  [ tokens [unit_tok "a" "Token::A"; unit_tok "b" "Token::B"; unit_tok "c" "Token::C"; unit_tok "d" "Token::D"];
    rule true "S" "()" [([$"c"; #"W"], "()")];
    rule false "R" "()" [([], "()")];
    rule false "D" "()" [([$"d"], "()")];
    rule false "W" "()" [([#"R"; $"d"], "()"); ([#"D"; #"X"], "()")];
    rule false "X" "()" [([#"Y"; $"b"], "()")];
    rule false "Y" "()" [([#"Z"], "()")];
    rule false "Z" "()" [([#"Q"], "()")];
    rule false "Q" "()" [([], "()")] ].
Definition far5 : list (grammar_item string) :=
  far4 ++ [ rule false "U3" "()" [([#"U2"], "()")]; rule false "U2" "()" [([#"U1"], "()")]; rule false "U1" "()" [([$"a"], "()")] ].
Definition far4_gp : generated (lexpr string) := Eval vm_compute in module_of far4.
Definition far5_gp : generated (lexpr string) := Eval vm_compute in module_of far5.
Definition far4_S : parser_struct := Eval vm_compute in parser_named far4_gp "S".
Definition far5_S : parser_struct := Eval vm_compute in parser_named far5_gp "S".
Lemma far4_parser : parser_of far4 far4_gp far4_S. Proof. prove_parser_of. Qed.
Lemma far5_parser : parser_of far5 far5_gp far5_S. Proof. prove_parser_of. Qed.
Definition cd : list (rval + string) := map ok ["Token::C"; "Token::D"].
Lemma far4_accepts : exists w, returns far4_gp (fun v => v) sem vec_next far4_S cd [] {| oc_result := POk (RVTuple []); oc_iter := []; oc_world := w |}.
Proof. eexists. exists 300. vm_compute. reflexivity. Qed.
Lemma far5_rejects : exists w, returns far5_gp (fun v => v) sem vec_next far5_S cd [] {| oc_result := PParserError "end-of-input" "b"; oc_iter := []; oc_world := w |}.
Proof. eexists. exists 300. vm_compute. reflexivity. Qed.
Theorem c63_added_refuted : ~ (forall (items items' : list (grammar_item string)) gp gp' pr pr' keep l o,
  parser_of items gp pr -> parser_of items' gp' pr' -> pr_name pr = pr_name pr' -> cs items = cs items' -> nts items = filter keep (nts items') ->
  returns gp (fun v => v) sem vec_next pr l [] o -> (forall found expected, oc_result o <> PParserError found expected) ->
  returns gp' (fun v => v) sem vec_next pr' l [] o).
Proof.
  intro H. destruct far4_accepts as (w & H1), far5_rejects as (w' & H2).
  assert (H3 := H _ _ _ _ _ _ (fun N => negb (existsb (String.eqb (an_name N)) ["U1"; "U2"; "U3"])) _ _ far4_parser far5_parser eq_refl eq_refl eq_refl H1 (fun _ _ E => eq_ind (POk (RVTuple [])) (fun r => match r with POk _ => True | _ => False end) Logic.I _ E)).
  pose proof (c00_deterministic far5_gp far5_S _ _ _ _ _ _ _ H2 H3) as He. discriminate.
Qed.
