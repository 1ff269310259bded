(** * PropertiesEntry: token entries (C62)

    Blocks with the same rules and different token entries give parsers that behave alike on tokens the two
    blocks classify alike.  So the order of non-overlapping entries does not matter (although the FIRST sets
    of src/first.rs are computed in rounds, and depend on the order of the rules), nor do entries that no
    rule mentions. *)
From Verif Require Import NamesProofs EntryProofs ComputedProofs Reorder Findings PropertiesKnuth.
From Verif Require Export EntrySpec PropertiesCode.
From Coq Require Import Permutation.
Local Open Scope string_scope. Local Open Scope list_scope.

(** The same calls, the same result, iterator and world; only the tokens listed by a parser error may be in another
    order, and are not if the entries in use are in the same order. *)
Theorem c62_behaviour {A} (items items' : list (grammar_item A)) gp gp' pr pr' :
  parser_of items gp pr -> parser_of items' gp' pr' -> nts items = nts items' -> pr_name pr = pr_name pr' ->
  forall (E V W I : Type) (inj : rval -> V) (usem : A -> list (string * bval V) -> W -> option (V * W)) (next : I -> option (rval + E) * I) it w,
  (forall tok, upcoming next it tok -> first_match (cs items) tok = first_match (cs items') tok) ->
  (forall o evs, returns_with gp inj usem next pr it w o evs ->
     exists o' evs', returns_with gp' inj usem next pr' it w o' evs' /\ map (called gp) evs = map (called gp') evs' /\ same_outcome o o' /\
       (same_used_order (nts items) (map cv_from (cs items)) (map cv_from (cs items')) -> o = o')) /\
  (forall n it1 w1 evs, running gp inj usem next pr it w n it1 w1 evs ->
     exists evs', running gp' inj usem next pr' it w n it1 w1 evs' /\ map (called gp) evs = map (called gp') evs').
Proof.
  intros Hp Hp' Hnts Hnm E V W I inj usem next it w Hnext. split.
  - exact (entry_returns items items' gp gp' pr pr' Hp Hp' Hnts Hnm inj usem next it Hnext w).
  - exact (entry_running items items' gp gp' pr pr' Hp Hp' Hnts Hnm inj usem next it Hnext w).
Qed.

(** Permuting non-overlapping entries: for every iterator. *)
Theorem c62_permuted {A} (items items' : list (grammar_item A)) gp gp' pr pr' :
  parser_of items gp pr -> parser_of items' gp' pr' -> nts items = nts items' -> pr_name pr = pr_name pr' ->
  Permutation (cs items) (cs items') -> disjoint_patterns (cs items) ->
  forall (E V W I : Type) (inj : rval -> V) (usem : A -> list (string * bval V) -> W -> option (V * W)) (next : I -> option (rval + E) * I) it w,
  forall o evs, returns_with gp inj usem next pr it w o evs ->
     exists o' evs', returns_with gp' inj usem next pr' it w o' evs' /\ map (called gp) evs = map (called gp') evs' /\ same_outcome o o'.
Proof.
  intros Hp Hp' Hnts Hnm Hperm Hdis E V W I inj usem next it w o evs Hr.
  destruct (c62_behaviour items items' gp gp' pr pr' Hp Hp' Hnts Hnm E V W I inj usem next) with (it := it) (w := w) as (H & _).
  { intros tok _. apply first_match_perm; auto. }
  destruct (H o evs Hr) as (o' & evs' & H1 & H2 & H3 & _). eauto.
Qed.

(** Adding entries after the others: exactly the same outcome, if the iterator only gives tokens that were known before. *)
Theorem c62_extended {A} (items items' : list (grammar_item A)) gp gp' pr pr' extra :
  parser_of items gp pr -> parser_of items' gp' pr' -> nts items = nts items' -> pr_name pr = pr_name pr' ->
  cs items' = cs items ++ extra ->
  forall (E V W I : Type) (inj : rval -> V) (usem : A -> list (string * bval V) -> W -> option (V * W)) (next : I -> option (rval + E) * I) it w,
  (forall tok, upcoming next it tok -> first_match (cs items) tok <> None) ->
  forall o evs, returns_with gp inj usem next pr it w o evs ->
     exists evs', returns_with gp' inj usem next pr' it w o evs' /\ map (called gp) evs = map (called gp') evs'.
Proof.
  intros Hp Hp' Hnts Hnm Hx E V W I inj usem next it w Hnext o evs Hr.
  destruct (c62_behaviour items items' gp gp' pr pr' Hp Hp' Hnts Hnm E V W I inj usem next) with (it := it) (w := w) as (H & _).
  { intros tok Ht. specialize (Hnext _ Ht). rewrite Hx. clear - Hnext. induction (cs items) as [|c l IH]; cbn in *; [congruence|].
    destruct (pmatch (cv_to c) tok); auto. }
  destruct (H o evs Hr) as (o' & evs' & H1 & H2 & H3 & H4). rewrite H4; [eauto|].
  pose proof (expands_supported items gp (proj1 (proj2 (proj2 Hp)))) as Hs. pose proof (proj1 (expands_supported items' gp' (proj1 (proj2 (proj2 Hp'))))) as Hnd.
  exists (fun t => if in_dec String.string_dec t (map cv_from (cs items)) then true else false). split.
  - intros t Ht. apply (supported_used _ _ _ Hs) in Ht. destruct (in_dec _ _ _); [reflexivity|contradiction].
  - rewrite Hx, map_app, filter_app in *. rewrite <- (app_nil_r (filter _ (map cv_from (cs items)))) at 1. f_equal.
    pose proof (NoDup_app_disj _ _ Hnd) as Hd0. clear - Hd0. revert Hd0. induction (map cv_from extra) as [|t l IH]; intro Hd; cbn; auto.
    destruct (in_dec _ _ _) as [Hi|_]; [destruct (Hd t Hi); left; reflexivity|]. apply IH. intros x Hx1 Hx2. apply (Hd x Hx1). right. exact Hx2.
Qed.

(** Whether a block is accepted does not depend on them either, as long as every entry that is mentioned is there. *)
Theorem c62_accepted {A} (items items' : list (grammar_item A)) : same_but_entries items items' -> distinct_names items ->
  ~ too_large items -> ~ too_large items' -> supported (nts items') (cs items') ->
  (exists gp, expands items gp) -> exists gp', expands items' gp'.
Proof.
  intros Hsb Hn Hl Hl' Hs' Hgp. destruct Hsb as [H1 H2 H3].
  assert (Hn' : distinct_names items') by (unfold distinct_names in *; rewrite <- H1; exact Hn).
  apply (c60_accepted items Hn Hl) in Hgp. destruct Hgp as (K1 & K2 & K3 & K4 & K5 & K6). apply (c60_accepted items' Hn' Hl').
  pose proof (f_equal (@List.length string) H3) as HL. rewrite !map_length in HL.
  split; [congruence|]. split; [congruence|]. split; [exact Hs'|]. split; [|split].
  - intros (te & r & Hte & Hr). apply K4. apply (in_map te_type_name) in Hte. rewrite <- H3 in Hte. apply in_map_iff in Hte.
    destruct Hte as (te' & E & Hin). exists te', r. split; congruence.
  - unfold raw_entry_point in *. rewrite <- H1. exact K5.
  - rewrite <- H1. exact (no_conflict_same _ _ _ (computed_same items items' H1 Hn K3 Hs') K6).
Qed.

(** *** Cases

    [order2] (C38; [first_sets] here are incomplete, and the sentence [c a b] is rejected) with its entries reversed
    and an unused one added. *)
Definition order3 : list (grammar_item string) :=
  match order2 with t :: l => tokens [unit_tok "c" "Token::C"; unit_tok "b" "Token::B"; unit_tok "a" "Token::A"] :: l | l => l end.
Definition order4 : list (grammar_item string) :=
  match order2 with t :: l => tokens [unit_tok "a" "Token::A"; unit_tok "b" "Token::B"; unit_tok "c" "Token::C"; unit_tok "d" "Token::D"] :: l | l => l end.
Definition order3_gp : generated (lexpr string) := Eval vm_compute in module_of order3.
Definition order4_gp : generated (lexpr string) := Eval vm_compute in module_of order4.
Definition order3_S : parser_struct := Eval vm_compute in parser_named order3_gp "S".
Definition order4_S : parser_struct := Eval vm_compute in parser_named order4_gp "S".
Lemma order3_parser : parser_of order3 order3_gp order3_S. Proof. prove_parser_of. Qed.
Lemma order4_parser : parser_of order4 order4_gp order4_S. Proof. prove_parser_of. Qed.
(** The modules differ. *)
Example case_c62_differ : gp_action order2_gp <> gp_action order3_gp /\ gp_action order2_gp <> gp_action order4_gp /\
  gp_terminal_strs order2_gp <> gp_terminal_strs order4_gp.
Proof. split; [|split]; vm_compute; discriminate. Qed.
Example case_c62_permuted : Permutation (cs order2) (cs order3) /\ disjoint_patterns (cs order2) /\
  forall l o evs, returns_with order2_gp (fun v => v) sem vec_next order2_S l [] o evs ->
    exists o' evs', returns_with order3_gp (fun v => v) sem vec_next order3_S l [] o' evs' /\ map (called order2_gp) evs = map (called order3_gp) evs' /\ same_outcome o o'.
Proof.
  assert (Hp : Permutation (cs order2) (cs order3)) by (exact (Permutation_rev (cs order2))).
  split; [exact Hp|]. split; [exact order_disjoint|]. intros l o evs.
  exact (c62_permuted order2 order3 order2_gp order3_gp order2_S order3_S order2_parser order3_parser eq_refl eq_refl Hp order_disjoint _ _ _ _ (fun v => v) sem vec_next l [] o evs).
Qed.
(** Both reject the sentence. *)
Example case_c62_messages :
  returns order2_gp (fun v => v) sem vec_next order2_S cab [] {| oc_result := PParserError "a" "b"; oc_iter := [ok "Token::B"]; oc_world := [] |} /\
  returns order3_gp (fun v => v) sem vec_next order3_S cab [] {| oc_result := PParserError "a" "b"; oc_iter := [ok "Token::B"]; oc_world := [] |}.
Proof. split; run_vec. Qed.
Lemma upcoming_vec (l : list (rval + string)) tok : upcoming vec_next l tok -> In (inl tok) l.
Proof.
  induction 1 as [it tok it' H|it r it' tok H _ IH]; destruct it as [|x it]; cbn in H.
  - discriminate.
  - injection H as -> ->. left. reflexivity.
  - injection H as <- <-. exact IH.
  - injection H as <- <-. right. exact IH.
Qed.
(** [c a b] meets the hypotheses of the third theorem, a token that matches the new entry does not. *)
Example case_c62_extended : cs order4 = cs order2 ++ [unit_tok "d" "Token::D"] /\
  (forall tok, upcoming vec_next cab tok -> first_match (cs order2) tok <> None) /\
  ~ (forall tok, upcoming vec_next [ok "Token::D"] tok -> first_match (cs order2) tok <> None) /\
  returns order4_gp (fun v => v) sem vec_next order4_S cab [] {| oc_result := PParserError "a" "b"; oc_iter := [ok "Token::B"]; oc_world := [] |}.
Proof.
  split; [reflexivity|]. split; [|split].
  - intros tok H. apply upcoming_vec in H. cbn in H. destruct H as [E|[E|[E|[]]]]; injection E as <-; vm_compute; discriminate.
  - intro H. apply (H (RVUnit "Token::D")); [eapply up_now; reflexivity|reflexivity].
  - run_vec.
Qed.
Example case_c62_accepted : same_but_entries order2 order3 /\ same_but_entries order2 order4.
Proof. split; constructor; reflexivity. Qed.
(** An entry that is mentioned cannot be left out. *)
Example case_c62_left_out : forall gp, ~ expands (tokens [unit_tok "a" "Token::A"] :: tl order2) gp.
Proof.
  intros gp H. apply expands_supported in H. apply lower_ok_iff in H. destruct H as (g & H). vm_compute in H. discriminate.
Qed.
