(** * PropertiesNames: names do not matter (C46), repeated declarations are merged (C47)

    Vocabulary: AlikeSpec.v, PropSpec.v, Spec.v. *)
From Verif Require Import RenameProofs.
From Verif Require Export AlikeSpec PropertiesCode Findings.
From Coq Require Import Permutation.
Local Open Scope string_scope. Local Open Scope list_scope.

(** ** C46: tables depend on the shape of the grammar only

    Two blocks that differ in the names of non-terminals and token entries (renamed consistently, without
    identifying two), and arbitrarily in patterns, binders, return types and action expressions, expand alike:
    same ACTION, GOTO, number of actions; same entry states; EXPECTED and terminal names renamed. *)
Section Tables.
Context {A B : Type}.
Variables (rho tau : string -> string).
Notation loose := (items_alike rho tau (fun (_ : A) (_ : B) => True) (fun _ _ => True) (fun _ _ => True)).

Lemma loose_core (items : list (grammar_item A)) (items' : list (grammar_item B)) : injective rho -> keeps_raw rho -> injective tau -> loose items items' ->
  forall te te', declared_tokens items = [te] -> declared_tokens items' = [te'] -> forall ho fuel, hash_order_ok ho ->
  alike (fun p q => q = rename_panic rho tau p) (same_tables rho tau)
    (core ho fuel (declared_nts items) te) (core ho fuel (declared_nts items') te').
Proof.
  intros Hr Hw Ht Hl te te' E1 E2 ho fuel Hho.
  pose proof (renamed_alike rho tau Hr Ht Hw _ _ _ (fun _ => Logic.I) (fun _ _ => True) (fun _ _ _ _ _ _ _ _ _ _ _ => Logic.I) items items' Hl te te' E1 E2 ho fuel Hho) as H.
  apply (alike_weaken _ _ _ _ _ _ H); [auto|]. intros gp gp' (g & h & _ & _ & Hgh & Hm). eapply module_alike_tables; eauto.
Qed.
Lemma loose_counts (items : list (grammar_item A)) (items' : list (grammar_item B)) : loose items items' ->
  List.length (declared_tokens items) = List.length (declared_tokens items') /\ List.length (declared_states items) = List.length (declared_states items').
Proof. intros (_ & H2 & H3). split; auto. apply (Forall2_len _ _ _ H2). Qed.

Theorem c46_tables (items : list (grammar_item A)) (items' : list (grammar_item B)) :
  injective rho -> keeps_raw rho -> injective tau -> loose items items' ->
  (forall gp, expands items gp -> exists gp', expands items' gp' /\ same_tables rho tau gp gp') /\
  (forall gp', expands items' gp' -> exists gp, expands items gp /\ same_tables rho tau gp gp').
Proof.
  intros Hr Hw Ht Hl. destruct (loose_counts _ _ Hl) as [H1 H2]. split; intros gp He.
  - exact (expands_alike _ _ items items' H1 H2 (loose_core items items' Hr Hw Ht Hl) gp He).
  - exact (expands_alike_back _ _ items items' H1 H2 (loose_core items items' Hr Hw Ht Hl) gp He).
Qed.
(** The same diagnostics, naming the corresponding names (two duplicated items may be met in another order). *)
Theorem c46_diagnostics (items : list (grammar_item A)) (items' : list (grammar_item B)) p :
  injective rho -> keeps_raw rho -> injective tau -> loose items items' -> expansion_panics items p ->
  p <> PDupToken -> p <> PDupState -> p <> PNoToken -> expansion_panics items' (rename_panic rho tau p).
Proof.
  intros Hr Hw Ht Hl He N1 N2 N3. destruct (loose_counts _ _ Hl) as [H1 H2].
  destruct (panics_alike _ _ items items' H1 H2 (loose_core items items' Hr Hw Ht Hl) p He N1 N2 N3) as (q & Hq & ->). exact Hq.
Qed.
End Tables.

(** Renaming non-terminals and replacing actions commutes with expansion, diagnostics included. *)
Section Rename.
Context {A B : Type}.
Variable rho : string -> string.
Variable f : A -> B.
Hypothesis Hinj : injective rho.
Hypothesis Hraw : keeps_raw rho.
Theorem c46_rename (items : list (grammar_item A)) gp' :
  expands (map_items rho f items) gp' <-> exists gp, expands items gp /\ gp' = map_module rho f gp.
Proof.
  split.
  - intros (ho & fuel & Hho & H). rewrite (macro_map rho f Hinj Hraw ho fuel items Hho) in H. destruct (macro ho fuel items) as [gp|p|] eqn:E; try discriminate.
    injection H as <-. exists gp. split; auto. exists ho, fuel. auto.
  - intros (gp & (ho & fuel & Hho & H) & ->). exists ho, fuel. split; auto. rewrite (macro_map rho f Hinj Hraw ho fuel items Hho), H. auto.
Qed.
Theorem c46_rename_diagnostics (items : list (grammar_item A)) q :
  expansion_panics (map_items rho f items) q <-> exists p, expansion_panics items p /\ q = rename_panic rho (fun x => x) p.
Proof.
  split.
  - intros (ho & fuel & Hho & H). rewrite (macro_map rho f Hinj Hraw ho fuel items Hho) in H. destruct (macro ho fuel items) as [gp|p|] eqn:E; try discriminate.
    injection H as <-. exists p. split; auto. exists ho, fuel. auto.
  - intros (p & (ho & fuel & Hho & H) & ->). exists ho, fuel. split; auto. rewrite (macro_map rho f Hinj Hraw ho fuel items Hho), H. auto.
Qed.
(** The parsers of the two modules behave alike: result, tokens taken, user state, and every call made. *)
Theorem c46_rename_runs {E V W I} (items : list (grammar_item A)) gp pr
  (inj : rval -> V) (usem : B -> list (string * bval V) -> W -> option (V * W)) (next : I -> option (rval + E) * I) it w o evs :
  expands items gp -> In pr (gp_parsers gp) ->
  expands (map_items rho f items) (map_module rho f gp) /\ In (rename_parser rho pr) (gp_parsers (map_module rho f gp)) /\
  (returns_with (map_module rho f gp) inj usem next (rename_parser rho pr) it w o evs <->
   returns_with gp inj (fun a => usem (f a)) next pr it w o evs).
Proof.
  intros He Hpr. split; [apply c46_rename; eauto|]. split; [simpl; apply in_map; auto|].
  apply (same_code_returns f gp (map_module rho f gp)); [constructor; reflexivity|].
  split; [reflexivity|]. split; [reflexivity|]. split; reflexivity.
Qed.
End Rename.

(** Non-trivial cases: the arithmetic grammar renamed (E to Expr and the like), its actions dropped. *)
Definition prime (s : string) : string := s ++ "'".
Lemma prime_inj : injective prime.
Proof.
  intros a. induction a as [|c a IH]; intros [|d b] H; simpl in *; auto.
  - injection H as _ H. destruct b; discriminate.
  - injection H as _ H. destruct a; discriminate.
  - injection H as -> H. f_equal. apply IH. exact H.
Qed.
Lemma prime_raw : keeps_raw prime.
Proof. intros [|a [|b s]]; unfold is_raw, prime; simpl; auto; repeat destruct (Ascii.ascii_dec _ _); auto; destruct s; auto. Qed.
Definition plain_arith : list (grammar_item unit) := map_items prime (fun _ : string => tt) arith.
Example case_c46_rename : arith_gp <> no_module /\ expands plain_arith (map_module prime (fun _ => tt) arith_gp).
Proof.
  split; [discriminate|]. apply (c46_rename prime (fun _ : string => tt) prime_inj prime_raw arith). exists arith_gp. split; [|reflexivity].
  exists ho_id, 100. split; [exact ho_id_ok|vm_compute; reflexivity].
Qed.
(** The second module runs with actions that return [()]; so does the first, with the same actions behind its texts. *)
Example case_c46_rename_runs l o evs :
  returns_with (map_module prime (fun _ => tt) arith_gp) (fun v => v) (fun _ _ w => Some (RVTuple [], S w)) vec_next (rename_parser prime arith_E) l 0 o evs <->
  returns_with arith_gp (fun v => v) (fun _ _ w => Some (RVTuple [], S w)) vec_next arith_E l 0 o evs.
Proof.
  destruct arith_parser as (_ & _ & He & Hi).
  exact (proj2 (proj2 (c46_rename_runs prime (fun _ : string => tt) prime_inj prime_raw arith arith_gp arith_E (fun v => v) (fun _ _ w => Some (RVTuple [], S w)) vec_next l 0 o evs He Hi))).
Qed.
(** Tokens, types, binders and actions changed as well, and the items reordered. *)
Definition arith_other : list (grammar_item nat) :=
  let prod l := {| ap_symbols := l; ap_action := Infallible (List.length l) |} in
  let nt pub n l := GINonTerminal {| an_pub := pub; an_name := n; an_type := "String"; an_productions := map prod l |} in
  [ nt true "E'" [[#"E1'"]];
    nt false "E1'" [["l" ::= #"E1'"; $"+'"; "r" ::= #"T'"]; [#"T'"]];
    nt false "T'" [[#"T'"; $"*'"; #"F'"]; [#"F'"]];
    GITokenEnum {| te_type_name := "Tok"; te_lifetimes := []; te_conversions :=
      [unit_tok "('" "Open"; unit_tok ")'" "Close"; unit_tok "+'" "Plus"; unit_tok "*'" "Times"; unit_tok "int'" "Id"] |};
    nt false "F'" [[$"('"; #"E'"; $")'"]; ["k" ::= $"int'"]] ].
Ltac prove_alike := repeat first [progress cbn | exact Logic.I | reflexivity | constructor | split].
Lemma arith_other_alike : items_alike prime prime (fun _ _ => True) (fun _ _ => True) (fun _ _ => True) arith arith_other.
Proof. unfold items_alike. prove_alike. Qed.
Example case_c46_tables : exists gp', expands arith_other gp' /\ same_tables prime prime arith_gp gp'.
Proof. apply (proj1 (c46_tables prime prime arith arith_other prime_inj prime_raw prime_inj arith_other_alike)). apply arith_parser. Qed.
(** A grammar with a conflict, renamed. *)
Definition clash : list (grammar_item string) :=
  [ tokens [unit_tok "a" "Token::A"]; rule true "S" "()" [([#"X"], "()"); ([#"Y"], "()")];
    rule false "X" "()" [([$"a"], "()")]; rule false "Y" "()" [([$"a"], "()")] ].
Definition unknown : list (grammar_item string) :=
  [ tokens [unit_tok "a" "Token::A"]; rule true "S" "()" [([$"a"; #"X"], "()")] ].
Example case_c46_rename_diagnostics :
  (exists s t a p b q, expansion_panics (map_items prime (fun e : string => e) clash) (PReduceReduce s t a p b q)) /\
  expansion_panics (map_items prime (fun e : string => e) unknown) (PUnknownNonTerminal "X'").
Proof.
  split.
  - exists 4, None, 2, 0, 3, 0. apply (c46_rename_diagnostics prime (fun e : string => e) prime_inj prime_raw). exists (PReduceReduce 4 None 2 0 3 0). split; [|reflexivity].
    exists ho_id, 100. split; [exact ho_id_ok|vm_compute; reflexivity].
  - apply (c46_rename_diagnostics prime (fun e : string => e) prime_inj prime_raw). exists (PUnknownNonTerminal "X"). split; [|reflexivity].
    exists ho_id, 100. split; [exact ho_id_ok|vm_compute; reflexivity].
Qed.
Example case_c46_diagnostics : items_alike (fun x => x) prime (fun _ _ => True) (fun _ _ => True) (fun _ _ => True) unknown
    [ GITokenEnum {| te_type_name := "Tok"; te_lifetimes := []; te_conversions := [unit_tok "a'" "Alpha"] |};
      GINonTerminal {| an_pub := true; an_name := "S"; an_type := "u8"; an_productions := [{| ap_symbols := [$"a'"; #"X"]; ap_action := Infallible 7 |}] |} ] /\
  expansion_panics unknown (PUnknownNonTerminal "X").
Proof.
  split; [unfold items_alike; prove_alike|]. exists ho_id, 100. split; [exact ho_id_ok|vm_compute; reflexivity].
Qed.

(** ** C47: repeated declarations

    The positive side of C33: a block with repeated declarations behaves as the block in which the last
    declaration of each name holds the productions of all of them, in order, while an earlier declaration keeps
    its entry point but has no productions and nothing refers to it. *)
Section Merged.
Context {A : Type}.
Variable fresh : nat -> string.
Variable items : list (grammar_item A).
Hypothesis Hfresh : fresh_for fresh (nts items).
Notation merged := (merged fresh items).

(** The merged block declares every name once, ... *)
Theorem c47_distinct : distinct_names merged.
Proof. apply merged_distinct; auto. Qed.
Lemma merged_cs : cs merged = cs items.
Proof. unfold token_entries. rewrite merged_tokens. reflexivity. Qed.
Lemma merged_plain : plain_patterns items -> plain_patterns merged.
Proof. unfold plain_patterns. rewrite merged_cs. auto. Qed.

(** ... and expands to the same code, or to the same conflict. *)
Theorem c47_merged :
  (forall gp, expands items gp -> exists gp', expands merged gp' /\ merged_module fresh items gp gp') /\
  (forall gp', expands merged gp' -> exists gp, expands items gp /\ merged_module fresh items gp gp').
Proof.
  assert (H1 : List.length (declared_tokens items) = List.length (declared_tokens merged)) by (rewrite merged_tokens; auto).
  assert (H2 : List.length (declared_states items) = List.length (declared_states merged)) by (rewrite merged_states; auto).
  split; intros gp He.
  - exact (expands_alike _ _ items merged H1 H2 (merged_core fresh items Hfresh) gp He).
  - exact (expands_alike_back _ _ items merged H1 H2 (merged_core fresh items Hfresh) gp He).
Qed.
Theorem c47_conflicts p : is_conflict p -> expansion_panics items p -> expansion_panics merged p.
Proof.
  intros Hc He.
  assert (H1 : List.length (declared_tokens items) = List.length (declared_tokens merged)) by (rewrite merged_tokens; auto).
  assert (H2 : List.length (declared_states items) = List.length (declared_states merged)) by (rewrite merged_states; auto).
  destruct (panics_alike _ _ items merged H1 H2 (merged_core fresh items Hfresh) p He) as (q & Hq & E); try (intros ->; contradiction).
  rewrite E; auto.
Qed.

(** Corresponding parsers behave alike. *)
Theorem c47_runs {E V W I} gp gp' pr pr' (inj : rval -> V) (usem : A -> list (string * bval V) -> W -> option (V * W))
  (next : I -> option (rval + E) * I) it w o evs :
  merged_module fresh items gp gp' -> same_entry pr pr' ->
  (returns_with gp' inj usem next pr' it w o evs <-> returns_with gp inj usem next pr it w o evs).
Proof.
  intros [Hc _] Hp. apply (same_code_returns (fun a : A => a) gp gp'); auto. destruct Hc as [C1 C2 C3 C4 C5 C6 C7]. constructor; auto.
  rewrite C3. apply map_ext. intros [a b c]. unfold map_sem_fn. simpl. destruct c; reflexivity.
Qed.

(** The declaration behind a name of the merged block. *)
Definition behind (x : string) : string :=
  match find (fun '(_, D') => String.eqb (an_name D') x) (combine (nts items) (merge fresh (nts items))) with Some (D, _) => an_name D | None => "" end.
Lemma behind_spec D D' : In (D, D') (combine (nts items) (merge fresh (nts items))) -> behind (an_name D') = an_name D.
Proof.
  intro Hin. pose proof c47_distinct as Hd. unfold distinct_names in Hd. rewrite merged_nts in Hd. unfold behind. revert Hd Hin.
  generalize (merge fresh (nts items)) as l'. generalize (nts items) as l.
  induction l as [|N l IH]; intros [|M l'] Hd Hin; simpl in *; try contradiction.
  inversion Hd; subst. destruct Hin as [E|Hin].
  - injection E as -> ->. rewrite String.eqb_refl. auto.
  - destruct (String.eqb_spec (an_name M) (an_name D')) as [E|_]; [|auto].
    exfalso. apply H1. rewrite E. apply in_combine_r in Hin. apply in_map; auto.
Qed.
(** One entry point per [pub] declaration, repeated or not. *)
Theorem c47_parsers gp : expands items gp ->
  Permutation (map (fun pr => (pr_name pr, pr_return_ty pr)) (gp_parsers gp))
              (map (fun N => (an_name N, an_type N)) (filter an_pub (nts items))).
Proof.
  intro He. destruct (proj1 c47_merged gp He) as (gp' & He' & _ & Hp).
  pose proof (c34_parsers merged gp' c47_distinct He') as Hperm. rewrite merged_nts in Hperm.
  apply (Permutation_map (fun q => (behind (fst q), snd q))) in Hperm. rewrite !map_map in Hperm. cbn [fst snd] in Hperm.
  assert (E1 : map (fun pr => (behind (pr_name pr), pr_return_ty pr)) (gp_parsers gp') = map (fun pr => (pr_name pr, pr_return_ty pr)) (gp_parsers gp)).
  { clear - Hp Hfresh. induction Hp as [|pr pr' l l' [(E & _) (D & D' & Hin & _ & H1 & H2)] _ IH]; simpl; auto.
    rewrite IH. f_equal. f_equal; [|auto]. rewrite H1, H2. apply behind_spec; auto. }
  assert (E2 : map (fun N => (behind (an_name N), an_type N)) (filter an_pub (merge fresh (nts items))) = map (fun N => (an_name N, an_type N)) (filter an_pub (nts items))).
  { pose proof (merge_head fresh (nts items) (nts items) 0) as Hm. fold (merge fresh (nts items)) in Hm.
    assert (Hb : forall D D', In (D, D') (combine (nts items) (merge fresh (nts items))) -> behind (an_name D') = an_name D) by apply behind_spec.
    revert Hb. generalize behind as b. intro b. clear - Hm. induction Hm as [|N M l l' [E1' E2'] _ IH]; intro Hb; simpl; auto.
    rewrite <- E1'. destruct (an_pub N); simpl.
    - rewrite (Hb N M) by (left; auto). rewrite E2'. f_equal. apply IH. intros D D' H. apply Hb. right; auto.
    - apply IH. intros D D' H. apply Hb. right; auto. }
  rewrite E1, E2 in Hperm. exact Hperm.
Qed.

(** A declaration followed by another one of the same name. *)
Definition shadowed (D : ast_non_terminal A) : Prop :=
  exists l1 l2, nts items = l1 ++ D :: l2 /\ In (an_name D) (map an_name l2).

Section Run.
Context {E V W I : Type}.
Variables (gp : generated (lexpr A)).
Hypothesis Hexp : expands items gp.
Hypothesis Hplain : plain_patterns items.
Variables (inj : rval -> V) (usem : A -> list (string * bval V) -> W -> option (V * W)) (next : I -> option (rval + E) * I).

Lemma merge_from_combine (all : list (ast_non_terminal A)) l : forall i D D', In (D, D') (combine l (merge_from fresh all i l)) ->
  exists l1 l2, l = l1 ++ D :: l2 /\
    ((In (an_name D) (map an_name l2) /\ an_productions D' = [] /\ exists j, an_name D' = fresh j) \/
     (~ In (an_name D) (map an_name l2) /\ an_name D' = an_name D)).
Proof.
  induction l as [|N l IH]; intros i D D' H; simpl in H; [contradiction|]. destruct H as [H|H].
  - injection H as -> <-. exists [], l. split; auto. destruct (existsb (named (an_name D)) l) eqn:Ex; simpl.
    + left. split; [apply named_In; auto|]. eauto.
    + right. split; auto. intro Hin. apply named_In in Hin. congruence.
  - destruct (IH _ _ _ H) as (l1 & l2 & -> & Hor). exists (N :: l1), l2. auto.
Qed.

Lemma merge_from_split (all : list (ast_non_terminal A)) l1 D l2 : forall i,
  exists D', In (D, D') (combine (l1 ++ D :: l2) (merge_from fresh all i (l1 ++ D :: l2))) /\
    (In (an_name D) (map an_name l2) -> an_productions D' = []) /\ (~ In (an_name D) (map an_name l2) -> an_name D' = an_name D).
Proof.
  induction l1 as [|N l1 IH]; intro i; simpl.
  - destruct (existsb (named (an_name D)) l2) eqn:Ex; eexists; (split; [left; reflexivity|]); (split; [|]); simpl; auto; intro H.
    + apply named_In in Ex. contradiction.
    + apply named_In in H. congruence.
  - destruct (IH (S i)) as (D' & H1 & H2). exists D'. auto.
Qed.
(** The parsers of the merged block, with the declarations they come from. *)
Lemma merged_parsers : exists gp', expands merged gp' /\ merged_module fresh items gp gp' /\
  (forall pr, In pr (gp_parsers gp) -> exists pr' D D', parser_of merged gp' pr' /\ same_entry pr pr' /\
     In (D, D') (combine (nts items) (merge fresh (nts items))) /\ an_pub D = true /\ pr_name pr = an_name D /\ pr_name pr' = an_name D') /\
  (forall D D', In (D, D') (combine (nts items) (merge fresh (nts items))) -> an_pub D = true ->
     exists pr pr', In pr (gp_parsers gp) /\ pr_name pr = an_name D /\ pr_return_ty pr = an_type D /\
       parser_of merged gp' pr' /\ same_entry pr pr' /\ pr_name pr' = an_name D').
Proof.
  destruct (proj1 c47_merged gp Hexp) as (gp' & He' & Hm). pose proof Hm as [_ Hps]. exists gp'. split; auto. split; auto.
  assert (Hp' : forall pr', In pr' (gp_parsers gp') -> parser_of merged gp' pr')
    by (intros pr' Hin; split; [apply c47_distinct|split; [apply merged_plain; auto|auto]]).
  split.
  - intros pr Hpr. apply In_nth_error in Hpr. destruct Hpr as (n & Hn).
    destruct (Forall2_nth_error _ _ _ Hps _ _ Hn) as (pr' & Hn' & Hse & D & D' & Hin & Hpub & E1 & E2).
    exists pr', D, D'. split; [apply Hp'; eapply nth_error_In; eauto|]. auto.
  - intros D D' Hin Hpub. pose proof (merge_head fresh (nts items) (nts items) 0) as Hh. fold (merge fresh (nts items)) in Hh.
    assert (HD : an_pub D = an_pub D' /\ an_type D = an_type D').
    { clear - Hh Hin. induction Hh as [|x y l l' H _ IH]; simpl in Hin; [contradiction|]. destruct Hin as [E'|Hin]; [injection E' as -> ->; auto|auto]. }
    destruct HD as [HD1 HD2]. pose proof (c34_parsers merged gp' c47_distinct He') as Hperm. rewrite merged_nts in Hperm.
    assert (Hi : In (an_name D', an_type D') (map (fun N => (an_name N, an_type N)) (filter an_pub (merge fresh (nts items))))).
    { apply (in_map (fun N => (an_name N, an_type N))). apply filter_In. split; [eapply in_combine_r; eauto|congruence]. }
    apply (Permutation_in _ (Permutation_sym Hperm)) in Hi. apply in_map_iff in Hi. destruct Hi as (pr' & Eq & Hpr'). injection Eq as En Et.
    pose proof Hpr' as Hnth. apply In_nth_error in Hnth. destruct Hnth as (n & Hn').
    assert (Hl : n < List.length (gp_parsers gp)) by (rewrite (Forall2_len _ _ _ Hps); apply nth_error_Some; congruence).
    destruct (nth_error (gp_parsers gp) n) as [pr|] eqn:Hn; [|apply nth_error_None in Hn; lia].
    destruct (Forall2_nth_error _ _ _ Hps _ _ Hn) as (pr2 & Hn2 & Hse & D2 & D2' & Hin2 & Hpub2 & E1 & E2).
    rewrite Hn' in Hn2. injection Hn2 as <-. exists pr, pr'. split; [eapply nth_error_In; eauto|].
    split; [|split; [destruct Hse as (H & _); congruence|auto]].
    rewrite E1, <- (behind_spec D2 D2' Hin2), <- E2, En. apply behind_spec; auto.
Qed.
Lemma uproduction_merged D D' p : In (D, D') (combine (nts items) (merge fresh (nts items))) ->
  uproduction (merge fresh (nts items)) (an_name D') p = nth_error (an_productions D') p.
Proof.
  intro Hin. apply in_combine_r in Hin. pose proof c47_distinct as Hd. unfold distinct_names in Hd. rewrite merged_nts in Hd.
  unfold uproduction. revert Hd Hin. generalize (merge fresh (nts items)) as l. induction l as [|N l IH]; simpl; [tauto|].
  intros Hd [->|Hin]; [rewrite String.eqb_refl; auto|]. inversion Hd; subst.
  destruct (String.eqb_spec (an_name N) (an_name D')) as [E'|_]; auto. exfalso. apply H1. rewrite E'. apply in_map; auto.
Qed.
Lemma same_returns gp' pr pr' it w o : merged_module fresh items gp gp' -> same_entry pr pr' ->
  returns gp' inj usem next pr' it w o <-> returns gp inj usem next pr it w o.
Proof.
  intros Hm Hse. split; intros (fuel & Hf).
  - destruct (c47_runs gp gp' pr pr' inj usem next it w o (parse_events gp' (user_env gp' inj usem next) fuel pr' it w) Hm Hse) as [H _].
    destruct (H (ex_intro _ fuel (conj Hf eq_refl))) as (fuel' & Hf' & _). exists fuel'; auto.
  - destruct (c47_runs gp gp' pr pr' inj usem next it w o (parse_events gp (user_env gp inj usem next) fuel pr it w) Hm Hse) as [_ H].
    destruct (H (ex_intro _ fuel (conj Hf eq_refl))) as (fuel' & Hf' & _). exists fuel'; auto.
Qed.

Lemma tree_production (ns : list (ast_non_terminal A)) (cl : rval -> option string) t n :
  utree_of ns cl t (ASNonTerminal n) -> exists p q, uproduction ns n p = Some q.
Proof. intro H. inversion H; subst. eauto. Qed.
(** Whatever is accepted is a sentence of the merged grammar. *)
Theorem c47_accepted pr it w o v : In pr (gp_parsers gp) ->
  returns gp inj usem next pr it w o -> oc_result o = POk v ->
  exists toks, feeds_then next it toks None (oc_iter o) /\
    sentence (merge fresh (nts items)) (class items) (pr_name pr) toks.
Proof.
  intros Hpr Ho Hv. destruct merged_parsers as (gp' & He' & Hm & Hps & _).
  destruct (Hps pr Hpr) as (pr' & D & D' & Hp' & Hse & Hin & Hpub & E1 & E2).
  assert (Ho' : returns gp' inj usem next pr' it w o) by (apply (same_returns gp' pr pr'); auto).
  destruct (c01_accepted_is_sentence merged gp' pr' inj usem next it w Hp' o v Ho' Hv) as (toks & Hfd & t & Ht & Hy).
  exists toks. split; auto. rewrite merged_nts, merged_cs in Ht.
  destruct (merge_from_combine _ _ _ _ _ Hin) as (l1 & l2 & _ & [(_ & Hnil & _)|(_ & Hn)]).
  - exfalso. destruct (tree_production _ _ _ _ Ht) as (p & q & Hq). rewrite E2, (uproduction_merged D D') in Hq by auto. rewrite Hnil in Hq. destruct p; discriminate.
  - exists t. split; auto. rewrite E1, <- Hn, <- E2. auto.
Qed.
(** The entry point of a declaration that is repeated later exists, and accepts nothing. *)
Theorem c47_shadowed D : shadowed D -> an_pub D = true ->
  exists pr, In pr (gp_parsers gp) /\ pr_name pr = an_name D /\ pr_return_ty pr = an_type D /\
    forall it w o v, returns gp inj usem next pr it w o -> oc_result o <> POk v.
Proof.
  intros (l1 & l2 & Hl & Hlater) Hpub. destruct merged_parsers as (gp' & He' & Hm & _ & Hps).
  pose proof (merge_from_split (nts items) l1 D l2 0) as Hin. rewrite <- Hl in Hin. destruct Hin as (D' & Hin & Hnil & _). specialize (Hnil Hlater).
  destruct (Hps D D' Hin Hpub) as (pr & pr' & Hpr & E1 & E2 & Hp' & Hse & E3).
  exists pr. split; auto. split; auto. split; auto. intros it w o v Ho Hv.
  assert (Ho' : returns gp' inj usem next pr' it w o) by (apply (same_returns gp' pr pr'); auto).
  destruct (c01_accepted_is_sentence merged gp' pr' inj usem next it w Hp' o v Ho' Hv) as (toks & Hfd & t & Ht & Hy).
  rewrite merged_nts in Ht. destruct (tree_production _ _ _ _ Ht) as (p & q & Hq). rewrite E3, (uproduction_merged D D') in Hq by auto. rewrite Hnil in Hq. destruct p; discriminate.
Qed.
(** The entry point of the last declaration of a name recognises the merged grammar (as in C12). *)
Theorem c47_last D l1 l2 : nts items = l1 ++ D :: l2 -> ~ In (an_name D) (map an_name l2) -> an_pub D = true ->
  ulr1_grammar (merge fresh (nts items)) -> tails_plain (merge fresh (nts items)) -> (forall a b w, usem a b w <> None) ->
  exists pr, In pr (gp_parsers gp) /\ pr_name pr = an_name D /\ pr_return_ty pr = an_type D /\
    forall it w toks it', feeds_then next it toks None it' ->
      (sentence (merge fresh (nts items)) (class items) (an_name D) toks <->
       exists v w', returns gp inj usem next pr it w {| oc_result := POk v; oc_iter := it'; oc_world := w' |}).
Proof.
  intros Hl Hlast Hpub Hlr Hne Htot. destruct merged_parsers as (gp' & He' & Hm & _ & Hps).
  pose proof (merge_from_split (nts items) l1 D l2 0) as Hin. rewrite <- Hl in Hin. destruct Hin as (D' & Hin & _ & Hn). specialize (Hn Hlast).
  destruct (Hps D D' Hin Hpub) as (pr & pr' & Hpr & E1 & E2 & Hp' & Hse & E3).
  exists pr. split; auto. split; auto. split; auto. intros it w toks it' Hfd.
  rewrite <- (merged_nts fresh items) in Hlr, Hne.
  pose proof (c12_exact merged gp' pr' inj usem next it w Hp' toks it' Hlr Hne Htot Hfd) as H.
  rewrite merged_nts, merged_cs, E3, Hn in H. rewrite H. split; intros (v & w' & Hr); exists v, w'; apply (same_returns gp' pr pr'); auto.
Qed.
End Run.
End Merged.

(** Names as needed exist for every block. *)
Theorem c47_fresh_names {A} (nts : list (ast_non_terminal A)) : exists fresh, fresh_for fresh nts.
Proof. eexists. apply fresh_exists. Qed.

(** A non-trivial case: an arithmetic grammar whose entry point is declared twice and whose factors are spread
    over three declarations. *)
Definition spread : list (grammar_item string) :=
  [ arith_tokens;
    rule true "E" "u64" [(["e" ::= #"E"; $"+"; "t" ::= #"T"], "e + t")];
    rule false "F" "u64" [([$"("; "e" ::= #"E"; $")"], "e")];
    rule true "E" "u32" [(["t" ::= #"T"], "t")];
    rule false "F" "u64" [];
    rule false "T" "u64" [(["t" ::= #"T"; $"*"; "f" ::= #"F"], "t * f"); (["f" ::= #"F"], "f")];
    rule true "F" "u64" [(["i" ::= $"int"], "i")] ].
Definition spread_fresh (i : nat) : string := fresh_name (nts spread) i.
Definition spread_gp : generated (lexpr string) := Eval vm_compute in module_of spread.
Lemma spread_ok : fresh_for spread_fresh (nts spread). Proof. apply fresh_exists. Qed.
Lemma spread_expands : expands spread spread_gp. Proof. expand_it. Qed.
Lemma spread_patterns : plain_patterns spread. Proof. reflexivity. Qed.
Notation spread_merged := (merge spread_fresh (nts spread)).
Lemma spread_plain : tails_plain spread_merged.
Proof. apply (tails_check_plain _ ["E"; "T"; "F"] ["E"; "T"; "F"]). vm_compute. reflexivity. Qed.
Lemma spread_lr1 : ulr1_grammar spread_merged.
Proof.
  rewrite <- (merged_nts spread_fresh spread).
  destruct (automaton (merged spread_fresh spread)) as [[[[g tbl] states] entries]| |] eqn:E; [|vm_compute in E; discriminate..].
  eapply automaton_clean; [exact (c47_distinct _ _ spread_ok)|rewrite merged_nts; exact spread_plain|exact E|]. vm_compute in E. injection E as <- <- <- <-. vm_compute. reflexivity.
Qed.
Lemma spread_nonempty : no_empty_production spread_merged.
Proof.
  intros n p pr H Hs.
  pose proof (all_productions_spec spread_merged (fun _ q => match ap_symbols q with [] => false | _ => true end) n p pr eq_refl H) as Hc.
  cbn beta in Hc. rewrite Hs in Hc. discriminate.
Qed.
Example case_c47_merged : exists gp', expands (merged spread_fresh spread) gp' /\ merged_module spread_fresh spread spread_gp gp'.
Proof. exact (proj1 (c47_merged spread_fresh spread spread_ok) spread_gp spread_expands). Qed.
Example case_c47_parsers : map (fun pr => (pr_name pr, pr_return_ty pr)) (gp_parsers spread_gp) = [("E", "u64"); ("E", "u32"); ("F", "u64")].
Proof. reflexivity. Qed.
(** Here the first [E::parse] accepts nothing ... *)
Definition spread_E1 : ast_non_terminal string := nth 0 (nts spread) {| an_pub := false; an_name := ""; an_type := ""; an_productions := [] |}.
Definition spread_E2 : ast_non_terminal string := nth 2 (nts spread) {| an_pub := false; an_name := ""; an_type := ""; an_productions := [] |}.
Example case_c47_shadowed : shadowed spread spread_E1 /\ an_pub spread_E1 = true.
Proof. split; [|reflexivity]. exists [], (tl (nts spread)). split; [reflexivity|]. vm_compute. tauto. Qed.
(** ... and the second one sums and products, by the productions of both: 1 + 2 is evaluated by the first declaration's action. *)
Example case_c47_last : exists pr, In pr (gp_parsers spread_gp) /\ pr_name pr = "E" /\ pr_return_ty pr = "u32" /\
  forall it w toks it', feeds_then (E := string) vec_next it toks None it' ->
    (sentence spread_merged (class spread) "E" toks <->
     exists v w', returns spread_gp (fun v => v) (fun _ _ w => Some (RVTuple [], S w)) vec_next pr it w {| oc_result := POk v; oc_iter := it'; oc_world := w' |}).
Proof.
  exact (c47_last spread_fresh spread spread_ok spread_gp spread_expands spread_patterns (fun v => v) (fun _ _ w => Some (RVTuple [], S w)) vec_next
    spread_E2 (firstn 2 (nts spread)) (skipn 3 (nts spread)) eq_refl
    ltac:(vm_compute; intuition discriminate) eq_refl spread_lr1 spread_plain ltac:(discriminate)).
Qed.
Example case_c47_accepted : map (fun pr => option_map oc_result (parse spread_gp (user_env spread_gp (fun v => v) sem vec_next) 300 pr [int 1; PLUS; int 2] [])) (gp_parsers spread_gp) =
  [Some (PParserError "int" ""); Some (POk (RVOther 3)); Some (PParserError "+" "")].
Proof. vm_compute. reflexivity. Qed.
(** A conflict between productions of two declarations. *)
Definition clash_twice : list (grammar_item string) :=
  [ tokens [unit_tok "a" "Token::A"]; rule true "S" "()" [([#"X"], "()")]; rule true "S" "()" [([#"Y"], "()")];
    rule false "X" "()" [([$"a"], "()")]; rule false "Y" "()" [([$"a"], "()")] ].
Example case_c47_conflicts : expansion_panics (merged (fresh_name (nts clash_twice)) clash_twice) (PReduceReduce 6 None 4 0 5 0).
Proof.
  apply c47_conflicts; [apply fresh_exists|exact Logic.I|]. exists ho_id, 100. split; [exact ho_id_ok|vm_compute; reflexivity].
Qed.
