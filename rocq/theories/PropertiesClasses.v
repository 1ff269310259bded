(** * PropertiesClasses: C74, which grammars of the textbooks the generator handles

    Vocabulary: LrSpec.v (Knuth's LR(1), LALR(1), SLR(1), LL(1)), USpec.v (LR(1) by valid items, [tails_plain]),
    PropSpec.v ([returns], [feeds_then]). *)
From Verif Require Import UserLr1 UserPrefix.
From Verif Require Export LrProofs PropertiesRefactor PropertiesGen.
Local Open Scope string_scope. Local Open Scope list_scope.

(** Knuth's definition by rightmost derivations and the one by valid items are the same, as soon as the symbols
    used in right-hand sides derive something. *)
Theorem c74_knuth {A} (nts : list (ast_non_terminal A)) : productive_symbols nts ->
  (ulr1_grammar nts <-> forall N, In N nts -> an_pub N = true -> knuth_lr1 nts (an_name N)).
Proof.
  intro Hp. split.
  - intros H N HN Hpub. apply items_knuth. intro gamma. exact (H N gamma HN Hpub).
  - intros H N gamma HN Hpub. exact (knuth_items nts (an_name N) Hp (H N HN Hpub) gamma).
Qed.
(** One half needs no condition. *)
Theorem c74_handles {A} (nts : list (ast_non_terminal A)) N : ulr1_grammar nts -> In N nts -> an_pub N = true -> knuth_lr1 nts (an_name N).
Proof. intros H HN Hpub. apply items_knuth. intro gamma. exact (H N gamma HN Hpub). Qed.

(** SLR(1) grammars are LALR(1), those are LR(1), and so are LL(1) grammars. *)
Theorem c74_inclusions {A} (nts : list (ast_non_terminal A)) S :
  (slr1 nts S -> lalr1 nts S) /\ (lalr1 nts S -> items_lr1 nts S) /\ (productive_symbols nts -> ll1 nts S -> items_lr1 nts S).
Proof. exact (conj (slr1_lalr1 nts S) (conj (lalr1_lr1 nts S) (ll1_items nts S))). Qed.

(** One of the classes, for every entry point. *)
Definition textbook {A} (nts : list (ast_non_terminal A)) : Prop :=
  forall N, In N nts -> an_pub N = true ->
    slr1 nts (an_name N) \/ lalr1 nts (an_name N) \/ productive_symbols nts /\ (ll1 nts (an_name N) \/ knuth_lr1 nts (an_name N)).
Lemma textbook_lr1 {A} (nts : list (ast_non_terminal A)) : textbook nts -> ulr1_grammar nts.
Proof.
  intros H N gamma HN Hpub. destruct (H N HN Hpub) as [Hs|[Hl|(Hp & [Hl|Hk])]].
  - apply (lalr1_lr1 nts _ (slr1_lalr1 nts _ Hs)).
  - apply (lalr1_lr1 nts _ Hl).
  - apply (ll1_items nts _ Hp Hl).
  - apply (knuth_items nts _ Hp Hk).
Qed.
(** The generator does not complain about conflicts in such a grammar ... *)
Theorem c74_no_conflict {A} (items : list (grammar_item A)) p :
  distinct_names items -> textbook (nts items) -> expansion_panics items p -> ~ conflict_panic p.
Proof. intros Hn Ht. apply c18_lr1_no_conflict; auto. apply textbook_lr1. exact Ht. Qed.
(** ... and its parsers accept exactly the sentences. *)
Theorem c74_exact {A E V W I} (items : list (grammar_item A)) gp pr (inj : rval -> V) usem (next : I -> option (rval + E) * I) it (w : W) toks it' :
  parser_of items gp pr -> textbook (nts items) -> tails_plain (nts items) -> (forall a b w, usem a b w <> None) -> feeds_then next it toks None it' ->
  sentence (nts items) (class items) (pr_name pr) toks <->
  exists v w', returns gp inj usem next pr it w {| oc_result := POk v; oc_iter := it'; oc_world := w' |}.
Proof. intros Hp Ht. apply (c12_exact items gp pr inj usem next it w Hp toks it'). apply textbook_lr1. exact Ht. Qed.

(** ** [tests/tests.rs] balanced_parens is LL(1) *)
Lemma parens_prods n p q : uproduction (nts parens) n p = Some q ->
  n = "Entry" /\ p = 0 /\ body q = [#"Test"] \/ n = "Test" /\ p = 0 /\ body q = [$"("; #"Test"; $")"] \/ n = "Test" /\ p = 1 /\ body q = [].
Proof.
  intro H. destruct (Decide.uproduction_In _ _ _ _ H) as (N & HN & <- & _). cbn in HN. destruct HN as [<-|[<-|[]]]; cbn in H.
  - destruct p as [|[|p]]; try discriminate. injection H as <-. auto.
  - destruct p as [|[|[|p]]]; try discriminate; injection H as <-; auto.
Qed.
Lemma parens_symbols : productive_symbols (nts parens).
Proof.
  assert (HT : exists w, uderives (nts parens) [#"Test"] (map ASTerminal w)).
  { exists []. eapply ud_step; [exact (uds (nts parens) [] "Test" 1 _ [] eq_refl)|constructor]. }
  intros n p q s H Hs. destruct (parens_prods _ _ _ H) as [(_ & _ & E)|[(_ & _ & E)|(_ & _ & E)]]; rewrite E in Hs; cbn in Hs; intuition (subst; auto).
  - exists ["("]. constructor.
  - exists [")"]. constructor.
Qed.

Lemma one_nonterminal u v x n m y : x ++ ASNonTerminal n :: y = map ASTerminal u ++ ASNonTerminal m :: map ASTerminal v -> x = map ASTerminal u /\ n = m /\ y = map ASTerminal v.
Proof.
  revert u. induction x as [|s x IH]; intros [|t u] H; cbn in H.
  - injection H as -> ->. auto.
  - discriminate.
  - injection H as -> H. exfalso. assert (Hin : In (ASNonTerminal n) (map ASTerminal v)) by (rewrite <- H; apply in_or_app; right; left; reflexivity). apply in_map_iff in Hin. destruct Hin as (? & ? & _). discriminate.
  - injection H as -> H. destruct (IH _ H) as (-> & -> & ->). auto.
Qed.
Lemma parens_forms f z : uderives (nts parens) f z -> (exists u m k, f = map ASTerminal u ++ #m :: map ASTerminal (repeat ")" k)) ->
  forall l n r, z = l ++ #n :: r -> exists k, r = map ASTerminal (repeat ")" k).
Proof.
  induction 1 as [f|f g h Hs Hd IH]; intros (u & m & k & ->) l n r E.
  - symmetry in E. destruct (one_nonterminal _ _ _ _ _ _ E) as (_ & _ & ->). eauto.
  - remember (map ASTerminal u ++ #m :: map ASTerminal (repeat ")" k)) as f eqn:Ef. destruct Hs as [x n' p q y Hq]. destruct (one_nonterminal _ _ _ _ _ _ Ef) as (-> & -> & ->). clear Ef.
    fold (body q) in *. destruct (parens_prods _ _ _ Hq) as [(_ & _ & Eb)|[(_ & _ & Eb)|(_ & _ & Eb)]]; rewrite Eb in Hd, IH; cbn [app] in Hd, IH.
    + eapply IH; eauto.
    + eapply (IH ltac:(exists (u ++ ["("]), "Test", (Datatypes.S k); rewrite map_app, <- app_assoc; reflexivity)); eauto.
    + exfalso. rewrite <- map_app in Hd. apply ud_terminals in Hd. assert (Hin : In (#n) (map ASTerminal (u ++ repeat ")" k))) by (rewrite <- Hd, E; apply in_or_app; right; left; reflexivity).
      apply in_map_iff in Hin. destruct Hin as (? & ? & _). discriminate.
Qed.
Lemma parens_follow n t : ufollow (nts parens) "Entry" (Some n) t -> t <> Some "(".
Proof.
  intros (l & r & Hd & Hf) ->. destruct (parens_forms _ _ Hd ltac:(exists [], "Entry", 0; reflexivity) _ _ _ eq_refl) as (k & ->). apply first_terminals_inv in Hf. destruct k; discriminate.
Qed.
Lemma parens_ll1 : ll1 (nts parens) "Entry".
Proof.
  intros n p q l l' la la' t Hl Hl' Fo Fo' F F'. destruct (urhs_some _ _ _ _ _ Hl) as (pr & Hpr & <-), (urhs_some _ _ _ _ _ Hl') as (pr' & Hpr' & <-).
  assert (Hpar : forall x, uin_first (nts parens) [$"("; #"Test"; $")"] x t -> t = Some "(").
  { intros x Hx. apply (first_app _ [$"("]) in Hx. destruct Hx as [(s & r & -> & Hd)|(Hd & _)]; apply (ud_terminals _ ["("]) in Hd; [injection Hd as -> _; reflexivity|discriminate]. }
  assert (Hnil : forall x, uin_first (nts parens) [] x t -> t = x) by (intros x Hx; exact (first_terminals_inv _ [] x t Hx)).
  destruct (parens_prods _ _ _ Hpr) as [(-> & -> & Eb)|[(-> & -> & Eb)|(-> & -> & Eb)]], (parens_prods _ _ _ Hpr') as [(E1 & -> & Eb')|[(E1 & -> & Eb')|(E1 & -> & Eb')]]; try discriminate; auto;
    rewrite Eb in F; rewrite Eb' in F'; exfalso.
  - apply Hpar in F. apply Hnil in F'. subst. exact (parens_follow _ _ Fo' eq_refl).
  - apply Hpar in F'. apply Hnil in F. subst. exact (parens_follow _ _ Fo eq_refl).
Qed.
Example case_c74_ll1 : textbook (nts parens).
Proof. intros N HN Hpub. cbn in HN. destruct HN as [<-|[<-|[]]]; [|discriminate]. right. right. split; [exact parens_symbols|]. left. exact parens_ll1. Qed.
Example case_c74_knuth : knuth_lr1 (nts parens) "Entry".
Proof.
  assert (H : exists N, In N (nts parens) /\ an_pub N = true /\ an_name N = "Entry") by (eexists; split; [left; reflexivity|split; reflexivity]).
  destruct H as (N & HN & Hpub & <-). exact (proj1 (c74_knuth _ parens_symbols) (textbook_lr1 _ case_c74_ll1) N HN Hpub).
Qed.

(** ** The left-recursive list of C73 is SLR(1), not LL(1) *)
Lemma llist_prods n p q : uproduction (nts llist) n p = Some q -> n = "L" /\ (p = 0 /\ body q = [#"L"; $"x"] \/ p = 1 /\ body q = [$"x"]).
Proof.
  intro H. destruct (Decide.uproduction_In _ _ _ _ H) as (N & HN & <- & _). cbn in HN. destruct HN as [<-|[]]; cbn in H.
  destruct p as [|[|[|p]]]; try discriminate; injection H as <-; auto.
Qed.
Lemma llist_items gamma lhs p k : lr0_valid (nts llist) "L" gamma lhs p k ->
  In (gamma, lhs, p, k) [([], None, 0, 0); ([], Some "L", 0, 0); ([], Some "L", 1, 0); ([#"L"], None, 0, 1); ([#"L"], Some "L", 0, 1); ([$"x"], Some "L", 1, 1); ([#"L"; $"x"], Some "L", 0, 2)].
Proof.
  intros (la & H). induction H as [|gamma lhs p k la l C q l' x Hv IH Hl Hk Hq Hf|gamma lhs p k la l X Hv IH Hl Hk].
  - cbn. auto.
  - destruct (urhs_some _ _ _ _ _ Hq) as (pr & Hpr & _). destruct (llist_prods _ _ _ Hpr) as (-> & Hc).
    cbn in IH. destruct IH as [E|[E|[E|[E|[E|[E|[E|[]]]]]]]]; injection E as <- <- <- <-; cbn in Hl; injection Hl as <-; cbn in Hk; try discriminate; destruct Hc as [(-> & _)|(-> & _)]; cbn; auto.
  - cbn in IH. destruct IH as [E|[E|[E|[E|[E|[E|[E|[]]]]]]]]; injection E as <- <- <- <-; cbn in Hl; injection Hl as <-; cbn in Hk; try discriminate; injection Hk as <-; cbn; auto 10.
Qed.
Lemma llist_slr1 : slr1 (nts llist) "L".
Proof.
  intro gamma. split.
  - intros a p b q t (l & Hl & Ha) _ (m & Hm & Hb) _. apply llist_items in Ha, Hb. cbn in Ha, Hb.
    repeat (destruct Ha as [Ha|Ha]; [|try contradiction]); inversion Ha; subst; cbn in Hl; injection Hl as <-; try discriminate;
      repeat (destruct Hb as [Hb|Hb]; [|try contradiction]); inversion Hb; subst; cbn in Hm; injection Hm as <-; try discriminate; auto.
  - intros a p t (l & Hl & Ha) Hf (c & q & k & m & Hb & Hm & Hk). apply llist_items in Ha, Hb. cbn in Ha, Hb.
    repeat (destruct Ha as [Ha|Ha]; [|try contradiction]); inversion Ha; subst; cbn in Hl; injection Hl as <-; try discriminate;
      repeat (destruct Hb as [Hb|Hb]; [|try contradiction]); inversion Hb; subst; cbn in Hm; injection Hm as <-; try discriminate; try (cbn in Hk; discriminate); cbn in Hf; discriminate.
Qed.
Example case_c74_slr1 : textbook (nts llist).
Proof. intros N HN Hpub. cbn in HN. destruct HN as [<-|[]]. left. exact llist_slr1. Qed.
Example case_c74_left_recursion : ~ ll1 (nts llist) "L".
Proof.
  intro H. discriminate (H "L" 0 1 [#"L"; $"x"] [$"x"] None None (Some "x") eq_refl eq_refl).
  - exists [], []. split; [constructor|right; split; [constructor|reflexivity]].
  - exists [], []. split; [constructor|right; split; [constructor|reflexivity]].
  - left. exists "x", [$"x"]. split; [reflexivity|]. eapply ud_step; [exact (uds (nts llist) [] "L" 1 _ [$"x"] eq_refl)|constructor].
  - left. exists "x", []. split; [reflexivity|constructor].
Qed.
(** Its parser is exact for every action that does not panic and every iterator. *)
Example case_c74_exact {E V W I} (inj : rval -> V) (usem : string -> list (string * bval V) -> W -> option (V * W)) (next : I -> option (rval + E) * I) it w toks it' :
  (forall a b w, usem a b w <> None) -> feeds_then next it toks None it' ->
  sentence (nts llist) (class llist) (pr_name llist_L) toks <-> exists v w', returns llist_gp inj usem next llist_L it w {| oc_result := POk v; oc_iter := it'; oc_world := w' |}.
Proof. exact (c74_exact llist llist_gp llist_L inj usem next it w toks it' llist_parser case_c74_slr1 llist_plain). Qed.

(** ** A grammar LALR(1) generators reject: LR(1), not LALR(1) *)
Definition beyond : list (grammar_item string) :=
  [ tokens [unit_tok "a" "Token::A"; unit_tok "b" "Token::B"; unit_tok "c" "Token::C"; unit_tok "d" "Token::D"; unit_tok "e" "Token::E"];
    rule true "S" "()" [([$"a"; #"A"; $"d"], "1"); ([$"b"; #"B"; $"d"], "2"); ([$"a"; #"B"; $"e"], "3"); ([$"b"; #"A"; $"e"], "4")];
    rule false "A" "()" [([$"c"], "5")]; rule false "B" "()" [([$"c"], "6")] ].
Definition beyond_gp : generated (lexpr string) := Eval vm_compute in module_of beyond.
Definition beyond_S : parser_struct := Eval vm_compute in parser_named beyond_gp "S".
Lemma beyond_parser : parser_of beyond beyond_gp beyond_S. Proof. prove_parser_of. Qed.
Lemma beyond_plain : tails_plain (nts beyond).
Proof.
  apply UserLr1.no_empty_tails_plain. intros n p q H Hs. pose proof (all_productions_spec (nts beyond) (fun _ q => match ap_symbols q with [] => false | _ => true end) n p q eq_refl H) as Hc.
  cbn beta in Hc. rewrite Hs in Hc. discriminate.
Qed.
Lemma beyond_lr1 : ulr1_grammar (nts beyond).
Proof.
  destruct (automaton beyond) as [[[[g tbl] states] entries]| |] eqn:E; [|vm_compute in E; discriminate..].
  eapply automaton_clean; [exact (proj1 beyond_parser)|exact beyond_plain|exact E|]. vm_compute in E. injection E as <- <- <- <-. vm_compute. reflexivity.
Qed.

Lemma beyond_prods n p q : uproduction (nts beyond) n p = Some q ->
  In (n, p, body q) [("S", 0, [$"a"; #"A"; $"d"]); ("S", 1, [$"b"; #"B"; $"d"]); ("S", 2, [$"a"; #"B"; $"e"]); ("S", 3, [$"b"; #"A"; $"e"]); ("A", 0, [$"c"]); ("B", 0, [$"c"])].
Proof.
  intro H. destruct (Decide.uproduction_In _ _ _ _ H) as (N & HN & <- & _). cbn in HN. destruct HN as [<-|[<-|[<-|[]]]]; cbn in H.
  - destruct p as [|[|[|[|[|p]]]]]; try discriminate; injection H as <-; cbn; auto 10.
  - destruct p as [|[|p]]; try discriminate; injection H as <-; cbn; auto 10.
  - destruct p as [|[|p]]; try discriminate; injection H as <-; cbn; auto 10.
Qed.
Definition beyond_lr0 : list (list ast_symbol * option string * nat * nat) :=
  [ ([], None, 0, 0); ([], Some "S", 0, 0); ([], Some "S", 1, 0); ([], Some "S", 2, 0); ([], Some "S", 3, 0); ([#"S"], None, 0, 1);
    ([$"a"], Some "S", 0, 1); ([$"a"], Some "S", 2, 1); ([$"a"], Some "A", 0, 0); ([$"a"], Some "B", 0, 0);
    ([$"b"], Some "S", 1, 1); ([$"b"], Some "S", 3, 1); ([$"b"], Some "A", 0, 0); ([$"b"], Some "B", 0, 0);
    ([$"a"; $"c"], Some "A", 0, 1); ([$"a"; $"c"], Some "B", 0, 1); ([$"b"; $"c"], Some "A", 0, 1); ([$"b"; $"c"], Some "B", 0, 1);
    ([$"a"; #"A"], Some "S", 0, 2); ([$"b"; #"B"], Some "S", 1, 2); ([$"a"; #"B"], Some "S", 2, 2); ([$"b"; #"A"], Some "S", 3, 2);
    ([$"a"; #"A"; $"d"], Some "S", 0, 3); ([$"b"; #"B"; $"d"], Some "S", 1, 3); ([$"a"; #"B"; $"e"], Some "S", 2, 3); ([$"b"; #"A"; $"e"], Some "S", 3, 3) ].
Lemma beyond_items gamma lhs p k : lr0_valid (nts beyond) "S" gamma lhs p k -> In (gamma, lhs, p, k) beyond_lr0.
Proof.
  intros (la & H). induction H as [|gamma lhs p k la l C q l' x Hv IH Hl Hk Hq Hf|gamma lhs p k la l X Hv IH Hl Hk].
  - cbn. auto.
  - destruct (urhs_some _ _ _ _ _ Hq) as (pr & Hpr & _). pose proof (beyond_prods _ _ _ Hpr) as Hc. clear - IH Hl Hk Hc.
    cbn in IH. repeat (destruct IH as [IH|IH]; [|try contradiction]); inversion IH; subst; cbn in Hl; injection Hl as <-; cbn in Hk; try discriminate; injection Hk as <-; cbn in Hc;
      repeat (destruct Hc as [Hc|Hc]; [|try contradiction]); inversion Hc; subst; cbn; auto 40.
  - clear - IH Hl Hk. cbn in IH. repeat (destruct IH as [IH|IH]; [|try contradiction]); inversion IH; subst; cbn in Hl; injection Hl as <-; cbn in Hk; try discriminate; injection Hk as <-; cbn; auto 40.
Qed.

Lemma beyond_at_c t la n X : In (t, n, X, la) [("a", "A", 0, "d"); ("a", "B", 2, "e"); ("b", "A", 3, "e"); ("b", "B", 1, "d")] ->
  ulr1_valid (nts beyond) "S" [$t; $"c"] (Some n) 0 1 (Some la).
Proof.
  intro H.
  assert (Hf : uin_first (nts beyond) [$la] None (Some la)) by (left; exists la, []; split; [reflexivity|constructor]).
  assert (Hx : exists l, urhs (nts beyond) "S" (Some "S") X = Some l /\ l = [$t; #n; $la] /\ urhs (nts beyond) "S" (Some n) 0 = Some [$"c"]).
  { cbn in H. repeat (destruct H as [H|H]; [|try contradiction]); inversion H; subst; eexists; split; reflexivity || (split; reflexivity). }
  destruct Hx as (l & Hl & -> & Hc).
  change [$t; $"c"] with (([] ++ [$t]) ++ [$"c"]). apply (ulv_move _ _ _ _ (Some n) 0 0 (Some la) [$"c"]); [|exact Hc|reflexivity].
  apply (ulv_closure _ _ _ _ (Some "S") X 1 None [$t; #n; $la] n 0 [$"c"]); [|exact Hl|reflexivity|exact Hc|exact Hf].
  apply (ulv_move _ _ _ [] (Some "S") X 0 None [$t; #n; $la]); [|exact Hl|reflexivity].
  apply (ulv_closure _ _ _ [] None 0 0 None [#"S"] "S" X [$t; #n; $la]); [constructor|reflexivity|reflexivity|exact Hl|]. right. split; [constructor|reflexivity].
Qed.
Theorem c74_beyond_lalr : parser_of beyond beyond_gp beyond_S /\ ulr1_grammar (nts beyond) /\ tails_plain (nts beyond) /\ ~ lalr1 (nts beyond) "S".
Proof.
  split; [exact beyond_parser|]. split; [exact beyond_lr1|]. split; [exact beyond_plain|]. intro H.
  destruct (H [$"a"; $"c"] [$"b"; $"c"]) as (Hrr & _).
  - assert (Hab : forall t, t = "a" \/ t = "b" -> forall n, n = "A" \/ n = "B" -> lr0_valid (nts beyond) "S" [$t; $"c"] (Some n) 0 1).
    { intros t Ht n Hn. destruct Ht as [-> | ->], Hn as [-> | ->].
      - eapply valid_lr0, (beyond_at_c "a" "d" "A" 0); cbn; auto.
      - eapply valid_lr0, (beyond_at_c "a" "e" "B" 2); cbn; auto.
      - eapply valid_lr0, (beyond_at_c "b" "e" "A" 3); cbn; auto.
      - eapply valid_lr0, (beyond_at_c "b" "d" "B" 1); cbn; auto. }
    intros lhs p k. split; intro Hv; apply beyond_items in Hv; cbn in Hv;
      repeat (destruct Hv as [Hv|Hv]; [|try contradiction]); inversion Hv; subst; apply Hab; auto.
  - destruct (Hrr (Some "A") 0 (Some "B") 0 (Some "d")) as (E & _); [| |discriminate].
    + exists [$"c"]. split; [reflexivity|]. apply (beyond_at_c "a" "d" "A" 0). cbn. auto.
    + exists [$"c"]. split; [reflexivity|]. apply (beyond_at_c "b" "d" "B" 1). cbn. auto.
Qed.
