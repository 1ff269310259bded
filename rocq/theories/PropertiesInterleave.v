(** * PropertiesInterleave: C70, the order of calls of the lexer and of actions

    Vocabulary: InterleaveSpec.v (walking a parse tree with user code that shares a state), Effects.v, Spec.v, USpec.v. *)
From Verif Require Import InterleaveProofs UserLr1 ComputedProofs PropertiesHygiene.
From Verif Require Export InterleaveSpec PropertiesEffects PropertiesComputed PropertiesCompile PropertiesProgram.
Local Open Scope string_scope. Local Open Scope list_scope.

Section Any.
Context {A : Type}.
Variable items : list (grammar_item A).
Variable gp : generated (lexpr A).
Variable pr : parser_struct.
Hypothesis Hp : parser_of items gp pr.
Context {E V St : Type}.
Variable inj : rval -> V.
Variable usem : A -> list (string * bval V) -> St -> completion V * St.   (* the user's actions *)
Variable next : St -> option (option (rval + E)) * St.                    (* the user's iterator *)
Variable clone : E -> St -> option E * St.                                (* [Clone] of the lexer's errors *)
Hypothesis Hnr : no_return usem.
Notation xparse := (x_parse gp (user_xenv gp inj usem next clone)).
Notation Plays := (plays (nts items) (fields items inj) usem next).
Notation Plays_all := (plays_all (nts items) (fields items inj) usem next).
Notation tree t := (utree_of (nts items) (class items) t (ASNonTerminal (pr_name pr))).

(** For every accepted grammar: [parse] first calls [next()]; then, at any time, it has done exactly what walking some parse trees
    does, whose roots begin a sentential form of the entry point and whose values are on the value stack; and it ends as [finished] says. *)
Theorem c70_running n u st : xparse n pr u = inl st ->
  exists tk0 u0 forest syms rest, next u = (Some tk0, u0) /\ uforest_of (nts items) (class items) forest syms /\
    Plays_all forest tk0 u0 (rev (map payload (xs_values st))) (xs_token st) (xs_user st) /\
    uderives (nts items) [ASNonTerminal (pr_name pr)] (syms ++ rest).
Proof.
  intro H. destruct (effects_machine items gp pr Hp E V St inj usem next clone Hnr n u) as (y & Hm & _ & Hy). rewrite H in Hy.
  destruct y as [c|o]; [|contradiction]. destruct Hy as (E1 & E2 & E3 & _). unfold einit in Hm.
  destruct (next u) as [[tk0|] u0] eqn:En; [|exfalso; inversion Hm].
  pose proof (sound_moves _ _ _ _ _ _ _ _ _ Hnr tk0 u0 _ _ _ Hm (walked_nil _ _ _ _ _ _ tk0 u0)) as (forest & rest & H1 & H2 & H3).
  exists tk0, u0, forest, (rev (map fst (ec_stack c))), rest. rewrite E1, E2, E3. auto.
Qed.
Theorem c70_ends n u o : xparse n pr u = inr o ->
  (o = XOutcome (PPanic UserPanic) (xo_user o) /\ next u = (None, xo_user o)) \/
  exists tk0 u0 forest syms vs tk u1 rest, next u = (Some tk0, u0) /\ uforest_of (nts items) (class items) forest syms /\
    Plays_all forest tk0 u0 vs tk u1 /\ uderives (nts items) [ASNonTerminal (pr_name pr)] (syms ++ rest) /\
    finished (nts items) (class items) usem next clone (pr_name pr) forest syms vs tk u1 o.
Proof.
  intro H. destruct (c59_effects items gp pr Hp E V St inj usem next clone Hnr n u) as (Hr & _). cbv zeta in Hr.
  apply Hr in H. unfold einit in H. destruct (next u) as [[tk0|] u0] eqn:En.
  - right. pose proof (sound_moves _ _ _ _ _ _ _ _ _ Hnr tk0 u0 _ _ _ H (walked_nil _ _ _ _ _ _ tk0 u0)) as (forest & syms & vs & tk & u1 & rest & H1 & H2 & H3 & H4).
    exists tk0, u0, forest, syms, vs, tk, u1, rest. auto.
  - left. assert (o = XOutcome (PPanic UserPanic) u0) by (clear - H; inversion H; auto). subst o. auto.
Qed.
(** In particular a value is that of walking a parse tree, to the end of the tokens. *)
Theorem c70_value n u v u' : xparse n pr u = inr (XOutcome (POk v) u') ->
  exists t tk0 u0, tree t /\ next u = (Some tk0, u0) /\ Plays t tk0 u0 (BVal v) None u'.
Proof.
  intro H. destruct (c70_ends n u _ H) as [(Ho & _)|(tk0 & u0 & forest & syms & vs & tk & u1 & rest & H1 & H2 & H3 & _ & H4)]; [discriminate|].
  cbn in H4. destruct H4 as (-> & -> & -> & <-). inversion H2 as [|t ts s ss Ht Hts]; subst. inversion Hts; subst.
  inversion H3; subst. match goal with Hx : InterleaveSpec.plays_all _ _ _ _ [] _ _ _ _ _ |- _ => inversion Hx; subst end. exists t, tk0, u0. auto.
Qed.
(** Conversely, on LR(1) grammars with plain tails: whenever walking a parse tree is possible, that is what [parse] does. *)
Theorem c70_complete t u tk0 u0 v u' : ulr1_grammar (nts items) -> tails_plain (nts items) ->
  tree t -> next u = (Some tk0, u0) -> Plays t tk0 u0 (BVal v) None u' ->
  exists n, xparse n pr u = inr (XOutcome (POk v) u').
Proof.
  intros Hlr Htp Ht En Hplay.
  assert (Hn : In (pr_name pr) (map pr_name (gp_parsers gp))) by (apply in_map; apply Hp).
  apply (entry_name_In items gp (proj1 Hp) (proj1 (proj2 (proj2 Hp)))) in Hn. destruct Hn as (N & HN & Hpub & Epr).
  destruct (walk_entry (nts items) (uin_first (nts items)) (map cv_from (cs items)) (class items) (fields items inj) usem next clone (pr_name pr)
    (fun _ _ _ => iff_refl _)) with (t := t) (tk0 := tk0) (u0 := u0) (v := v) (u' := u') as (m & Hm); auto.
  - intro gamma. rewrite <- Epr. exact (Hlr N gamma HN Hpub).
  - exists m. apply (proj1 (c56_knuth items gp pr Hp inj usem next clone Hnr m u Htp)). unfold einit. rewrite En. exact Hm.
Qed.
(** So what [parse] returns is exactly what walking parse trees gives. *)
Theorem c70_exactly u v u' : ulr1_grammar (nts items) -> tails_plain (nts items) ->
  (exists n, xparse n pr u = inr (XOutcome (POk v) u')) <->
  (exists t tk0 u0, tree t /\ next u = (Some tk0, u0) /\ Plays t tk0 u0 (BVal v) None u').
Proof.
  intros Hlr Htp. split.
  - intros (n & H). exact (c70_value n u v u' H).
  - intros (t & tk0 & u0 & H1 & H2 & H3). exact (c70_complete t u tk0 u0 v u' Hlr Htp H1 H2 H3).
Qed.
End Any.

(** *** The same of the emitted code: if the module compiles, [parse] of a public non-terminal. *)
Section Emitted.
Context {A : Type}.
Variables (items : list (grammar_item A)) (te : token_enum) (g : grammar (lexpr A)) (gp : generated (lexpr A)).
Hypothesis Hnames : distinct_names items.
Hypothesis Hplain : plain_patterns items.
Hypothesis Hex : expands items gp.
Hypothesis Hnamed : named items te g.
Hypothesis Hown : own_token items te.
Variable U : user_types A.
Hypothesis Hcompiles : module_ok (emit te g gp) (emit_sigs te g gp) U.
Variable N : ast_non_terminal A.
Hypothesis HN : In N (declared_nts items).
Hypothesis Hpub : an_pub N = true.
Context {E V St : Type}.
Variable X : user A E V St.
Hypothesis Hnr : no_return (action_sem X).
Notation Plays := (plays (nts items) (fields items (us_part X)) (action_sem X) (us_next X)).
Theorem c70_emitted d u v u' : ulr1_grammar (nts items) -> tails_plain (nts items) ->
  (exists n, call_fn (emit te g gp) X n (4 + d) (an_name N) "parse" [VIter] u = CVal (ok_val v) [VIter] u') <->
  (exists t tk0 u0, utree_of (nts items) (class items) t (ASNonTerminal (an_name N)) /\ us_next X u = (Some tk0, u0) /\ Plays t tk0 u0 (BVal v) None u').
Proof.
  intros Hlr Htp. destruct (c68_entries items gp Hnames Hex N HN Hpub) as (pr & Hpr & <-).
  rewrite <- (c70_exactly items gp pr (conj Hnames (conj Hplain (conj Hex Hpr))) (us_part X) (action_sem X) (us_next X) (us_clone X) Hnr u v u' Hlr Htp).
  split; intros (n & H); exists n.
  - rewrite (c68_parse items te g gp Hnames Hex Hnamed Hown U Hcompiles pr X n d u Hpr) in H. unfold module_env in H.
    destruct (x_parse gp _ n pr u) as [st|[r u1]]; [discriminate|]. unfold call_of in H. cbn [xo_result xo_user] in H.
    destruct r as [x|e|f x|p]; cbn [result_val] in H; try discriminate. unfold ok_val in H. injection H as -> ->. reflexivity.
  - rewrite (c68_parse items te g gp Hnames Hex Hnamed Hown U Hcompiles pr X n d u Hpr). unfold module_env. rewrite H. reflexivity.
Qed.
End Emitted.

(** *** Cases.  C declarations, where [typedef x;] makes later [x] tokens of another class: the lexer reads what actions wrote. *)
Lemma cdecl_lr1 : ulr1_grammar (nts cdecl).
Proof.
  destruct (automaton cdecl) as [[[[g tbl] states] entries]| |] eqn:E; [|vm_compute in E; discriminate..].
  eapply automaton_clean; [exact (proj1 cdecl_parser)|exact cdecl_plain|exact E|]. vm_compute in E. injection E as <- <- <- <-. vm_compute. reflexivity.
Qed.
(** The run of [case_c56_feedback]; the interleaving is the one C requires: the second [x] is read before [declare] runs, the third
    after. *)
Example case_c70 : exists t tk0 u0, utree_of (nts cdecl) (class cdecl) t (ASNonTerminal "P") /\
  c_next (CSt ["typedef"; "x"; ";"; "x"; ";"; "x"; ";"] [] [] []) = (Some tk0, u0) /\
  plays (nts cdecl) (fields cdecl (fun v => v)) c_sem c_next t tk0 u0 (BVal (RVTuple [])) None
    (CSt [] ["x"] [Some (ok "Token::Typedef"); Some (okv "Token::Id" (RVLit "x")); Some (ok "Token::Semi"); Some (okv "Token::Id" (RVLit "x"));
       Some (ok "Token::Semi"); Some (okv "Token::Type" (RVLit "x")); Some (ok "Token::Semi"); None]
       ["start"; "declare"; "more"; "use_id"; "more"; "use_type"; "more"; "done"]).
Proof. exact (c70_value cdecl cdecl_gp cdecl_P cdecl_parser (fun v => v) c_sem c_next c_clone c_no_return _ _ _ _ case_c56_feedback). Qed.
(** And conversely: a tree walked by hand is a run. *)
Example case_c70_complete : exists n, c_parse n [";"] = inr (XOutcome (POk (RVTuple [])) (CSt [] [] [Some (ok "Token::Semi"); None] ["start"; "skip"; "more"; "done"])).
Proof.
  apply (c70_exactly cdecl cdecl_gp cdecl_P cdecl_parser (fun v => v) c_sem c_next c_clone c_no_return); [exact cdecl_lr1|exact cdecl_plain|].
  assert (H : c_next (CSt [";"] [] [] []) = (Some (Some (ok "Token::Semi")), CSt [] [] [Some (ok "Token::Semi")] [])) by reflexivity.
  exists (UNode "P" 0 [UNode "L" 1 [UNode "L" 0 []; UNode "S" 3 [ULeaf (RVUnit "Token::Semi")]]]).
  do 2 eexists. split; [|split; [exact H|]].
  - repeat (first [eapply ut_node; [reflexivity|cbn [ap_symbols]]|eapply uf_cons|eapply uf_nil|eapply ut_leaf; reflexivity]).
  - repeat (first [eapply pl_node; [reflexivity| |]|reflexivity|eapply pl_cons|eapply pl_nil|eapply pl_leaf; reflexivity]).
Qed.
(** The emitted code of the grammar of C69. *)
Example case_c70_emitted gp (X : user string unit rval nat) u v u' : expands sum_items gp -> no_return (action_sem X) ->
  (exists n, call_fn (emit sum_te (lowered_or_nil sum_items) gp) X n 4 "Sum" "parse" [VIter] u = CVal (ok_val v) [VIter] u') <->
  (exists t tk0 u0, utree_of (nts sum_items) (class sum_items) t (ASNonTerminal "Sum") /\ us_next X u = (Some tk0, u0) /\
     plays (nts sum_items) (fields sum_items (us_part X)) (action_sem X) (us_next X) t tk0 u0 (BVal v) None u').
Proof.
  intros He Hnr.
  exact (c70_emitted sum_items sum_te (lowered_or_nil sum_items) gp sum_names eq_refl He sum_named sum_own sum_types
    (proj2 (c68_exactly sum_items sum_te (lowered_or_nil sum_items) gp sum_names eq_refl He sum_named sum_own sum_types) sum_used)
    sum_nt (or_introl eq_refl) eq_refl X Hnr 0 u v u' sum_lr1 sum_plain).
Qed.
