(** * PropertiesReplace: C85, replacing the grammar of a compiled program by one of the same language

    C73 for the Rust modules that two macro calls become (RustTypes.v: they compile; Rust.v: what a call of [parse] does). *)
From Verif Require Import UserPrefix UserLr1 PropertiesProgram.
From Verif Require Export PropertiesRefactor PropertiesWaiting.
Local Open Scope string_scope. Local Open Scope list_scope.

(** What two calls of [parse] end with, when they differ in the value, and in what the actions did, only: the iterators are left in the same state;
    both return [Ok]; or both the same lexer error; or both a parse error with the same [found], expecting the same tokens; or both panic
    as a token matches no pattern. *)
Definition ends_alike {A1 A2 E V1 V2 I W1 W2} (items1 : list (grammar_item A1)) (items2 : list (grammar_item A2))
    (c1 : cout E V1 (I * W1)) (c2 : cout E V2 (I * W2)) : Prop :=
  exists it w1 w2,
    (exists v1 v2, c1 = CVal (ok_val v1) [VIter] (it, w1) /\ c2 = CVal (ok_val v2) [VIter] (it, w2)) \/
    (exists e, c1 = CVal (lex_val e) [VIter] (it, w1) /\ c2 = CVal (lex_val e) [VIter] (it, w2)) \/
    (exists found x1 x2, c1 = CVal (err_val found x1) [VIter] (it, w1) /\ c2 = CVal (err_val found x2) [VIter] (it, w2) /\ same_listing items1 items2 x1 x2) \/
    (c1 = CPanic KNoArm (it, w1) /\ c2 = CPanic KNoArm (it, w2)).

Section Replace.
Context {A1 A2 : Type}.
Variable pty : list ttree -> option (ty * list ttree).
Variable pex1 : list ttree -> option (A1 * list ttree).
Variable pex2 : list ttree -> option (A2 * list ttree).
Variable ppa : list ttree -> option (string * list ttree).
Hypothesis Hsyn1 : syn_parsers pty pex1 ppa.
Hypothesis Hsyn2 : syn_parsers pty pex2 ppa.
(** Two macro calls, and the modules that they become; both compile. *)
Variables (ts1 ts2 : list ttree) (items1 : list (grammar_item A1)) (items2 : list (grammar_item A2)) (ho1 ho2 : hash_order) (fuel1 fuel2 : nat).
Variables (M1 : list (Rust.item A1)) (M2 : list (Rust.item A2)) (sg1 sg2 : sigs) (te1 te2 : token_enum) (U1 : user_types A1) (U2 : user_types A2).
Hypothesis Hwritten1 : items_syntax (parses pty) (parses pex1) (parses ppa) (expr_before pex1) ts1 items1.
Hypothesis Hwritten2 : items_syntax (parses pty) (parses pex2) (parses ppa) (expr_before pex2) ts2 items2.
Hypothesis Hho1 : hash_order_ok ho1.
Hypothesis Hho2 : hash_order_ok ho2.
Hypothesis Hexpand1 : expand_tokens pty pex1 ppa ho1 fuel1 ts1 = EModule M1 sg1.
Hypothesis Hexpand2 : expand_tokens pty pex2 ppa ho2 fuel2 ts2 = EModule M2 sg2.
Hypothesis Hte1 : declared_tokens items1 = [te1].
Hypothesis Hte2 : declared_tokens items2 = [te2].
Hypothesis Hnames1 : distinct_names items1.
Hypothesis Hnames2 : distinct_names items2.
Hypothesis Hplain1 : plain_patterns items1.
Hypothesis Hplain2 : plain_patterns items2.
Hypothesis Hown1 : own_token items1 te1.
Hypothesis Hown2 : own_token items2 te2.
Hypothesis Hcompiles1 : module_ok M1 sg1 U1.
Hypothesis Hcompiles2 : module_ok M2 sg2 U2.
(** Entry points, the grammars as in C40; the language and the classes of tokens are the same. *)
Variable N1 : ast_non_terminal A1.
Variable N2 : ast_non_terminal A2.
Hypothesis HN1 : In N1 (declared_nts items1) /\ an_pub N1 = true.
Hypothesis HN2 : In N2 (declared_nts items2) /\ an_pub N2 = true.
Hypothesis Hlr1 : ulr1_grammar (nts items1).
Hypothesis Hlr2 : ulr1_grammar (nts items2).
Hypothesis Htp1 : tails_plain (nts items1).
Hypothesis Htp2 : tails_plain (nts items2).
Hypothesis Hall1 : all_productive (nts items1).
Hypothesis Hall2 : all_productive (nts items2).
Hypothesis Hlang : same_language (nts items1) (an_name N1) (nts items2) (an_name N2).
Hypothesis Hclass : forall tok, class items1 tok = class items2 tok.
(** The lexer is the same; actions do not panic. *)
Context {E V1 V2 W1 W2 I : Type}.
Variable part1 : rval -> V1.
Variable part2 : rval -> V2.
Variable uact1 : A1 -> list (string * val E V1) -> W1 -> option (V1 * W1).
Variable uact2 : A2 -> list (string * val E V2) -> W2 -> option (V2 * W2).
Hypothesis Htot1 : forall a l w, uact1 a l w <> None.
Hypothesis Htot2 : forall a l w, uact2 a l w <> None.
Variable next : I -> option (rval + E) * I.

(** Whatever the iterator: if a call of [parse] of the one module has returned, so does a call of [parse] of the other, and they end alike. *)
Theorem c85_replace n1 d it w1 w2 c1 :
  call_fn M1 (pure_user part1 uact1 next) n1 (4 + d) (an_name N1) "parse" [VIter] (it, w1) = c1 -> c1 <> CFuel ->
  exists n2 c2, call_fn M2 (pure_user part2 uact2 next) n2 (4 + d) (an_name N2) "parse" [VIter] (it, w2) = c2 /\ ends_alike items1 items2 c1 c2.
Proof.
  intros H1 Hf. destruct HN1 as [HNa HNp], HN2 as [HNb HNq].
  destruct (expanded pty pex1 ppa Hsyn1 ts1 items1 ho1 fuel1 M1 sg1 te1 Hwritten1 Hho1 Hexpand1 Hte1) as (g1 & gp1 & He1 & Hd1 & EM1 & Es1).
  destruct (expanded pty pex2 ppa Hsyn2 ts2 items2 ho2 fuel2 M2 sg2 te2 Hwritten2 Hho2 Hexpand2 Hte2) as (g2 & gp2 & He2 & Hd2 & EM2 & Es2).
  pose proof Hcompiles1 as C1. pose proof Hcompiles2 as C2. rewrite EM1, Es1 in C1. rewrite EM2, Es2 in C2. rewrite EM1 in H1. rewrite EM2.
  destruct (c68_entries items1 gp1 Hnames1 He1 N1 HNa HNp) as (pr1 & Hpr1 & En1).
  destruct (c68_entries items2 gp2 Hnames2 He2 N2 HNb HNq) as (pr2 & Hpr2 & En2).
  rewrite <- En1, <- En2 in Hlang. rewrite <- En1 in H1. rewrite <- En2.
  assert (P1 : parser_of items1 gp1 pr1) by (repeat split; auto).
  assert (P2 : parser_of items2 gp2 pr2) by (repeat split; auto).
  destruct (c68_names items1 te1 g1 gp1 Hnames1 He1 Hd1 Hown1 U1 C1) as [Hu1 _].
  destruct (c68_names items2 te2 g2 gp2 Hnames2 He2 Hd2 Hown2 U2 C2) as [Hu2 _].
  destruct (proj1 (c64_returns items1 te1 g1 gp1 Hnames1 He1 Hd1 Hu1 part1 uact1 next pr1 Hpr1 d it w1 c1)) as (o1 & Ho1 & Ec1); [split; eauto|].
  destruct Ho1 as (f1 & Ho1).
  destruct (c73_same items1 items2 gp1 gp2 pr1 pr2 part1 part2 (on_bindings uact1) (on_bindings uact2) P1 P2 Hlr1 Hlr2 Htp1 Htp2 Hall1 Hall2 Hlang Hclass
    next it w1 w2 o1 _ (fun _ _ a w _ _ => Htot1 _ _ w) (fun _ _ a w _ _ => Htot2 _ _ w) (ex_intro _ f1 (conj Ho1 eq_refl))) as (o2 & evs2 & Ho2 & _ & Hit & Hr).
  destruct (proj2 (c64_returns items2 te2 g2 gp2 Hnames2 He2 Hd2 Hu2 part2 uact2 next pr2 Hpr2 d it w2 (ended o2))) as [(n2 & Hn2) _].
  { exists o2. split; [|reflexivity]. destruct Ho2 as (f2 & Ho2 & _). exists f2. exact Ho2. }
  exists n2, (ended o2). split; [exact Hn2|]. rewrite Ec1. exists (oc_iter o1), (oc_world o1), (oc_world o2).
  unfold ended, call_of. cbn [xo_result xo_user]. rewrite Hit.
  destruct (oc_result o1) as [v1|e1|f x1|p1], (oc_result o2) as [v2|e2|f' x2|p2]; cbn in Hr; try contradiction.
  - left. exists v1, v2. split; reflexivity.
  - right; left. subst e2. exists e1. split; reflexivity.
  - right; right; left. destruct Hr as (-> & Hl). exists f', x1, x2. split; [reflexivity|split; [reflexivity|exact Hl]].
  - destruct p1; contradiction.
  - destruct p1; contradiction.
  - destruct p1; contradiction.
  - right; right; right. destruct p1, p2; try contradiction. split; reflexivity.
Qed.

(** If the values of the two trees of a sentence are always related, so are the values returned and what the actions did. *)
Theorem c85_value (R : V1 -> W1 -> V2 -> W2 -> Prop) n1 n2 d it it1 it2 w1 w2 v1 v2 w1' w2' :
  (forall t1 t2, utree_of (nts items1) (class items1) t1 (ASNonTerminal (an_name N1)) -> utree_of (nts items2) (class items2) t2 (ASNonTerminal (an_name N2)) ->
     uyield t1 = uyield t2 -> forall u1 x1 u2 x2, ueval (nts items1) (fields items1 part1) (on_bindings uact1) t1 w1 = Some (BVal u1, x1) ->
       ueval (nts items2) (fields items2 part2) (on_bindings uact2) t2 w2 = Some (BVal u2, x2) -> R u1 x1 u2 x2) ->
  call_fn M1 (pure_user part1 uact1 next) n1 (4 + d) (an_name N1) "parse" [VIter] (it, w1) = CVal (ok_val v1) [VIter] (it1, w1') ->
  call_fn M2 (pure_user part2 uact2 next) n2 (4 + d) (an_name N2) "parse" [VIter] (it, w2) = CVal (ok_val v2) [VIter] (it2, w2') ->
  R v1 w1' v2 w2'.
Proof.
  intros HR H1 H2. destruct HN1 as [HNa HNp], HN2 as [HNb HNq].
  destruct (c69_value pty pex1 ppa Hsyn1 ts1 items1 ho1 fuel1 M1 sg1 te1 Hwritten1 Hho1 Hexpand1 Hte1 Hnames1 Hplain1 Hown1 U1 Hcompiles1 part1 uact1 next N1 HNa HNp _ _ _ _ _ _ _ H1) as (t1 & T1 & G1 & E1).
  destruct (c69_value pty pex2 ppa Hsyn2 ts2 items2 ho2 fuel2 M2 sg2 te2 Hwritten2 Hho2 Hexpand2 Hte2 Hnames2 Hplain2 Hown2 U2 Hcompiles2 part2 uact2 next N2 HNb HNq _ _ _ _ _ _ _ H2) as (t2 & T2 & G2 & E2).
  apply (HR t1 t2); auto. destruct (fed_prefix next it _ _ _ _ _ G1 G2) as (p & Ep & Q). destruct p; [|discriminate]. rewrite app_nil_r in Ep. exact Ep.
Qed.
End Replace.

(** ** A case: the left-recursive sum of C69, and a right-recursive one
    [enum Token { "n" => Token::N(<usize>), "+" => Token::Plus }
     pub Sum: usize = { <n: "n"> "+" <s: Sum> => s, <n: "n"> => n };] *)
Definition rsum_tokens : list ttree :=
  [TIdent "enum"; TIdent "Token";
   TGroup DBrace ([str "n"] ++ arrow ++ [TIdent "Token"] ++ dc ++ [TIdent "N"; TGroup DParen [lt; TIdent "usize"; gt]; cmma] ++
                  [str "+"] ++ arrow ++ [TIdent "Token"] ++ dc ++ [TIdent "Plus"]);
   TIdent "pub"; TIdent "Sum"; colon; TIdent "usize"; eqs;
   TGroup DBrace ([lt; TIdent "n"; colon; str "n"; gt; str "+"; lt; TIdent "s"; colon; TIdent "Sum"; gt] ++ arrow ++ [TIdent "s"; cmma] ++
                  [lt; TIdent "n"; colon; str "n"; gt] ++ arrow ++ [TIdent "n"]); semi].
Definition rsum_items : list (grammar_item string) :=
  [tokens [val_tok "n" "Token::N" "usize"; unit_tok "+" "Token::Plus"];
   rule true "Sum" "usize" [(["n" ::= $"n"; $"+"; "s" ::= #"Sum"], "s"); (["n" ::= $"n"], "n")]].
Definition rsum_te : token_enum := the_tokens rsum_items.
Definition rsum_nt : ast_non_terminal string := nth 0 (declared_nts rsum_items) {| an_pub := false; an_name := ""; an_type := ""; an_productions := [] |}.
Lemma rsum_written : items_syntax (parses toy_type) (parses toy_expr) (parses toy_path) (expr_before toy_expr) rsum_tokens rsum_items.
Proof. apply (c41_accepts_only_syntax _ _ _ toy_syn rsum_tokens rsum_items []). vm_compute. reflexivity. Qed.
Lemma rsum_names : distinct_names rsum_items. Proof. one_name. Qed.
Lemma rsum_plain : tails_plain (declared_nts rsum_items).
Proof.
  apply UserLr1.no_empty_tails_plain. intros n p q H Hs. pose proof (all_productions_spec (declared_nts rsum_items) (fun _ q => match ap_symbols q with [] => false | _ => true end) n p q eq_refl H) as Hc.
  cbn beta in Hc. rewrite Hs in Hc. discriminate.
Qed.
Lemma rsum_productive : all_productive (declared_nts rsum_items).
Proof. assert (H : uproductive (declared_nts rsum_items) "Sum") by (prod_nt 1). intros N [<-|[]]. exact H. Qed.
Lemma rsum_lr1 : ulr1_grammar (declared_nts rsum_items).
Proof.
  destruct (automaton rsum_items) as [[[[g tbl] states] entries]| |] eqn:E; [|vm_compute in E; discriminate..].
  eapply automaton_clean; [exact rsum_names|exact rsum_plain|exact E|]. vm_compute in E. injection E as <- <- <- <-. vm_compute. reflexivity.
Qed.
Lemma rsum_own : own_token rsum_items rsum_te.
Proof. constructor; [intros N HN _; each HN; cbn; split; discriminate|cbn; intuition discriminate]. Qed.
Lemma rsum_promises : promises rsum_items rsum_te sum_types.
Proof.
  constructor.
  - intros N pr vs HN Hpr Hv. each HN; each Hpr; cbn [ap_symbols ap_action] in *; vars Hv; reflexivity.
  - intros c Hc. each Hc; cbn; [|apply po_path; cbn; tauto]. eapply po_enum; [cbn; tauto|]. constructor; [apply (po_choose sum_types "usize")|constructor].
  - split; [reflexivity|]. intros r Hr. cbn in *. tauto.
  - intros t Hw E. exfalso. assert (t = "usize") by (destruct Hw as [(N & HN & <-)|(c & Hc & Ht)]; [each HN; reflexivity|each Hc; each Ht; reflexivity]). subst t. discriminate E.
Qed.
Definition rsum_named : PropertiesHygiene.named rsum_items rsum_te (lowered_or_nil rsum_items).
Proof. split; [left; reflexivity|vm_compute; reflexivity]. Qed.
Lemma rsum_used : well_used rsum_items rsum_te (lowered_or_nil rsum_items) sum_types.
Proof.
  constructor.
  - apply usable_iff. vm_compute. reflexivity.
  - constructor; [intros N HN _; each HN; cbn; split; [intuition discriminate|discriminate]|cbn; intuition discriminate].
  - constructor; [intros N HN _; each HN; reflexivity|split; [constructor|intros a []]|discriminate].
  - exact rsum_promises.
Qed.

(** Both languages: [n + n + .. + n]. *)
Fixpoint plus_ns (k : nat) : list string := match k with 0 => [] | S k' => "+" :: "n" :: plus_ns k' end.
Fixpoint ns_plus (k : nat) : list string := match k with 0 => [] | S k' => "n" :: "+" :: ns_plus k' end.
Lemma plus_ns_end k : plus_ns k ++ ["+"; "n"] = plus_ns (S k).
Proof. induction k as [|k IH]; [reflexivity|]. cbn in *. rewrite IH. reflexivity. Qed.
Lemma ns_plus_end k : ns_plus k ++ ["n"; "+"] = ns_plus (S k).
Proof. induction k as [|k IH]; [reflexivity|]. cbn in *. rewrite IH. reflexivity. Qed.
Lemma ns_plus_n k : ns_plus k ++ ["n"] = "n" :: plus_ns k.
Proof. induction k as [|k IH]; [reflexivity|]. cbn in *. rewrite IH. reflexivity. Qed.
Lemma no_nt (ws : list string) l (n : string) r : map ASTerminal ws = l ++ ASNonTerminal n :: r -> False.
Proof. intro H. assert (Hi : In (ASNonTerminal n) (map ASTerminal ws)) by (rewrite H; apply in_elt). apply in_map_iff in Hi. destruct Hi as (x & Hx & _). discriminate. Qed.
Lemma terminals_inj (a b : list string) : map ASTerminal a = map ASTerminal b -> a = b.
Proof. revert b. induction a as [|x a IH]; intros [|y b] H; try discriminate; [reflexivity|]. cbn in H. injection H as -> H. f_equal. auto. Qed.
Definition sum_form (f : list ast_symbol) : Prop := exists k, f = map ASTerminal ("n" :: plus_ns k) \/ f = #"Sum" :: map ASTerminal (plus_ns k).
Definition rsum_form (f : list ast_symbol) : Prop := exists k, f = map ASTerminal ("n" :: plus_ns k) \/ f = map ASTerminal (ns_plus k) ++ [#"Sum"].
Lemma sum_forms a b : uderives (nts sum_items) a b -> sum_form a -> sum_form b.
Proof.
  intros H. induction H as [|a b c Hs Hd IH]; auto. intro Ha. apply IH. destruct Hs as [l n p q r Hp]. destruct Ha as (k & [Ha|Ha]).
  - exfalso. symmetry in Ha. exact (no_nt _ _ _ _ Ha).
  - destruct l as [|s l].
    + cbn in Ha. injection Ha as -> ->. destruct (Decide.uproduction_In (nts sum_items) _ p q Hp) as (N & HN & _ & Hin). cbn in HN. destruct HN as [<-|[]].
      cbn in Hin. destruct Hin as [<-|[<-|[]]]; [exists (S k); right; reflexivity|exists k; left; reflexivity].
    + exfalso. cbn in Ha. injection Ha as _ Ha. symmetry in Ha. exact (no_nt _ _ _ _ Ha).
Qed.
Lemma rsum_forms a b : uderives (nts rsum_items) a b -> rsum_form a -> rsum_form b.
Proof.
  intros H. induction H as [|a b c Hs Hd IH]; auto. intro Ha. apply IH. destruct Hs as [l n p q r Hp]. destruct Ha as (k & [Ha|Ha]).
  - exfalso. symmetry in Ha. exact (no_nt _ _ _ _ Ha).
  - destruct r as [|s r _] using rev_ind.
    + apply app_inj_tail in Ha. destruct Ha as [-> Ha]. injection Ha as ->. rewrite app_nil_r.
      destruct (Decide.uproduction_In (nts rsum_items) _ p q Hp) as (N & HN & _ & Hin). cbn in HN. destruct HN as [<-|[]].
      cbn in Hin. destruct Hin as [<-|[<-|[]]]; cbn [map ap_symbols unnamed].
      * exists (S k). right. rewrite <- ns_plus_end, map_app, <- app_assoc. reflexivity.
      * exists k. left. rewrite <- ns_plus_n, map_app. reflexivity.
    + exfalso. change (l ++ #n :: r ++ [s]) with (l ++ (#n :: r) ++ [s]) in Ha. rewrite app_assoc in Ha. apply app_inj_tail in Ha. destruct Ha as [Ha _]. symmetry in Ha. exact (no_nt _ _ _ _ Ha).
Qed.
Lemma sum_language ws : derives_string (nts sum_items) "Sum" ws <-> exists k, ws = "n" :: plus_ns k.
Proof.
  split.
  - intro H. destruct (sum_forms _ _ H (ex_intro _ 0 (or_intror eq_refl))) as (k & [Hk|Hk]); [exists k; apply terminals_inj; exact Hk|].
    exfalso. exact (no_nt ws [] "Sum" _ Hk).
  - intros (k & ->). induction k as [|k IH].
    + eapply ud_step; [exact (uds (nts sum_items) [] "Sum" 1 _ [] eq_refl)|]. constructor.
    + eapply ud_step; [exact (uds (nts sum_items) [] "Sum" 0 _ [] eq_refl)|]. rewrite <- plus_ns_end. cbn [map ap_symbols app unnamed].
      unfold derives_string in IH. change ("n" :: plus_ns k ++ ["+"; "n"]) with (("n" :: plus_ns k) ++ ["+"; "n"]). rewrite map_app.
      apply (uderives_app (nts sum_items) [#"Sum"] (map ASTerminal ("n" :: plus_ns k)) [$"+"; $"n"] [$"+"; $"n"]); [exact IH|constructor].
Qed.
Lemma rsum_language ws : derives_string (nts rsum_items) "Sum" ws <-> exists k, ws = "n" :: plus_ns k.
Proof.
  split.
  - intro H. destruct (rsum_forms _ _ H (ex_intro _ 0 (or_intror eq_refl))) as (k & [Hk|Hk]); [exists k; apply terminals_inj; exact Hk|].
    exfalso. exact (no_nt ws _ "Sum" [] Hk).
  - intros (k & ->). induction k as [|k IH].
    + eapply ud_step; [exact (uds (nts rsum_items) [] "Sum" 1 _ [] eq_refl)|]. constructor.
    + eapply ud_step; [exact (uds (nts rsum_items) [] "Sum" 0 _ [] eq_refl)|]. cbn [map ap_symbols app unnamed plus_ns].
      apply (uderives_app (nts rsum_items) [$"n"; $"+"] [$"n"; $"+"] [#"Sum"]); [constructor|exact IH].
Qed.
Lemma sums_alike : same_language (nts sum_items) (an_name sum_nt) (nts rsum_items) (an_name rsum_nt).
Proof. intro ws. etransitivity; [exact (sum_language ws)|]. symmetry. exact (rsum_language ws). Qed.

Example case_c85_expands : exists M sg, expand_tokens toy_type toy_expr toy_path ho_id 100 rsum_tokens = EModule M sg.
Proof.
  assert (H : match expand_tokens toy_type toy_expr toy_path ho_id 100 rsum_tokens with EModule _ _ => true | _ => false end = true) by (vm_compute; reflexivity).
  destruct (expand_tokens _ _ _ _ _ _) as [M sg| | | |]; try discriminate H. eauto.
Qed.
Section CaseC85.
Variables (M M' : list (Rust.item string)) (sg sg' : sigs).
Hypothesis H : expand_tokens toy_type toy_expr toy_path ho_id 100 sum_tokens = EModule M sg.
Hypothesis H' : expand_tokens toy_type toy_expr toy_path ho_id 100 rsum_tokens = EModule M' sg'.
Lemma case_c85_compiles : module_ok M' sg' sum_types.
Proof.
  destruct (expanded toy_type toy_expr toy_path toy_syn rsum_tokens rsum_items ho_id 100 M' sg' rsum_te rsum_written ho_id_ok H' eq_refl) as (g & gp & He & Hn & -> & ->).
  assert (Eg : g = lowered_or_nil rsum_items) by (destruct Hn as [_ Hn], rsum_named as [_ Hn']; congruence). subst g.
  apply (c68_exactly rsum_items rsum_te (lowered_or_nil rsum_items) gp rsum_names eq_refl He Hn rsum_own sum_types). exact rsum_used.
Qed.
(** Whatever the lexer (infinite, failing, ..) and the actions: *)
Example case_c85 {E V W I} part (uact uact' : string -> list (string * val E V) -> W -> option (V * W)) (next : I -> option (rval + E) * I) n it w c :
  (forall a l w, uact a l w <> None) -> (forall a l w, uact' a l w <> None) ->
  call_fn M (pure_user part uact next) n 4 "Sum" "parse" [VIter] (it, w) = c -> c <> CFuel ->
  exists n' c', call_fn M' (pure_user part uact' next) n' 4 "Sum" "parse" [VIter] (it, w) = c' /\ ends_alike sum_items rsum_items c c'.
Proof.
  intros Ht Ht'. exact (c85_replace toy_type toy_expr toy_expr toy_path toy_syn toy_syn sum_tokens rsum_tokens sum_items rsum_items ho_id ho_id 100 100 M M' sg sg' sum_te rsum_te sum_types sum_types
    sum_written rsum_written ho_id_ok ho_id_ok H H' eq_refl eq_refl sum_names rsum_names eq_refl eq_refl sum_own rsum_own (case_c69_compiles M sg H) case_c85_compiles
    sum_nt rsum_nt (conj (or_introl eq_refl) eq_refl) (conj (or_introl eq_refl) eq_refl) sum_lr1 rsum_lr1 sum_plain rsum_plain sum_productive rsum_productive sums_alike (fun _ => eq_refl)
    part part uact uact' Ht Ht' next n 0 it w w c).
Qed.
End CaseC85.
