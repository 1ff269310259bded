(** * PropertiesRefactor: C73, two grammars of the same language

    Vocabulary: USpec.v (grammar classes), PropSpec.v ([returns_with], [listing]), ParamSpec.v ([never_panics], [answers]). *)
From Verif Require Import UserPrefix UserLr1 InterleaveProofs PropProofs PropertiesParam.
From Verif Require Export PropertiesErrors.
Local Open Scope string_scope. Local Open Scope list_scope.

(** The non-terminal [nt] derives the string [ws] of token entries. *)
Definition derives_string {A} (nts : list (ast_non_terminal A)) (nt : string) (ws : list string) : Prop :=
  uderives nts [ASNonTerminal nt] (map ASTerminal ws).
(** The entry points [n1] and [n2] of two grammars derive the same strings of token entries. *)
Definition same_language {A A'} (nts1 : list (ast_non_terminal A)) (n1 : string) (nts2 : list (ast_non_terminal A')) (n2 : string) : Prop :=
  forall ws, derives_string nts1 n1 ws <-> derives_string nts2 n2 ws.

(** Parse trees and derivations give the same sentences. *)
Section Trees.
Context {A Tok : Type}.
Variable nts : list (ast_non_terminal A).
Variable class : Tok -> option string.
Notation classes toks ws := (Forall2 (fun tok s => class tok = Some s) toks ws).

Lemma derives_forest a b : uderives nts a b -> forall ts, uforest_of nts class ts b -> exists ts', uforest_of nts class ts' a /\ flat_map uyield ts' = flat_map uyield ts.
Proof.
  induction 1 as [a|a b c Hs Hd IH]; intros ts Hf; [eauto|]. destruct (IH _ Hf) as (ts1 & F1 & Y1). rewrite <- Y1. clear - Hs F1.
  destruct Hs as [l n p q r Hq]. destruct (uforest_split nts class _ _ _ F1) as (k1 & k2 & -> & G1 & G2). destruct (uforest_split nts class _ _ _ G2) as (k3 & k4 & -> & G3 & G4).
  exists (k1 ++ UNode n p k3 :: k4). split; [|rewrite !flat_map_app; cbn; rewrite ?flat_map_app; reflexivity].
  apply uforest_join; [exact G1|]. constructor; [|exact G4]. econstructor; [exact Hq|]. apply uforest_named. exact G3.
Qed.
Lemma leaves toks ws : classes toks ws -> uforest_of nts class (map ULeaf toks) (map ASTerminal ws).
Proof. induction 1; cbn; constructor; auto. constructor. auto. Qed.
End Trees.

(** Where and how a parser stops, for an LR(1) grammar as in C40. *)
Section One.
Context {A E V W I : Type}.
Variable items : list (grammar_item A).
Variable gp : generated (lexpr A).
Variable pr : parser_struct.
Variable inj : rval -> V.
Variable usem : A -> list (string * bval V) -> W -> option (V * W).
Hypothesis Hp : parser_of items gp pr.
Hypothesis Hlr : ulr1_grammar (nts items).
Hypothesis Htp : tails_plain (nts items).
Hypothesis Hall : all_productive (nts items).
Hypothesis Hnp : never_panics items usem.
Notation sentence := (sentence (nts items) (class items) (pr_name pr)).
Notation prefix := (sentence_prefix (nts items) (class items) (pr_name pr)).
Notation classes toks ws := (Forall2 (fun tok s => class items tok = Some s) toks ws).

Lemma sentence_string toks : sentence toks <-> exists ws, classes toks ws /\ derives_string (nts items) (pr_name pr) ws.
Proof.
  split.
  - intros (t & Ht & <-). destruct (proj1 (forest_derives items) _ _ Ht) as (ws & H1 & H2). exists ws. auto.
  - intros (ws & H1 & H2). destruct (derives_forest (nts items) (class items) _ _ H2 _ (leaves (nts items) (class items) _ _ H1)) as (ts & H3 & H4).
    inversion H3 as [|t ts' s ss Ht Hts]; subst. inversion Hts; subst. exists t. split; [exact Ht|]. cbn in H4. rewrite app_nil_r in H4. rewrite H4.
    clear. induction toks; cbn; congruence.
Qed.

(** What is listed as expected after [toks]. *)
Definition lists (toks : list rval) (x : string) : Prop :=
  exists listed, x = listing items listed /\
    forall s, In s (map cv_from (token_entries items)) -> (listed s = true <->
      exists ws, classes toks ws /\ string_prefix (nts items) (pr_name pr) (ws ++ [s])).

Lemma stops (next : I -> option (rval + E) * I) it w o evs : returns_with gp inj usem next pr it w o evs ->
  exists toks r, nexts_of evs = map (fun t => Some (inl t)) toks ++ [r] /\ prefix toks /\
    match r with
    | Some (inr e) => oc_result o = PLexerError e
    | Some (inl tok) => (class items tok = None /\ oc_result o = PPanic NoTokenMatch) \/
        exists f x, class items tok = Some f /\ oc_result o = PParserError f x /\ ~ prefix (toks ++ [tok]) /\ lists toks x
    | None => (sentence toks /\ exists v, oc_result o = POk v) \/
        (~ sentence toks /\ exists x, oc_result o = PParserError "end-of-input" x /\ lists toks x)
    end.
Proof.
  intro H. destruct Hp as (H1 & H2 & H3 & H4).
  destruct (correct_prefix_with items H1 H2 gp H3 inj usem next pr H4 it w Hlr Htp Hall o evs H) as (toks & r & Hn & _ & Hpre & Herr).
  destruct (run_summary items H1 H2 gp H3 inj usem next pr H4 it w o evs H) as (toks' & r' & _ & Hu & Hn' & Hlex & _).
  rewrite Hn in Hn'. apply app_inj_tail in Hn'. destruct Hn' as (Et & <-).
  assert (toks' = toks) by (clear - Et; revert toks' Et; induction toks as [|a l IH]; intros [|b l'] Et; cbn in Et; try discriminate; [reflexivity|]; injection Et as Ea Et; f_equal; [congruence|apply IH; congruence]). subst toks'.
  exists toks, r. split; [exact Hn|]. split; [exact Hpre|].
  destruct Hu as (? & ? & ? & ? & ? & _ & _ & _ & _ & _ & _ & Hm).
  clear Hn Hlex. destruct (oc_result o) as [v|er|f xs|p] eqn:Eo.
  - destruct Hm as (-> & t & Ht & Hy & _). left. split; [exists t; auto|eauto].
  - destruct Hm as (-> & _). reflexivity.
  - destruct (Herr f xs eq_refl) as (Hr & Hx). destruct r as [[tok|er]|]; [|contradiction|].
    + right. exists f, xs. destruct Hr. auto.
    + destruct Hr as (-> & Hs). right. split; [exact Hs|]. exists xs. auto.
  - destruct p; try contradiction.
    + destruct Hm as (_ & tok & -> & Hc). auto.
    + exfalso. destruct Hm as (_ & n & k & q & l & kids & bs & w2 & Hq & _ & _ & _ & Hno). unfold uproduction in Hq.
      destruct (find _ (nts items)) as [N|] eqn:Ef; [|discriminate]. apply find_some in Ef. destruct Ef as (HN & _). exact (Hnp N q _ _ HN (nth_error_In _ _ Hq) Hno).
Qed.
Lemma prefix_shorter toks tok post : prefix (toks ++ tok :: post) -> prefix (toks ++ [tok]).
Proof.
  intros (ws & H1 & q & H2). replace (toks ++ tok :: post) with ((toks ++ [tok]) ++ post) in H1 by (rewrite <- app_assoc; reflexivity).
  apply Forall2_app_inv_l in H1. destruct H1 as (w1 & w2 & F1 & F2 & ->). exists w1. split; [exact F1|]. exists (w2 ++ q). rewrite app_assoc. exact H2.
Qed.
Lemma prefix_class toks tok post : prefix (toks ++ tok :: post) -> class items tok <> None.
Proof. intros (ws & H1 & _). apply Forall2_app_inv_l in H1. destruct H1 as (? & ? & _ & F & _). inversion F; subst. congruence. Qed.
Lemma ends_somewhere (next : I -> option (rval + E) * I) it w : PropSpec.ends next it -> exists o evs, returns_with gp inj usem next pr it w o evs.
Proof.
  intro He. destruct Hp as (H1 & H2 & H3 & H4).
  assert (Hpt : tails_productive (nts items)).
  { destruct (expands_data items gp H3) as (? & ? & _ & ti & g & ? & ? & ? & ? & Hlow & _). exact (all_productive_tails items H1 ti g Hlow Hall). }
  destruct (c05_terminates items gp pr inj usem next it w Hp Hpt (or_introl Htp) He) as (o & fuel & Ho). exists o. eexists. exists fuel. split; [exact Ho|reflexivity].
Qed.
End One.

(** An iterator that replays results. *)
Definition replayed {E} (l : list (option (rval + E))) : option (rval + E) * list (option (rval + E)) :=
  match l with [] => (None, []) | r :: l' => (r, l') end.
Lemma replayed_ends {E} (toks : list rval) (r : option (rval + E)) : PropSpec.ends replayed (map (fun t => Some (inl t)) toks ++ [r]).
Proof.
  destruct r as [[tok|e]|].
  - exists (toks ++ [tok]), None, []. split; [|auto]. exists []. split; [|reflexivity].
    assert (H : forall l, feeds (E := E) replayed (map (fun t => Some (inl t)) l) l []) by (induction l; [constructor|econstructor; [reflexivity|auto]]).
    specialize (H (toks ++ [tok])). rewrite map_app in H. exact H.
  - exists toks, (Some (inr e)), []. split; [|eauto]. exists [Some (inr e)]. split; [|reflexivity]. induction toks; [constructor|econstructor; [reflexivity|auto]].
  - exists toks, None, []. split; [|eauto]. exists [None]. split; [|reflexivity]. induction toks; [constructor|econstructor; [reflexivity|auto]].
Qed.
Lemma replayed_answers {E} (toks : list rval) (r : option (rval + E)) toks' (r' : option (rval + E)) it' :
  answers replayed (map (fun t => Some (inl t)) toks ++ [r]) (map (fun t => Some (inl t)) toks' ++ [r']) it' ->
  (toks' = toks /\ r' = r) \/ (exists tok post, toks = toks' ++ tok :: post /\ r' = Some (inl tok)) \/ (exists tok post, toks' = toks ++ tok :: post /\ r = Some (inl tok)).
Proof.
  revert toks'. induction toks as [|t toks IH]; intros [|t' toks'] H; inversion H as [|i0 r0 i1 l0 i2 Hn Ha]; subst; cbn in Hn; inversion Hn; subst.
  - left. auto.
  - right; right. do 2 eexists. split; reflexivity.
  - right; left. do 2 eexists. split; reflexivity.
  - destruct (IH _ Ha) as [(-> & ->)|[(tok & post & -> & ->)|(tok & post & -> & ->)]]; [left; auto|right; left|right; right]; do 2 eexists; split; reflexivity.
Qed.

Section Two.
Context {A1 A2 E V1 V2 W1 W2 I : Type}.
Variable items1 : list (grammar_item A1).
Variable items2 : list (grammar_item A2).
Variable gp1 : generated (lexpr A1).
Variable gp2 : generated (lexpr A2).
Variables pr1 pr2 : parser_struct.
Variable inj1 : rval -> V1.
Variable inj2 : rval -> V2.
Variable usem1 : A1 -> list (string * bval V1) -> W1 -> option (V1 * W1).
Variable usem2 : A2 -> list (string * bval V2) -> W2 -> option (V2 * W2).
Hypothesis Hp1 : parser_of items1 gp1 pr1.
Hypothesis Hp2 : parser_of items2 gp2 pr2.
Hypothesis Hlr1 : ulr1_grammar (nts items1).
Hypothesis Hlr2 : ulr1_grammar (nts items2).
Hypothesis Htp1 : tails_plain (nts items1).
Hypothesis Htp2 : tails_plain (nts items2).
Hypothesis Hall1 : all_productive (nts items1).
Hypothesis Hall2 : all_productive (nts items2).
(** The two entry points have the same language, and tokens belong to the same entries. *)
Hypothesis Hlang : same_language (nts items1) (pr_name pr1) (nts items2) (pr_name pr2).
Hypothesis Hclass : forall tok, class items1 tok = class items2 tok.

Lemma same_classes_ toks ws : Forall2 (fun tok s => class items1 tok = Some s) toks ws <-> Forall2 (fun tok s => class items2 tok = Some s) toks ws.
Proof. split; intro H; induction H; constructor; auto; congruence. Qed.
Lemma same_string_prefix ws : string_prefix (nts items1) (pr_name pr1) ws <-> string_prefix (nts items2) (pr_name pr2) ws.
Proof. split; intros (post & H); exists post; apply Hlang; exact H. Qed.
Lemma same_prefix toks : sentence_prefix (nts items1) (class items1) (pr_name pr1) toks <-> sentence_prefix (nts items2) (class items2) (pr_name pr2) toks.
Proof. split; intros (ws & H1 & H2); exists ws; rewrite same_classes_, same_string_prefix in *; auto. Qed.
Lemma same_sentence toks : sentence (nts items1) (class items1) (pr_name pr1) toks <-> sentence (nts items2) (class items2) (pr_name pr2) toks.
Proof.
  rewrite (sentence_string items1 pr1), (sentence_string items2 pr2).
  split; intros (ws & H1 & H2); exists ws; (split; [apply same_classes_; exact H1|apply Hlang; exact H2]).
Qed.

(** Parser errors that list the same tokens, each in the order of its own [enum Token]. *)
Definition same_listing (x1 x2 : string) : Prop := exists listed, x1 = listing items1 listed /\ x2 = listing items2 listed.
Lemma lists_same toks x1 x2 : lists items1 pr1 toks x1 -> lists items2 pr2 toks x2 -> same_listing x1 x2.
Proof.
  intros (l1 & -> & H1) (l2 & -> & H2).
  exists (fun s => if in_dec string_dec s (map cv_from (token_entries items1)) then l1 s else l2 s). split; unfold listing; f_equal.
  - apply filter_ext_in. intros s Hs. destruct (in_dec _ s _); [reflexivity|contradiction].
  - apply filter_ext_in. intros s Hs. destruct (in_dec string_dec s _) as [Hs1|]; [|reflexivity].
    assert (Hiff : l1 s = true <-> l2 s = true).
    { rewrite (H1 s Hs1), (H2 s Hs). split; intros (ws & F & P); exists ws; (split; [apply same_classes_; exact F|apply same_string_prefix; exact P]). }
    destruct (l1 s), (l2 s); auto; exfalso; destruct Hiff as [Ha Hb]; [discriminate Ha|discriminate Hb]; reflexivity.
Qed.

(** Results that differ in values only. *)
Definition same_result (r1 : presult V1 E) (r2 : presult V2 E) : Prop :=
  match r1, r2 with
  | POk _, POk _ => True
  | PLexerError e, PLexerError e' => e = e'
  | PParserError f x, PParserError f' x' => f = f' /\ same_listing x x'
  | PPanic NoTokenMatch, PPanic NoTokenMatch => True
  | _, _ => False
  end.

Variable next : I -> option (rval + E) * I.
Variable it : I.
Variable w1 : W1.
Variable w2 : W2.

(** If the actions do not panic: when one parser returns, so does the other, having read the same tokens, with the same result except
    for the value. *)
Theorem c73_same o1 evs1 : never_panics items1 usem1 -> never_panics items2 usem2 ->
  returns_with gp1 inj1 usem1 next pr1 it w1 o1 evs1 ->
  exists o2 evs2, returns_with gp2 inj2 usem2 next pr2 it w2 o2 evs2 /\
    nexts_of evs2 = nexts_of evs1 /\ oc_iter o2 = oc_iter o1 /\ same_result (oc_result o1) (oc_result o2).
Proof.
  intros Hn1 Hn2 H1.
  destruct (stops items1 gp1 pr1 inj1 usem1 Hp1 Hlr1 Htp1 Hall1 Hn1 next it w1 o1 evs1 H1) as (toks & r & En1 & P1 & M1).
  destruct (ends_somewhere items2 gp2 pr2 inj2 usem2 Hp2 Htp2 Hall2 replayed (map (fun t => Some (inl t)) toks ++ [r]) w2 (replayed_ends toks r)) as (o2 & evs2 & H2).
  destruct (stops items2 gp2 pr2 inj2 usem2 Hp2 Hlr2 Htp2 Hall2 Hn2 replayed _ w2 o2 evs2 H2) as (toks2 & r2 & En2 & P2 & M2).
  pose proof (c49_responses gp2 pr2 inj2 usem2 replayed _ w2 o2 evs2 H2) as Ha. rewrite En2 in Ha.
  assert (Heq : toks2 = toks /\ r2 = r).
  { destruct (replayed_answers _ _ _ _ _ Ha) as [Heq|[(tok & post & -> & ->)|(tok & post & -> & ->)]]; [exact Heq|exfalso..].
    - destruct M2 as [(Hc & _)|(f & x & _ & _ & Hno & _)].
      + rewrite <- Hclass in Hc. exact (prefix_class items1 pr1 _ _ _ P1 Hc).
      + apply Hno, same_prefix, (prefix_shorter items1 pr1 _ _ post). exact P1.
    - destruct M1 as [(Hc & _)|(f & x & _ & _ & Hno & _)].
      + rewrite Hclass in Hc. exact (prefix_class items2 pr2 _ _ _ P2 Hc).
      + apply Hno, same_prefix, (prefix_shorter items2 pr2 _ _ post). exact P2. }
  destruct Heq as (-> & ->).
  pose proof (c49_responses gp1 pr1 inj1 usem1 next it w1 o1 evs1 H1) as Ha1. rewrite En1, <- En2 in Ha1.
  pose proof (c49_same_responses items2 gp2 pr2 inj2 usem2 replayed next _ it w2 o2 evs2 (oc_iter o1) Hp2 H2 Ha1) as H2'.
  eexists _, evs2. split; [exact H2'|]. split; [congruence|]. split; [reflexivity|]. cbn [oc_result].
  destruct r as [[tok|e]|].
  - destruct M1 as [(Hc & ->)|(f & x & Hf & -> & _ & L1)], M2 as [(Hc' & ->)|(f' & x' & Hf' & -> & _ & L2)]; try exact Logic.I; rewrite Hclass in *; try congruence.
    split; [congruence|]. exact (lists_same _ _ _ L1 L2).
  - rewrite M1, M2. reflexivity.
  - destruct M1 as [(Hs & v & ->)|(Hs & x & -> & L1)], M2 as [(Hs' & v' & ->)|(Hs' & x' & -> & L2)]; try exact Logic.I; try (apply same_sentence in Hs'; contradiction); try (apply same_sentence in Hs; contradiction).
    split; [reflexivity|]. exact (lists_same _ _ _ L1 L2).
Qed.

(** With the same entries in the same order, errors are the same strings. *)
Theorem c73_same_strings x1 x2 : map cv_from (token_entries items1) = map cv_from (token_entries items2) -> same_listing x1 x2 -> x1 = x2.
Proof. intros He (l & -> & ->). unfold listing. rewrite He. reflexivity. Qed.

(** If the trees of the two grammars for a token string have related values, so have the values returned. *)
Theorem c73_value (R : V1 -> W1 -> V2 -> W2 -> Prop) o1 v1 o2 v2 :
  (forall t1 t2, utree_of (nts items1) (class items1) t1 (ASNonTerminal (pr_name pr1)) -> utree_of (nts items2) (class items2) t2 (ASNonTerminal (pr_name pr2)) ->
     uyield t1 = uyield t2 -> forall u1 x1 u2 x2, ueval (nts items1) (fields items1 inj1) usem1 t1 w1 = Some (BVal u1, x1) ->
       ueval (nts items2) (fields items2 inj2) usem2 t2 w2 = Some (BVal u2, x2) -> R u1 x1 u2 x2) ->
  returns gp1 inj1 usem1 next pr1 it w1 o1 -> oc_result o1 = POk v1 -> returns gp2 inj2 usem2 next pr2 it w2 o2 -> oc_result o2 = POk v2 ->
  R v1 (oc_world o1) v2 (oc_world o2).
Proof.
  intros HR H1 E1 H2 E2.
  destruct (c02_value_of_tree items1 gp1 pr1 inj1 usem1 next it w1 Hp1 o1 v1 H1 E1) as (t1 & T1 & G1 & U1).
  destruct (c02_value_of_tree items2 gp2 pr2 inj2 usem2 next it w2 Hp2 o2 v2 H2 E2) as (t2 & T2 & G2 & U2).
  apply (HR t1 t2); auto.
  destruct (fed_prefix next it _ _ _ _ _ G1 G2) as (p & Ep & Q). destruct p; [|discriminate]. rewrite app_nil_r in Ep. exact Ep.
Qed.
End Two.

(** ** The right-recursive list of C71 turned into a left-recursive one *)
Definition llist : list (grammar_item string) :=
  [ tokens [unit_tok "x" "Token::X"]; rule true "L" "()" [([#"L"; $"x"], "more"); ([$"x"], "last")] ].
Definition llist_gp : generated (lexpr string) := Eval vm_compute in module_of llist.
Definition llist_L : parser_struct := Eval vm_compute in parser_named llist_gp "L".
Lemma llist_parser : parser_of llist llist_gp llist_L. Proof. prove_parser_of. Qed.
Lemma llist_plain : tails_plain (nts llist).
Proof.
  apply UserLr1.no_empty_tails_plain. intros n p q H Hs. pose proof (all_productions_spec (nts llist) (fun _ q => match ap_symbols q with [] => false | _ => true end) n p q eq_refl H) as Hc.
  cbn beta in Hc. rewrite Hs in Hc. discriminate.
Qed.
Lemma llist_lr1 : ulr1_grammar (nts llist).
Proof.
  destruct (automaton llist) as [[[[g tbl] states] entries]| |] eqn:E; [|vm_compute in E; discriminate..].
  eapply automaton_clean; [exact (proj1 llist_parser)|exact llist_plain|exact E|]. vm_compute in E. injection E as <- <- <- <-. vm_compute. reflexivity.
Qed.
Lemma llist_productive : all_productive (nts llist).
Proof. assert (HL : uproductive (nts llist) "L") by (prod_nt 1). intros N HN. cbn in HN. destruct HN as [<-|[]]; assumption. Qed.
Lemma rlist_productive : all_productive (nts rlist).
Proof. assert (HL : uproductive (nts rlist) "L") by (prod_nt 1). intros N HN. cbn in HN. destruct HN as [<-|[]]; assumption. Qed.

Definition x_string (ws : list string) : Prop := ws <> [] /\ Forall (fun s => s = "x") ws.
Definition x_form (f : list ast_symbol) : Prop := f <> [] /\ Forall (fun s => s = $"x" \/ s = #"L") f.
Lemma x_forms (items : list (grammar_item string)) : (forall n p q, uproduction (nts items) n p = Some q -> x_form (map unnamed (ap_symbols q))) ->
  forall a b, uderives (nts items) a b -> x_form a -> x_form b.
Proof.
  intros Hq a b H. induction H as [|a b c Hs Hd IH]; auto. intros Ha. apply IH. destruct Hs as [l n p q r Hp]. destruct (Hq _ _ _ Hp) as (N1 & F1). destruct Ha as (_ & F2).
  rewrite Forall_app in F2. destruct F2 as (F2 & F3). inversion F3; subst. split.
  - destruct l; [|discriminate]. cbn. destruct (map unnamed (ap_symbols q)); [congruence|discriminate].
  - rewrite !Forall_app. auto.
Qed.
Lemma x_form_string ws : x_form (map ASTerminal ws) -> x_string ws.
Proof.
  intros (Hn & Hf). split; [intros ->; apply Hn; reflexivity|]. apply Forall_forall. intros s Hs. rewrite Forall_forall in Hf.
  destruct (Hf (ASTerminal s) (in_map _ _ _ Hs)) as [H|H]; [injection H as ->; reflexivity|discriminate].
Qed.
Lemma rlist_language ws : derives_string (nts rlist) "L" ws <-> x_string ws.
Proof.
  split.
  - intro H. apply x_form_string. refine (x_forms rlist _ _ _ H _); [|split; [discriminate|cbn; auto]].
    intros n p q Hq. destruct (Decide.uproduction_In (nts rlist) n p q Hq) as (N & HN & _ & Hin). cbn in HN. destruct HN as [<-|[]].
    cbn in Hin. destruct Hin as [<-|[<-|[]]]; (split; [discriminate|cbn; auto]).
  - intros (Hn & Hf). induction Hf as [|s ws -> Hf IH]; [congruence|]. destruct ws as [|s ws].
    + eapply ud_step; [exact (uds (nts rlist) [] "L" 1 _ [] eq_refl)|]. constructor.
    + eapply ud_step; [exact (uds (nts rlist) [] "L" 0 _ [] eq_refl)|]. cbn. apply (uderives_app (nts rlist) [$"x"] [$"x"] [#"L"]); [constructor|]. apply IH. discriminate.
Qed.
Lemma llist_language ws : derives_string (nts llist) "L" ws <-> x_string ws.
Proof.
  split.
  - intro H. apply x_form_string. refine (x_forms llist _ _ _ H _); [|split; [discriminate|cbn; auto]].
    intros n p q Hq. destruct (Decide.uproduction_In (nts llist) n p q Hq) as (N & HN & _ & Hin). cbn in HN. destruct HN as [<-|[]].
    cbn in Hin. destruct Hin as [<-|[<-|[]]]; (split; [discriminate|cbn; auto]).
  - intros (Hn & Hf). induction ws as [|s ws IH] using rev_ind; [congruence|]. apply Forall_app in Hf. destruct Hf as (Hf & Hs). inversion Hs; subst. destruct ws as [|s ws].
    + eapply ud_step; [exact (uds (nts llist) [] "L" 1 _ [] eq_refl)|]. constructor.
    + eapply ud_step; [exact (uds (nts llist) [] "L" 0 _ [] eq_refl)|]. cbn [map ap_symbols app unnamed]. unfold derives_string in IH. rewrite map_app. apply (uderives_app (nts llist) [#"L"] (map ASTerminal (s :: ws)) [$"x"] [$"x"]); [|constructor]. apply IH; [discriminate|exact Hf].
Qed.
Lemma lists_alike : same_language (nts rlist) (pr_name rlist_L) (nts llist) (pr_name llist_L).
Proof. intro ws. etransitivity; [exact (rlist_language ws)|]. symmetry. exact (llist_language ws). Qed.

(** The two parsers behave alike on every input, also on infinite and wrong ones; only the value may differ. *)
Example case_c73_same {E V W V' W' I} (inj : rval -> V) usem inj' usem' (next : I -> option (rval + E) * I) it (w : W) (w' : W') o evs :
  never_panics rlist usem -> never_panics (V := V') llist usem' ->
  returns_with rlist_gp inj usem next rlist_L it w o evs ->
  exists o' evs', returns_with llist_gp inj' usem' next llist_L it w' o' evs' /\ nexts_of evs' = nexts_of evs /\ oc_iter o' = oc_iter o /\
    same_result rlist llist (oc_result o) (oc_result o').
Proof.
  exact (c73_same rlist llist rlist_gp llist_gp rlist_L llist_L inj inj' usem usem' rlist_parser llist_parser rlist_lr1 llist_lr1 rlist_plain llist_plain
    rlist_productive llist_productive lists_alike (fun _ => eq_refl) next it w w' o evs).
Qed.
(** Each counts its actions: both counts are the number of tokens. *)
Definition count_sem (_ : string) (_ : list (string * bval rval)) (w : nat) : option (rval * nat) := Some (RVTuple [], S w).
Lemma counted (items : list (grammar_item string)) (f : rval -> list rval) :
  (forall n p q, uproduction (nts items) n p = Some q -> exists l r, ap_symbols q = l ++ [$"x"] ++ r /\ Forall (fun s => s = #"L") (l ++ r) ) ->
  (forall t s, utree_of (nts items) (class items) t s -> (s = $"x" -> forall w, exists v, ueval (nts items) f count_sem t w = Some (v, w) /\ List.length (uyield t) = 1) /\
     (s = #"L" -> forall w, exists v, ueval (nts items) f count_sem t w = Some (v, w + List.length (uyield t)))) /\
  (forall ts ss, uforest_of (nts items) (class items) ts ss -> (Forall (fun s => s = #"L") ss -> forall w, exists vs, uevals (nts items) f count_sem ts w = Some (vs, w + List.length (flat_map uyield ts))) /\
     (forall l r, ss = l ++ [$"x"] ++ r -> Forall (fun s => s = #"L") (l ++ r) -> forall w, exists vs, uevals (nts items) f count_sem ts w = Some (vs, w + pred (List.length (flat_map uyield ts))) /\ 1 <= List.length (flat_map uyield ts))).
Proof.
  intro Hq. apply utree_uforest_ind.
  - intros t b s _ _. split; discriminate.
  - intros tok s Hc. split; [|discriminate]. intros _ w. cbn. eexists. split; reflexivity.
  - intros n p kids q Hp _ (_ & IH). split; [discriminate|]. intros _ w. destruct (Hq _ _ _ Hp) as (l & r & E1 & F). destruct (IH l r E1 F w) as (vs & Hv & Hl).
    cbn. rewrite Hp. unfold uevals in Hv. rewrite Hv. cbn. eexists. replace (w + List.length (flat_map uyield kids)) with (S (w + pred (List.length (flat_map uyield kids)))) by lia. reflexivity.
  - split; [intros _ w; exists []; cbn; rewrite Nat.add_0_r; reflexivity|]. intros [|] r E1; discriminate.
  - intros t ts s ss _ (IHx & IHL) _ (IH1 & IH2). split.
    + intros F w. inversion F; subst. destruct (IHL eq_refl w) as (v & Hv). destruct (IH1 ltac:(assumption) (w + List.length (uyield t))) as (vs & Hvs).
      unfold uevals in *. cbn [ueval_list flat_map]. rewrite Hv, Hvs. eexists. rewrite app_length, Nat.add_assoc. reflexivity.
    + intros [|s' l] r E1 F w; cbn in E1; injection E1 as -> ->.
      * destruct (IHx eq_refl w) as (v & Hv & Hl). destruct (IH1 F w) as (vs & Hvs). unfold uevals in *. cbn [ueval_list flat_map]. rewrite Hv, Hvs, app_length, Hl. eexists. split; [reflexivity|lia].
      * inversion F; subst. destruct (IHL eq_refl w) as (v & Hv). destruct (IH2 l r eq_refl ltac:(assumption) (w + List.length (uyield t))) as (vs & Hvs & Hl).
        unfold uevals in *. cbn [ueval_list flat_map]. rewrite Hv, Hvs, app_length. eexists. split; [|lia]. replace (w + pred (List.length (uyield t) + List.length (flat_map uyield ts))) with (w + List.length (uyield t) + pred (List.length (flat_map uyield ts))) by lia. reflexivity.
Qed.
Example case_c73_value (next : list (rval + string) -> option (rval + string) * list (rval + string)) it o1 v1 o2 v2 :
  returns rlist_gp (fun v => v) count_sem next rlist_L it 0 o1 -> oc_result o1 = POk v1 ->
  returns llist_gp (fun v => v) count_sem next llist_L it 0 o2 -> oc_result o2 = POk v2 -> oc_world o1 = oc_world o2.
Proof.
  apply (c73_value rlist llist rlist_gp llist_gp rlist_L llist_L (fun v => v) (fun v => v) count_sem count_sem rlist_parser llist_parser next it 0 0 (fun _ a _ b => a = b)).
  intros t1 t2 T1 T2 Hy u1 x1 u2 x2 E1 E2.
  assert (Q1 : exists v, ueval (nts rlist) (fields rlist (fun v => v)) count_sem t1 0 = Some (v, 0 + List.length (uyield t1))).
  { refine (proj2 (proj1 (counted rlist _ _) t1 _ T1) eq_refl 0). intros n p q Hq. destruct (Decide.uproduction_In (nts rlist) n p q Hq) as (N & HN & _ & Hin). cbn in HN. destruct HN as [<-|[]].
    cbn in Hin. destruct Hin as [<-|[<-|[]]]; [exists [], [#"L"]|exists [], []]; (split; [reflexivity|repeat constructor]). }
  assert (Q2 : exists v, ueval (nts llist) (fields llist (fun v => v)) count_sem t2 0 = Some (v, 0 + List.length (uyield t2))).
  { refine (proj2 (proj1 (counted llist _ _) t2 _ T2) eq_refl 0). intros n p q Hq. destruct (Decide.uproduction_In (nts llist) n p q Hq) as (N & HN & _ & Hin). cbn in HN. destruct HN as [<-|[]].
    cbn in Hin. destruct Hin as [<-|[<-|[]]]; [exists [#"L"], []|exists [], []]; (split; [reflexivity|repeat constructor]). }
  destruct Q1 as (y1 & Q1), Q2 as (y2 & Q2). congruence.
Qed.
