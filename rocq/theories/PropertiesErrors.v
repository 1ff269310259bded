(** * PropertiesErrors: C72, errors when the lexer and the actions share a state

    Vocabulary: Effects.v, EffectsSpec.v ([records]: a part of the state records the results of [next()]), USpec.v. *)
From Verif Require Import UserPrefix UserLr1 EffectsReplay InterleaveProofs PropProofs.
From Verif Require Export PropertiesMemory.
Local Open Scope string_scope. Local Open Scope list_scope.

Section Any.
Context {A : Type}.
Variable items : list (grammar_item A).
Variable gp : generated (lexpr A).
Variable pr : parser_struct.
Hypothesis Hp : parser_of items gp pr.

Lemma forest_derives : 
  (forall t s, utree_of (nts items) (class items) t s -> exists ws, uderives (nts items) [unnamed s] (map ASTerminal ws) /\ Forall2 (fun tok s => class items tok = Some s) (uyield t) ws) /\
  (forall ts ss, uforest_of (nts items) (class items) ts ss -> exists ws, uderives (nts items) (map unnamed ss) (map ASTerminal ws) /\ Forall2 (fun tok s => class items tok = Some s) (flat_map uyield ts) ws).
Proof.
  apply utree_uforest_ind.
  - intros t b s _ IH. exact IH.
  - intros tok s Hc. exists [s]. split; [constructor|]. repeat constructor. exact Hc.
  - intros n p kids q Hq _ (ws & H1 & H2). exists ws. split; [|exact H2]. cbn. eapply ud_step; [exact (uds (nts items) [] n p q [] Hq)|]. cbn. rewrite app_nil_r. exact H1.
  - exists []. split; constructor.
  - intros t ts s ss _ (w1 & D1 & F1) _ (w2 & D2 & F2). exists (w1 ++ w2). rewrite map_app. split; [|cbn; apply Forall2_app; auto].
    exact (uderives_app (nts items) [unnamed s] _ _ _ D1 D2).
Qed.
Lemma sentential_plain l : uderives (nts items) [ASNonTerminal (pr_name pr)] l -> Forall (fun s => unnamed s = s) l.
Proof.
  assert (Hs : forall a b, uderives (nts items) a b -> Forall (fun s => unnamed s = s) a -> Forall (fun s => unnamed s = s) b).
  { clear. induction 1 as [|a b c Hs Hd IH]; auto. intro Ha. apply IH. destruct Hs as [x n p q y Hq]. rewrite !Forall_app in *. destruct Ha as (H1 & H2). inversion H2; subst.
    repeat split; auto. clear. induction (ap_symbols q) as [|s l IH]; constructor; auto. induction s; cbn; auto. }
  intro Hd. apply (Hs _ _ Hd). repeat constructor.
Qed.
Lemma sentential_productive l1 l2 : all_productive (nts items) -> uderives (nts items) [ASNonTerminal (pr_name pr)] (l1 ++ l2) -> exists w, uderives (nts items) l2 (map ASTerminal w).
Proof.
  intros Hall Hd. pose proof (sentential_plain _ Hd) as Hpl. apply Forall_app in Hpl. destruct Hp as (Hnames & Hplain & Hex & Hpr).
  destruct (expands_data items gp Hex) as (ho & fuel & _ & ti & g & tbl & states & entries & act & Hlow & _ & Hgen & _).
  destruct (parser_entry items gp ti g tbl states entries act Hlow Hgen pr Hpr) as (N & i & e & HN & Hpub & Hnm & _).
  destruct (derives_down items Hnames ti g Hlow _ _ Hd [NT i]) as (Ys & _ & F).
  { constructor; [|constructor]. apply sym_rel_nt. rewrite Hnm. apply (LowerTrees.slot_index (nts items) Hnames); auto. }
  apply Forall2_app_inv_l in F. destruct F as (Y1 & Y2 & _ & F2 & _).
  exact (plain_productive items Hall _ _ F2 (proj2 Hpl)).
Qed.
Lemma forest_prefix forest syms rest : all_productive (nts items) -> uforest_of (nts items) (class items) forest syms ->
  uderives (nts items) [ASNonTerminal (pr_name pr)] (syms ++ rest) -> sentence_prefix (nts items) (class items) (pr_name pr) (flat_map uyield forest).
Proof.
  intros Hall Hf Hd. destruct (proj2 forest_derives _ _ Hf) as (ws & D1 & F1). exists ws. split; [exact F1|].
  destruct (sentential_productive _ _ Hall Hd) as (post & D2). exists post. rewrite map_app.
  eapply uderives_trans; [exact Hd|]. apply uderives_app; [|exact D2]. pose proof (sentential_plain _ Hd) as Hpl. apply Forall_app in Hpl. destruct Hpl as (Hpl & _).
  assert (Hid : map unnamed syms = syms) by (clear - Hpl; induction Hpl; cbn; congruence). rewrite Hid in D1. exact D1.
Qed.

Context {E V St : Type}.
Variable inj : rval -> V.
Variable usem : A -> list (string * bval V) -> St -> completion V * St.   (* the user's actions *)
Variable next : St -> option (option (rval + E)) * St.                    (* the user's iterator *)
Variable clone : E -> St -> option E * St.                                (* [Clone] of the lexer's errors *)
Hypothesis Hnr : no_return usem.
Notation xparse := (x_parse gp (user_xenv gp inj usem next clone)).
Notation prefix := (sentence_prefix (nts items) (class items) (pr_name pr)).

(** On every accepted grammar whose non-terminals are productive: at any time, the tokens pushed so far (all that [next()] has
    returned, but for the current one) begin a sentence. *)
Theorem c72_viable log n u st : all_productive (nts items) -> records usem next clone log -> xparse n pr u = inl st ->
  exists toks, log (xs_user st) = log u ++ map (fun t => Some (inl t)) toks ++ [xs_token st] /\ prefix toks.
Proof.
  intros Hall Hlog H.
  pose proof (effects_reach items gp pr Hp inj usem next clone Hnr (fun v tk c => log v = log u ++ map (fun t => Some (inl t)) c ++ [tk]) n u) as Hr.
  rewrite H in Hr. destruct Hr as (c & HP & syms & forest & rest & Hf & <- & Hd).
  - intros tk u' Hn. cbn. eapply (rc_next _ _ _ _ Hlog); eauto.
  - intros v tk c tok tk' v' HP -> Hn. rewrite (rc_next _ _ _ _ Hlog _ _ _ Hn), HP, map_app. cbn. rewrite <- !app_assoc. reflexivity.
  - intros v tk c a b k v' HP Hu. rewrite (rc_sem _ _ _ _ Hlog _ _ _ _ _ Hu). exact HP.
  - exists (flat_map uyield forest). split; [exact HP|]. exact (forest_prefix _ _ _ Hall Hf Hd).
Qed.

(** After [next()] has returned the offending token, no user code is called: the state is the one that call left. *)
Theorem c72_prompt n u o f x : tails_reliable (nts items) -> xparse n pr u = inr o -> xo_result o = PParserError f x ->
  exists v r, next v = (Some r, xo_user o) /\
    match r with None => f = "end-of-input" | Some (inl tok) => class items tok = Some f | Some (inr _) => False end.
Proof.
  intros Hrel H Ho. pose proof (rec_parse gp inj usem next clone pr n u []) as Hrec. rewrite H in Hrec.
  destruct (x_parse gp (user_xenv gp inj (rec_sem usem) (rec_next next) (rec_clone clone)) n pr (u, [])) as [st|o'] eqn:Ex; [discriminate|].
  cbn in Hrec. injection Hrec as ->. cbn [xo_result xo_user] in *.
  destruct (replay_returns gp inj (rec_sem usem) (rec_next next) (rec_clone clone) (rec_no_return _ Hnr) snd (rec_records usem next clone) pr n (u, []) o' Ex)
    as (rs & vs & evs & Hl & He & Hret & Hlast); [rewrite Ho; exact Logic.I|]. rewrite Ho in Hlast.
  destruct (run_summary items (proj1 Hp) (proj1 (proj2 Hp)) gp (proj1 (proj2 (proj2 Hp))) inj replay_sem replay_next pr (proj2 (proj2 (proj2 Hp))) rs vs _ evs Hret)
    as (toks & r & _ & _ & Hn & _ & _ & Hprompt). destruct (Hprompt Hrel f x Ho) as ((pre & ->) & _).
  destruct (Hlast pre r eq_refl) as (v & Hv). unfold rec_next in Hv. destruct (next (fst v)) as [[r'|] u'] eqn:En; [|discriminate].
  injection Hv as -> Hv. exists (fst v), r. rewrite <- Hv. cbn [fst]. split; [exact En|].
  destruct (c57_results items gp pr Hp inj (rec_sem usem) (rec_next next) (rec_clone clone) (rec_no_return _ Hnr) snd n (u, []) o' (rec_records usem next clone) Ex)
    as (toks' & r' & Hl' & _ & Hm); [rewrite Ho; discriminate|]. rewrite Ho in Hm. rewrite Hl, <- He, Hn in Hl'. cbn [snd app] in Hl'. apply app_inj_tail in Hl'. destruct Hl' as (_ & ->). exact Hm.
Qed.

(** On LR(1) grammars as in C40: the error is reported at the first token with which what was read does not begin a sentence, and the
    list of expected tokens is exact. *)
Theorem c72_error log n u o found expected : ulr1_grammar (nts items) -> tails_plain (nts items) -> all_productive (nts items) ->
  records usem next clone log -> xparse n pr u = inr o -> xo_result o = PParserError found expected ->
  exists toks r, log (xo_user o) = log u ++ map (fun t => Some (inl t)) toks ++ [r] /\ prefix toks /\
    match r with
    | Some (inl tok) => class items tok = Some found /\ ~ prefix (toks ++ [tok])
    | Some (inr _) => False
    | None => found = "end-of-input" /\ ~ sentence (nts items) (class items) (pr_name pr) toks
    end /\
    exists listed, expected = listing items listed /\
      forall s, In s (map cv_from (token_entries items)) -> (listed s = true <->
        exists ws, Forall2 (fun tok s => class items tok = Some s) toks ws /\ string_prefix (nts items) (pr_name pr) (ws ++ [s])).
Proof.
  intros Hlr Htp Hall Hlog H Ho.
  destruct (replay_returns gp inj usem next clone Hnr log Hlog pr n u o H) as (rs & vs & evs & Hl & He & Hret & _); [rewrite Ho; exact Logic.I|].
  destruct (correct_prefix_with items (proj1 Hp) (proj1 (proj2 Hp)) gp (proj1 (proj2 (proj2 Hp))) inj replay_sem replay_next pr (proj2 (proj2 (proj2 Hp))) rs vs Hlr Htp Hall _ evs Hret)
    as (toks & r & Hn & _ & Hpre & Hm). exists toks, r. rewrite Hl, <- He, Hn. split; [reflexivity|]. split; [exact Hpre|]. exact (Hm _ _ Ho).
Qed.

(** Together: if moreover user code does not panic, [next()] returns tokens that some entry matches, and they come to an end, then
    [parse] returns, and what it returns is decided by the results of [next()]. *)
Theorem c72_decides log left u : ulr1_grammar (nts items) -> tails_plain (nts items) -> all_productive (nts items) -> records usem next clone log ->
  (forall v, fst (next v) <> None) -> (forall a b v, fst (usem a b v) <> Panicked) -> (forall er v, fst (clone er v) <> None) ->
  (forall v tok v', next v = (Some (Some (inl tok)), v') -> class items tok <> None /\ left v' < left v) ->
  (forall a b v c v', usem a b v = (c, v') -> left v' <= left v) ->
  exists n o toks r, xparse n pr u = inr o /\ log (xo_user o) = log u ++ map (fun t => Some (inl t)) toks ++ [r] /\ prefix toks /\
    match r with
    | None => (sentence (nts items) (class items) (pr_name pr) toks /\ exists v, xo_result o = POk v) \/
        (~ sentence (nts items) (class items) (pr_name pr) toks /\ exists x, xo_result o = PParserError "end-of-input" x)
    | Some (inl tok) => ~ prefix (toks ++ [tok]) /\ exists found x, class items tok = Some found /\ xo_result o = PParserError found x
    | Some (inr er) => exists er' v, clone er v = (Some er', xo_user o) /\ xo_result o = PLexerError er'
    end.
Proof.
  intros Hlr Htp Hall Hlog N1 N2 N3 Htok Hleft.
  assert (Hpt : tails_productive (nts items)).
  { destruct Hp as (H1 & _ & H3 & _). destruct (expands_data items gp H3) as (? & ? & _ & ti & g & ? & ? & ? & ? & Hlow & _). exact (all_productive_tails items H1 ti g Hlow Hall). }
  destruct (c58_linear items gp (proj1 Hp) (proj1 (proj2 Hp)) (proj1 (proj2 (proj2 Hp))) Hpt (or_introl Htp)) as (K & HK).
  destruct (proj2 (HK E V St inj usem next clone pr u (proj2 (proj2 (proj2 Hp))) Hnr) left) as (o & Hrun); [intros v tok v' Hv; exact (proj2 (Htok _ _ _ Hv))|exact Hleft|].
  exists (S (K * (left u + 1))), o.
  assert (Hnp : forall p, xo_result o <> PPanic p).
  { intros p Ep. destruct o as [r uo]. cbn in Ep. subst r. destruct (c57_no_internal_panic items gp pr Hp inj usem next clone Hnr _ _ _ _ Hrun) as
      [(_ & [(v & Hv)|[(nm & k & up & b & v & _ & Hv)|(er & v & Hv)]])|(_ & tok & v & v' & Hv & Hc)].
    - apply (N1 v). rewrite Hv. reflexivity.
    - apply (N2 _ _ _ (f_equal fst Hv)).
    - apply (N3 er v). rewrite Hv. reflexivity.
    - exact (proj1 (Htok _ _ _ Hv) Hc). }
  destruct (xo_result o) as [x|er|f x|p] eqn:Er; [| | |destruct (Hnp p eq_refl)].
  - destruct (c57_results items gp pr Hp inj usem next clone Hnr log _ _ _ Hlog Hrun) as (toks & r & Hl & (syms & forest & rest & Hf & Hy & Hd) & Hm); [rewrite Er; exact Hnp|].
    rewrite Er in Hm. destruct Hm as (-> & Hs). exists toks, None. split; [exact Hrun|]. split; [exact Hl|]. split; [subst toks; exact (forest_prefix _ _ _ Hall Hf Hd)|]. left. eauto.
  - destruct (c57_results items gp pr Hp inj usem next clone Hnr log _ _ _ Hlog Hrun) as (toks & r & Hl & (syms & forest & rest & Hf & Hy & Hd) & Hm); [rewrite Er; exact Hnp|].
    rewrite Er in Hm. destruct Hm as (er0 & v & -> & Hc). exists toks, (Some (inr er0)). split; [exact Hrun|]. split; [exact Hl|]. split; [subst toks; exact (forest_prefix _ _ _ Hall Hf Hd)|]. eauto.
  - destruct (c72_error log _ _ _ _ _ Hlr Htp Hall Hlog Hrun Er) as (toks & r & Hl & Hpre & Hm & _). exists toks, r. split; [exact Hrun|]. split; [exact Hl|]. split; [exact Hpre|].
    destruct r as [[tok|e]|]; [|contradiction|].
    + destruct Hm as (Hc & Hno). split; [exact Hno|]. eauto.
    + destruct Hm as (-> & Hno). right. eauto.
Qed.
End Any.

(** *** Cases: the C declarations of C56. *)
Lemma cdecl_productive : all_productive (nts cdecl).
Proof.
  assert (HS : uproductive (nts cdecl) "S") by (prod_nt 3).
  assert (HL : uproductive (nts cdecl) "L") by (prod_nt 0).
  assert (HP : uproductive (nts cdecl) "P") by (prod_nt 0).
  intros N HN. cbn in HN. intuition (subst; assumption).
Qed.
(** The third [x] has become a type name; an [id] or [type] does not follow it.  The action of the second declaration has not run. *)
Definition c_wrong : list string := ["typedef"; "x"; ";"; ";"; "x"; "y"].
Example c_wrong_run : exists u', c_parse 100 c_wrong = inr (XOutcome (PParserError "id" ";") u') /\ c_trace u' = ["start"; "declare"; "more"; "skip"; "more"].
Proof. eexists. split; [vm_compute; reflexivity|reflexivity]. Qed.
Example case_c72_prompt : exists u' v r, c_parse 100 c_wrong = inr (XOutcome (PParserError "id" ";") u') /\ c_next v = (Some r, u').
Proof.
  destruct c_wrong_run as (u' & H & _). exists u'.
  destruct (c72_prompt cdecl cdecl_gp cdecl_P cdecl_parser (fun v => v) c_sem c_next c_clone c_no_return _ _ _ _ _ (conj cdecl_reliable (or_introl cdecl_plain)) H eq_refl) as (v & r & Hv & _).
  exists v, r. split; [exact H|exact Hv].
Qed.
Example case_c72_error : exists toks, sentence_prefix (nts cdecl) (class cdecl) "P" toks /\
  ~ sentence_prefix (nts cdecl) (class cdecl) "P" (toks ++ [RVCtor "Token::Id" [RVLit "y"]]) /\ List.length toks = 5.
Proof.
  destruct (c72_error cdecl cdecl_gp cdecl_P cdecl_parser (fun v => v) c_sem c_next c_clone c_no_return c_log 100 (CSt c_wrong [] [] [])
    (XOutcome (PParserError "id" ";") (CSt [] ["x"] [Some (ok "Token::Typedef"); Some (okv "Token::Id" (RVLit "x")); Some (ok "Token::Semi"); Some (ok "Token::Semi");
       Some (okv "Token::Type" (RVLit "x")); Some (okv "Token::Id" (RVLit "y"))] ["start"; "declare"; "more"; "skip"; "more"]))
    "id" ";" cdecl_lr1 cdecl_plain cdecl_productive c_records) as (toks & r & Hl & Hpre & Hm & _); [vm_compute; reflexivity|reflexivity|].
  cbn [xo_user c_log app] in Hl. exists toks. split; [exact Hpre|].
  pose proof (f_equal (@List.length _) Hl) as Hlen. rewrite app_length, map_length in Hlen. cbn in Hlen.
  assert (Hr : r = Some (okv "Token::Id" (RVLit "y"))).
  { apply (f_equal (fun l => last l None)) in Hl. rewrite last_last in Hl. cbn in Hl. congruence. }
  subst r. destruct Hm as (_ & Hno). split; [exact Hno|]. clear - Hlen. lia.
Qed.
Example case_c72_viable n ws st : c_parse n ws = inl st -> exists toks, c_log (xs_user st) = map (fun t => Some (inl t)) toks ++ [xs_token st] /\
  sentence_prefix (nts cdecl) (class cdecl) "P" toks.
Proof. exact (c72_viable cdecl cdecl_gp cdecl_P cdecl_parser (fun v => v) c_sem c_next c_clone c_no_return c_log n (CSt ws [] [] []) st cdecl_productive c_records). Qed.

(** The same without panics. *)
Definition d_next (u : cst) : option (option (rval + string)) * cst :=
  match c_words u with
  | [] => (Some None, CSt [] (c_names u) (c_log u ++ [None]) (c_trace u))
  | w :: ws =>
      let r := if String.eqb w "typedef" then ok "Token::Typedef"
               else if String.eqb w ";" then ok "Token::Semi"
               else if String.eqb w "#error" then inr "bad"
               else okv (if in_dec string_dec w (c_names u) then "Token::Type" else "Token::Id") (RVLit w) in
      (Some (Some r), CSt ws (c_names u) (c_log u ++ [Some r]) (c_trace u))
  end.
Definition d_sem (a : string) (b : list (string * bval rval)) (u : cst) : completion rval * cst :=
  (Value (RVTuple []), CSt (c_words u) (match b with [(_, BTok [RVLit w])] => w :: c_names u | _ => c_names u end) (c_log u) (c_trace u ++ [a])).
Example case_c72_decides ws : exists n o toks r,
  x_parse cdecl_gp (user_xenv cdecl_gp (fun v : rval => v) d_sem d_next c_clone) n cdecl_P (CSt ws [] [] []) = inr o /\
  c_log (xo_user o) = map (fun t => Some (inl t)) toks ++ [r] /\ sentence_prefix (nts cdecl) (class cdecl) "P" toks /\
  match r with
  | None => (sentence (nts cdecl) (class cdecl) "P" toks /\ exists v, xo_result o = POk v) \/
      (~ sentence (nts cdecl) (class cdecl) "P" toks /\ exists x, xo_result o = PParserError "end-of-input" x)
  | Some (inl tok) => ~ sentence_prefix (nts cdecl) (class cdecl) "P" (toks ++ [tok]) /\ exists found x, class cdecl tok = Some found /\ xo_result o = PParserError found x
  | Some (inr er) => exists er' v, c_clone er v = (Some er', xo_user o) /\ xo_result o = PLexerError er'
  end.
Proof.
  apply (c72_decides cdecl cdecl_gp cdecl_P cdecl_parser (fun v => v) d_sem d_next c_clone) with (log := c_log) (left := fun u => List.length (c_words u)) (u := CSt ws [] [] []).
  - discriminate.
  - exact cdecl_lr1.
  - exact cdecl_plain.
  - exact cdecl_productive.
  - constructor.
    + intros u r u'. unfold d_next. destruct (c_words u) as [|w l]; intro H; injection H as <- <-; reflexivity.
    + intros a b u c u' H. injection H as <- <-. reflexivity.
    + intros er u c u' H. injection H as <- <-. reflexivity.
  - intro v. unfold d_next. destruct (c_words v); discriminate.
  - discriminate.
  - discriminate.
  - intros v tok v'. unfold d_next. destruct (c_words v) as [|w l]; [discriminate|]. cbv zeta.
    destruct (String.eqb w "typedef"); [|destruct (String.eqb w ";"); [|destruct (String.eqb w "#error"); [discriminate|destruct (in_dec string_dec w (c_names v))]]];
      intro Hx; injection Hx as <- <-; split; try discriminate; cbn; auto.
  - intros a b v c v' H. injection H as _ <-. cbn. auto.
Qed.
