(** * PropertiesEffects: generated parsers and user code that may do anything (C56-C58)

    Vocabulary: Effects.v (the generated parser with user code that shares a state and may panic),
    EffectsSpec.v (Knuth's machine with such user code; [no_return], [records], replaying), KnuthSpec.v. *)
From Verif Require Import EffectsReplay TimeProofs PropertiesTime PropertiesKnuth Findings.
From Verif Require Export EffectsSpec PropertiesCode.
Local Open Scope string_scope. Local Open Scope list_scope.

(** ** C56: Knuth's machine, with any user code

    [next()], actions and the [clone()] of a lexer error share a state [St], which they read and change: the
    lexer may depend on what actions did; each may panic.  For every grammar in [tails_plain] that expands:
    after [n] iterations [parse] has returned exactly if the machine has stopped, with the same result
    (value, error, panic) and the same state; otherwise both have the same lookahead and the same state. *)
Section Any.
Context {A : Type}.
Variable items : list (grammar_item A).
Variable gp : generated (lexpr A).
Variable pr : parser_struct.
Hypothesis Hp : parser_of items gp pr.
Context {E V St : Type}.
Variable inj : rval -> V.
Variable usem : A -> list (string * bval V) -> St -> completion V * St.   (* the user's actions *)
Variable next : St -> option (option (rval + E)) * St.                    (* the user's iterator *)
Variable clone : E -> St -> option E * St.                                (* [Clone] of the lexer's errors *)
Hypothesis Hnr : no_return usem.
Notation xparse := (x_parse gp (user_xenv gp inj usem next clone)).
Notation emoves := (emoves (nts items) (map cv_from (cs items)) (class items) (fields items inj) usem next clone (pr_name pr)).

Theorem c56_knuth n u : tails_plain (nts items) ->
  (forall o, xparse n pr u = inr o <-> emoves n (einit next u) (inr o)) /\
  (forall tk u', (exists st, xparse n pr u = inl st /\ xs_token st = tk /\ xs_user st = u') <->
                 (exists c, emoves n (einit next u) (inl c) /\ ec_token c = tk /\ ec_user c = u')).
Proof.
  intro Htp. destruct (effects_knuth items gp pr Hp inj usem next clone Hnr n u Htp) as (y & Y1 & Y2 & Y3). split.
  - intro o. split; intro H.
    + rewrite H in Y3. destruct y as [c|o']; [contradiction|]. subst o'. exact Y1.
    + apply Y2 in H. subst y. destruct (xparse n pr u) as [st|o']; [contradiction|]. congruence.
  - intros tk u'. split.
    + intros (st & H & <- & <-). rewrite H in Y3. destruct y as [c|o']; [|contradiction]. destruct Y3 as (-> & -> & _). eauto.
    + intros (c & H & <- & <-). apply Y2 in H. subst y. destruct (xparse n pr u) as [st|o']; [|contradiction]. destruct Y3 as (<- & <- & _). eauto.
Qed.

(** ** C57: every accepted grammar

    With any such user code [parse] never panics in generated code: if it panics, the last thing that happened
    is a panic of [next()], of the action of a production of the grammar, or of [clone()] -- or [next()] returned a
    token that matches no token entry (which rustc excludes, see C68). *)
Theorem c57_no_internal_panic n u p u' : xparse n pr u = inr (XOutcome (PPanic p) u') ->
  (p = UserPanic /\ ((exists v, next v = (None, u')) \/
     (exists nm k up b v, uproduction (nts items) nm k = Some up /\ usem (action_expr (ap_action up)) b v = (Panicked, u')) \/
     exists er v, clone er v = (None, u'))) \/
  (p = NoTokenMatch /\ exists tok v v', next v = (Some (Some (inl tok)), v') /\ class items tok = None).
Proof.
  intro H. pose proof (effects_reach items gp pr Hp inj usem next clone Hnr (fun _ tk _ => exists v v', next v = (Some tk, v')) n u) as Hr.
  rewrite H in Hr. destruct Hr as [(Hu & Hn)|(c & tk & v & Htk & _ & Hm)]; [eauto|eauto|auto| |].
  - cbn in Hu, Hn. injection Hu as ->. left. eauto.
  - cbn in Hm. destruct p; try contradiction.
    + right. destruct Hm as (_ & tok & -> & Hc). destruct Htk as (v1 & v2 & Htk). split; [reflexivity|]. exists tok, v1, v2. auto.
    + left. split; auto. destruct Hm as [Hm|[(nm & k & up & b & Hup & Hm)|(er & Hm)]]; [left; eauto|right; left|right; right; eauto].
      exists nm, k, up, b, v. auto.
Qed.

(** If the state records the results of [next()], then when [parse] returns, [next()] has returned a sequence of
    tokens that begins a sentential form of the entry point (its subtrees on the stack), then one more result:
    [None] after a sentence if [parse] returns [Ok]; the offending token, or [None], if it returns [ParserError];
    the error whose clone is returned, if it returns [LexerError]. *)
Theorem c57_results log n u o : records usem next clone log -> xparse n pr u = inr o -> (forall p, xo_result o <> PPanic p) ->
  exists toks r, log (xo_user o) = log u ++ map (fun t => Some (inl t)) toks ++ [r] /\
    (exists syms forest rest, uforest_of (nts items) (class items) forest syms /\ flat_map uyield forest = toks /\
       uderives (nts items) [ASNonTerminal (pr_name pr)] (syms ++ rest)) /\
    match xo_result o with
    | POk v => r = None /\ sentence (nts items) (class items) (pr_name pr) toks
    | PParserError found _ => match r with
                              | None => found = "end-of-input"
                              | Some (inl tok) => class items tok = Some found
                              | Some (inr _) => False
                              end
    | PLexerError er' => exists er v, r = Some (inr er) /\ clone er v = (Some er', xo_user o)
    | PPanic _ => False
    end.
Proof.
  intros Hlog H Hnp.
  pose proof (effects_reach items gp pr Hp inj usem next clone Hnr (fun v tk c => log v = log u ++ map (fun t => Some (inl t)) c ++ [tk]) n u) as Hr.
  rewrite H in Hr. destruct Hr as [(Hu & _)|(c & tk & v & HP & Hs & Hm)].
  - intros tk u' Hn. cbn. eapply (rc_next _ _ _ _ Hlog); eauto.
  - intros v tk c tok tk' v' HP -> Hn. rewrite (rc_next _ _ _ _ Hlog _ _ _ Hn), HP, map_app. cbn. rewrite <- !app_assoc. reflexivity.
  - intros v tk c a b k v' HP Hu. rewrite (rc_sem _ _ _ _ Hlog _ _ _ _ _ Hu). exact HP.
  - destruct (Hnp _ Hu).
  - exists c, tk. split; [|split; [exact Hs|]].
    + destruct (xo_result o) as [x|er'|f x|p].
      * destruct Hm as (_ & -> & _). exact HP.
      * destruct Hm as (er & _ & Hc). rewrite (rc_clone _ _ _ _ Hlog _ _ _ _ Hc). exact HP.
      * destruct Hm as (-> & _). exact HP.
      * destruct (Hnp p eq_refl).
    + destruct (xo_result o) as [x|er'|f x|p].
      * destruct Hm as (-> & _ & Hm). auto.
      * destruct Hm as (er & Htk & Hc). eauto.
      * destruct Hm as (_ & Hm). exact Hm.
      * destruct (Hnp p eq_refl).
Qed.

(** ** C58: effects only reach the parser through the results of [next()] and of actions

    Every run with such user code is, iteration by iteration, the run of Runtime.v on an iterator and actions
    that just return what was recorded; so what is proved there holds here. *)
Theorem c58_replay log n u : records usem next clone log ->
  (forall st, xparse n pr u = inl st -> exists rs vs evs, log (xs_user st) = log u ++ rs /\ nexts_of evs = rs /\
     running gp inj replay_sem replay_next pr rs vs n [] [] evs) /\
  (forall o, xparse n pr u = inr o -> match xo_result o with POk _ | PParserError _ _ => True | _ => False end ->
     exists rs vs evs, log (xo_user o) = log u ++ rs /\ nexts_of evs = rs /\
       returns_with gp inj replay_sem replay_next pr rs vs {| oc_result := xo_result o; oc_iter := []; oc_world := [] |} evs).
Proof.
  intro Hlog. split.
  - intros st H. eapply replay_running; eauto.
  - intros o H Ho. destruct (replay_returns gp inj usem next clone Hnr log Hlog pr n u o H Ho) as (rs & vs & evs & H1 & H2 & H3 & _). eauto 6.
Qed.
End Any.

(** For instance C51: the number of iterations is linear in the number of results of [next()]; and if the user's
    state bounds the number of tokens to come ([left]), [parse] returns within [K * (left u + 1) + 1] iterations. *)
Theorem c58_linear {A} (items : list (grammar_item A)) gp : distinct_names items -> plain_patterns items -> expands items gp ->
  tails_productive (nts items) -> tails_plain (nts items) \/ empty_direct (nts items) \/ ulr1_grammar (nts items) ->
  exists K, forall (E V St : Type) (inj : rval -> V) (usem : A -> list (string * bval V) -> St -> completion V * St)
    (next : St -> option (option (rval + E)) * St) (clone : E -> St -> option E * St) pr u, In pr (gp_parsers gp) -> no_return usem ->
    (forall log n st, records usem next clone log -> x_parse gp (user_xenv gp inj usem next clone) n pr u = inl st ->
       exists rs, log (xs_user st) = log u ++ rs /\ n <= K * List.length rs) /\
    (forall left : St -> nat, (forall v tok v', next v = (Some (Some (inl tok)), v') -> left v' < left v) ->
       (forall a b v c v', usem a b v = (c, v') -> left v' <= left v) ->
       exists o, x_parse gp (user_xenv gp inj usem next clone) (S (K * (left u + 1))) pr u = inr o).
Proof.
  intros Hnames Hplain Hexp Hprod Hcond. destruct (c51_linear items gp Hnames Hplain Hexp Hprod Hcond) as (K & HK).
  exists K.
  assert (H1 : forall (E V St : Type) (inj : rval -> V) (usem : A -> list (string * bval V) -> St -> completion V * St)
    (next : St -> option (option (rval + E)) * St) (clone : E -> St -> option E * St) pr u, In pr (gp_parsers gp) -> no_return usem ->
    forall log n st, records usem next clone log -> x_parse gp (user_xenv gp inj usem next clone) n pr u = inl st ->
       exists rs, log (xs_user st) = log u ++ rs /\ n <= K * List.length rs).
  { intros E V St inj usem next clone pr u Hpr Hnr log n st Hlog H.
    destruct (replay_running gp inj usem next clone Hnr log Hlog pr n u st H) as (rs & vs & evs & Hl & He & Hr).
    exists rs. split; auto. destruct (HK E V _ _ inj replay_sem replay_next pr rs vs Hpr) as (Hk & _). apply Hk in Hr. rewrite He in Hr. exact Hr. }
  intros E V St inj usem next clone pr u Hpr Hnr. split; [apply H1; auto|]. intros left Hm Hl.
  rewrite (rec_parse gp inj usem next clone pr _ u []).
  destruct (x_parse gp (user_xenv gp inj (rec_sem usem) (rec_next next) (rec_clone clone)) (S (K * (left u + 1))) pr (u, [])) as [st|o] eqn:Ex; [|cbn; eauto].
  exfalso.
  destruct (H1 _ _ _ _ _ _ _ _ _ Hpr (rec_no_return _ Hnr) _ _ _ (rec_records usem next clone) Ex) as (rs & Hrs & Hn).
  assert (Hp : parser_of items gp pr) by (repeat split; auto).
  pose proof (effects_reach items gp pr Hp inj (rec_sem usem) (rec_next next) (rec_clone clone) (rec_no_return _ Hnr)
    (fun v tk c => snd v = map (fun t => Some (inl t)) c ++ [tk] /\
       List.length c + match tk with Some (inl _) => S (left (fst v)) | _ => 0 end <= left u) (S (K * (left u + 1))) (u, [])) as Hr.
  rewrite Ex in Hr. destruct Hr as (c & (HP & Hc) & _).
  - intros tk u' Hn'. unfold rec_next in Hn'. cbn [fst snd] in Hn'. destruct (next u) as [[r|] v] eqn:En; [|discriminate]. injection Hn' as <- <-.
    split; [reflexivity|]. destruct r as [[tok|er]|]; cbn; try lia. specialize (Hm _ _ _ En). lia.
  - intros v tk c tok tk' v' (HP & Hc) -> Hn'. unfold rec_next in Hn'. destruct (next (fst v)) as [[r|] w] eqn:En; [|discriminate]. injection Hn' as <- <-.
    cbn [snd fst]. rewrite HP, map_app. cbn [map]. rewrite <- !app_assoc. split; [reflexivity|]. rewrite app_length. cbn [List.length].
    destruct r as [[tok'|er]|]; try lia. specialize (Hm _ _ _ En). lia.
  - intros v tk c a b k v' (HP & Hc) Hu. unfold rec_sem in Hu. destruct (usem a b (fst v)) as [k' w] eqn:Es. injection Hu as <- <-. cbn [snd fst].
    split; [exact HP|]. destruct tk as [[tok|er]|]; auto. specialize (Hl _ _ _ _ _ Es). lia.
  - cbn [snd app] in Hrs. rewrite HP in Hrs. apply (f_equal (@List.length _)) in Hrs. rewrite app_length, map_length in Hrs. cbn in Hrs.
    assert (K * List.length rs <= K * (left u + 1)) by (apply Nat.mul_le_mono_l; lia). lia.
Qed.

(** [records] is no restriction: any user code can be made to record, and the parser does not notice. *)
Theorem c58_recording {A E V St} (gp : generated (lexpr A)) (inj : rval -> V) (usem : A -> list (string * bval V) -> St -> completion V * St)
  (next : St -> option (option (rval + E)) * St) (clone : E -> St -> option E * St) pr n u :
  records (rec_sem usem) (rec_next next) (rec_clone clone) snd /\ (no_return usem -> no_return (rec_sem (L := list (option (rval + E))) usem)) /\
  x_parse gp (user_xenv gp inj usem next clone) n pr u =
    match x_parse gp (user_xenv gp inj (rec_sem usem) (rec_next next) (rec_clone clone)) n pr (u, []) with
    | inl st => inl (XState (xs_states st) (xs_values st) (xs_token st) (fst (xs_user st)))
    | inr o => inr (XOutcome (xo_result o) (fst (xo_user o)))
    end.
Proof. split; [exact (rec_records usem next clone)|]. split; [apply rec_no_return|exact (rec_parse gp inj usem next clone pr n u [])]. Qed.

(** The model of Runtime.v, where the iterator and the world of the actions are apart and only actions panic, is
    a special case. *)
Theorem c56_pure {A E V W I} (gp : generated (lexpr A)) (inj : rval -> V) (usem : A -> list (string * bval V) -> W -> option (V * W))
  (next : I -> option (rval + E) * I) pr n it w o :
  x_parse gp (user_xenv gp inj (pure_sem usem) (pure_next next) pure_clone) n pr (it, w) =
    inr (XOutcome (oc_result o) (oc_iter o, oc_world o)) <->
  parse gp (user_env gp inj usem next) n pr it w = Some o.
Proof. exact (pure_parse gp inj usem next pr n it w o). Qed.

(** ** Case: a lexer that asks the parser

    As in C: [typedef x;] makes [x] a type name; the lexer classifies words by the names declared so far. *)
Definition cdecl : list (grammar_item string) :=
  [ tokens [unit_tok "typedef" "Token::Typedef"; val_tok "id" "Token::Id" "&str"; val_tok "type" "Token::Type" "&str"; unit_tok ";" "Token::Semi"];
    rule true "P" "()" [([#"L"], "done")];
    rule false "L" "()" [([], "start"); ([#"L"; #"S"], "more")];
    rule false "S" "()" [([$"typedef"; "n" ::= $"id"; $";"], "declare"); ([$"id"; $";"], "use_id"); ([$"type"; $";"], "use_type"); ([$";"], "skip")] ].
Definition cdecl_gp : generated (lexpr string) := Eval vm_compute in module_of cdecl.
Definition cdecl_P : parser_struct := Eval vm_compute in parser_named cdecl_gp "P".
Lemma cdecl_parser : parser_of cdecl cdecl_gp cdecl_P. Proof. prove_parser_of. Qed.
Lemma cdecl_plain : tails_plain (nts cdecl).
Proof. apply (tails_check_plain _ ["S"] ["S"]). vm_compute. reflexivity. Qed.

(** Words to come, declared names, results of [next()], actions run (latest last). *)
Record cst : Type := CSt { c_words : list string; c_names : list string; c_log : list (option (rval + string)); c_trace : list string }.
Definition c_next (u : cst) : option (option (rval + string)) * cst :=
  match c_words u with
  | [] => (Some None, CSt [] (c_names u) (c_log u ++ [None]) (c_trace u))
  | w :: ws =>
      if String.eqb w "#panic" then (None, u)
      else
        let r := if String.eqb w "typedef" then ok "Token::Typedef"
                 else if String.eqb w ";" then ok "Token::Semi"
                 else if String.eqb w "#error" then inr "bad"
                 else okv (if in_dec string_dec w (c_names u) then "Token::Type" else "Token::Id") (RVLit w) in
        (Some (Some r), CSt ws (c_names u) (c_log u ++ [Some r]) (c_trace u))
  end.
Definition c_sem (a : string) (b : list (string * bval rval)) (u : cst) : completion rval * cst :=
  let declared := if String.eqb a "declare" then match b with [(_, BTok [RVLit w])] => Some w | _ => None end else None in
  match declared with
  | Some w => if String.eqb w "main" then (Panicked, u)
              else (Value (RVTuple []), CSt (c_words u) (w :: c_names u) (c_log u) (c_trace u ++ [a]))
  | None => (Value (RVTuple []), CSt (c_words u) (c_names u) (c_log u) (c_trace u ++ [a]))
  end.
Definition c_clone (er : string) (u : cst) : option string * cst := (Some ("clone of " ++ er)%string, CSt (c_words u) (c_names u) (c_log u) (c_trace u ++ ["clone"])).
Notation c_parse n ws := (x_parse cdecl_gp (user_xenv cdecl_gp (fun v : rval => v) c_sem c_next c_clone) n cdecl_P (CSt ws [] [] [])).
Lemma c_sem_trace a b u : exists k v w, c_sem a b u = (k, CSt (c_words u) v (c_log u) w) /\ k <> Returned.
Proof.
  unfold c_sem. cbv zeta. destruct (if String.eqb a "declare" then _ else None) as [x|]; [destruct (String.eqb x "main")|];
    destruct u; cbn; do 3 eexists; (split; [reflexivity|discriminate]).
Qed.
Lemma c_no_return : no_return c_sem.
Proof. intros a b u. destruct (c_sem_trace a b u) as (k & v & w & -> & H). exact H. Qed.
Lemma c_records : records c_sem c_next c_clone c_log.
Proof.
  constructor.
  - intros u r u'. unfold c_next. destruct (c_words u) as [|w ws]; [intro H; injection H as <- <-; reflexivity|].
    destruct (String.eqb w "#panic"); [discriminate|]. intro H. injection H as <- <-. reflexivity.
  - intros a b u c u' H. destruct (c_sem_trace a b u) as (k & v & w & Hs & _). rewrite Hs in H. injection H as <- <-. reflexivity.
  - intros er u c u' H. injection H as <- <-. reflexivity.
Qed.

(** The declaration is run when the token after [;] has been read: the next [x] is still an identifier, the
    one after it is a type name. *)
Example case_c56_feedback : c_parse 100 ["typedef"; "x"; ";"; "x"; ";"; "x"; ";"] = inr (XOutcome (POk (RVTuple []))
  (CSt [] ["x"] [Some (ok "Token::Typedef"); Some (okv "Token::Id" (RVLit "x")); Some (ok "Token::Semi"); Some (okv "Token::Id" (RVLit "x"));
     Some (ok "Token::Semi"); Some (okv "Token::Type" (RVLit "x")); Some (ok "Token::Semi"); None]
     ["start"; "declare"; "more"; "use_id"; "more"; "use_type"; "more"; "done"])).
Proof. vm_compute. reflexivity. Qed.
(** So does Knuth's machine. *)
Example case_c56_machine : exists o, c_parse 100 ["typedef"; "x"; ";"; "x"; ";"; "x"; ";"] = inr o /\
  emoves (nts cdecl) (map cv_from (cs cdecl)) (class cdecl) (fields cdecl (fun v => v)) c_sem c_next c_clone "P" 100
    (einit c_next (CSt ["typedef"; "x"; ";"; "x"; ";"; "x"; ";"] [] [] [])) (inr o).
Proof.
  pose proof case_c56_feedback as H.
  destruct (c_parse 100 ["typedef"; "x"; ";"; "x"; ";"; "x"; ";"]) as [st|o] eqn:Ex; [discriminate H|].
  exists o. split; [reflexivity|]. clear H. revert Ex.
  exact (proj1 (proj1 (c56_knuth cdecl cdecl_gp cdecl_P cdecl_parser (fun v => v) c_sem c_next c_clone c_no_return 100
    (CSt ["typedef"; "x"; ";"; "x"; ";"; "x"; ";"] [] [] []) cdecl_plain) o)).
Qed.
(** Panics of [next()] and of an action; an error of the lexer, cloned. *)
Example case_c57_next_panics : c_parse 100 ["typedef"; "x"; ";"; "#panic"] = inr (XOutcome (PPanic UserPanic)
  (CSt ["#panic"] [] [Some (ok "Token::Typedef"); Some (okv "Token::Id" (RVLit "x")); Some (ok "Token::Semi")] ["start"])).
Proof. vm_compute. reflexivity. Qed.
Example case_c57_action_panics : c_parse 100 ["typedef"; "main"; ";"] = inr (XOutcome (PPanic UserPanic)
  (CSt [] [] [Some (ok "Token::Typedef"); Some (okv "Token::Id" (RVLit "main")); Some (ok "Token::Semi"); None] ["start"])).
Proof. vm_compute. reflexivity. Qed.
Example case_c57_lexer_error : c_parse 100 [";"; "#error"; ";"] = inr (XOutcome (PLexerError "clone of bad")
  (CSt [";"] [] [Some (ok "Token::Semi"); Some (inr "bad")] ["start"; "clone"])).
Proof. vm_compute. reflexivity. Qed.
Example case_c57 : exists toks r, [Some (ok "Token::Typedef"); Some (okv "Token::Id" (RVLit "x")); Some (ok "Token::Semi"); None] =
    map (fun t => Some (inl t)) toks ++ [r] /\ r = None /\ sentence (nts cdecl) (class cdecl) "P" toks.
Proof.
  assert (H : c_parse 100 ["typedef"; "x"; ";"] = inr (XOutcome (POk (RVTuple []))
    (CSt [] ["x"] [Some (ok "Token::Typedef"); Some (okv "Token::Id" (RVLit "x")); Some (ok "Token::Semi"); None] ["start"; "declare"; "more"; "done"])))
    by (vm_compute; reflexivity).
  destruct (c57_results cdecl cdecl_gp cdecl_P cdecl_parser (fun v => v) c_sem c_next c_clone c_no_return c_log _ _ _ c_records H) as (toks & r & H1 & _ & H2);
    [discriminate|]. exists toks, r. split; [exact H1|exact H2].
Qed.
(** The first run, replayed. *)
Example case_c58 : exists vs evs, returns_with cdecl_gp (fun v => v) replay_sem replay_next cdecl_P
  [Some (ok "Token::Typedef"); Some (okv "Token::Id" (RVLit "x")); Some (ok "Token::Semi"); Some (okv "Token::Id" (RVLit "x"));
     Some (ok "Token::Semi"); Some (okv "Token::Type" (RVLit "x")); Some (ok "Token::Semi"); None] vs
  {| oc_result := POk (RVTuple []); oc_iter := []; oc_world := [] |} evs.
Proof.
  destruct (proj2 (c58_replay cdecl_gp cdecl_P (fun v => v) c_sem c_next c_clone c_no_return c_log 100 _ c_records) _ case_c56_feedback Logic.I) as (rs & vs & evs & Hl & _ & Hr).
  cbn in Hl. subst rs. eauto.
Qed.

(** [c_next] yields no more tokens than there are words: the parser stops, whatever the words. *)
Lemma cdecl_reliable : tails_productive (nts cdecl).
Proof.
  assert (HS : uproductive (nts cdecl) "S") by (prod_nt 3).
  assert (HL : uproductive (nts cdecl) "L") by (prod_nt 0).
  assert (HP : uproductive (nts cdecl) "P") by (prod_nt 0).
  apply tails_productive_all; [|reflexivity]. intros N HN. cbn in HN. intuition (subst; assumption).
Qed.
Example case_c58_linear : exists K, forall ws, exists o, c_parse (S (K * (List.length ws + 1))) ws = inr o.
Proof.
  destruct (c58_linear cdecl cdecl_gp) as (K & HK); try solve [apply cdecl_parser].
  - exact cdecl_reliable.
  - left. exact cdecl_plain.
  - exists K. intro ws.
    assert (Hpr : In cdecl_P (gp_parsers cdecl_gp)) by apply cdecl_parser.
    destruct (HK string rval cst (fun v => v) c_sem c_next c_clone cdecl_P (CSt ws [] [] []) Hpr c_no_return) as (_ & H).
    apply (H (fun u => List.length (c_words u))).
    + intros v tok v'. unfold c_next. destruct (c_words v) as [|w l]; [discriminate|]. destruct (String.eqb w "#panic"); [discriminate|].
      cbv zeta. intro Hx. injection Hx as _ <-. cbn. lia.
    + intros a b v c v' Hs. destruct (c_sem_trace a b v) as (k & x & y & Hs' & _). rewrite Hs' in Hs. injection Hs as _ <-. cbn. lia.
Qed.

(** ** [return] in an action

    src/codegen.rs:93-100 puts the action expression into the function that pushes its value, so [return] skips
    the push; the parser goes on with a value missing.  Without [no_return] C57 is false, and a parser may even
    return [Ok] with a value that belongs to another symbol: here [b] is bound to the value of [A]. *)
Definition early : list (grammar_item string) :=
  [ tokens [val_tok "int" "Token::Int" "u32"; unit_tok "x" "Token::X"];
    rule true "S" "u32" [([#"A"; "b" ::= #"B"], "b")];
    rule false "A" "u32" [(["i" ::= $"int"], "i")];
    rule false "B" "u32" [(["i" ::= $"int"], "i"); ([$"x"], "return")] ].
Definition early_gp : generated (lexpr string) := Eval vm_compute in module_of early.
Definition early_S : parser_struct := Eval vm_compute in parser_named early_gp "S".
Lemma early_parser : parser_of early early_gp early_S. Proof. prove_parser_of. Qed.
Definition early_sem (a : string) (b : list (string * bval rval)) (l : list (rval + string)) : completion rval * list (rval + string) :=
  match a, b with
  | "return", _ => (Returned, l)
  | _, [(_, BVal v)] => (Value v, l)
  | _, [(_, BTok [v])] => (Value v, l)
  | _, _ => (Panicked, l)
  end.
Definition early_next (l : list (rval + string)) : option (option (rval + string)) * list (rval + string) :=
  match l with [] => (Some None, []) | x :: l' => (Some (Some x), l') end.
Notation early_parse := (x_parse early_gp (user_xenv early_gp (fun v => v) early_sem early_next pure_clone) 100 early_S).
Example case_return : early_parse [int 1; int 2] = inr (XOutcome (POk (RVOther 2)) []).
Proof. vm_compute. reflexivity. Qed.
Theorem c56_return_wrong_value : early_parse [int 1; ok "Token::X"] = inr (XOutcome (POk (RVOther 1)) []).
Proof. vm_compute. reflexivity. Qed.

(** With two declared types, or a bound [A], the generated code panics. *)
Definition early2 : list (grammar_item string) :=
  [ tokens [val_tok "int" "Token::Int" "u32"; unit_tok "x" "Token::X"];
    rule true "S" "u32" [(["a" ::= #"A"; #"B"], "a")];
    rule false "A" "u32" [(["i" ::= $"int"], "i")];
    rule false "B" "u32" [([$"x"], "return")] ].
Definition early2_gp : generated (lexpr string) := Eval vm_compute in module_of early2.
Definition early2_S : parser_struct := Eval vm_compute in parser_named early2_gp "S".
Lemma early2_parser : parser_of early2 early2_gp early2_S. Proof. prove_parser_of. Qed.
Theorem c57_refuted : ~ (forall (items : list (grammar_item string)) gp pr (usem : string -> list (string * bval rval) -> list (rval + string) -> completion rval * list (rval + string))
  (next : list (rval + string) -> option (option (rval + string)) * list (rval + string)) (clone : string -> list (rval + string) -> option string * list (rval + string)) n u p u',
  parser_of items gp pr -> x_parse gp (user_xenv gp (fun v => v) usem next clone) n pr u = inr (XOutcome (PPanic p) u') -> p = UserPanic \/ p = NoTokenMatch).
Proof.
  intro H.
  assert (Hx : x_parse early2_gp (user_xenv early2_gp (fun v => v) early_sem early_next pure_clone) 100 early2_S [int 1; ok "Token::X"] =
    inr (XOutcome (PPanic EmptyValueStack) [])) by (vm_compute; reflexivity).
  destruct (H _ _ _ _ _ _ _ _ _ _ early2_parser Hx); discriminate.
Qed.
