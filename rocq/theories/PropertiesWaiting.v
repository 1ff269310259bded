(** * PropertiesWaiting: C83, what a compiled program does with user code that has state

    C72 and C82 for the program that rustc gets: from the tokens of the macro's input to calls of [parse] (C69).
    Vocabulary: Program.v, EmitSpec.v, EffectsSpec.v ([records], [no_return]), USpec.v. *)
From Verif Require Import EmitRun EmitProofs EffectsReplay EndlessEffects PropProofs.
From Verif Require Export PropertiesProgram PropertiesErrors PropertiesEndless.
Local Open Scope string_scope. Local Open Scope list_scope.

(** ** The model of Effects.v: after [K] iterations per token, [parse] has returned or never will *)
Section Waiting.
Context {A : Type}.
Variable items : list (grammar_item A).
Variable gp : generated (lexpr A).
Hypothesis Hnames : distinct_names items.
Hypothesis Hplain : plain_patterns items.
Hypothesis Hex : expands items gp.

Theorem c83_waiting : exists K, forall (E V St : Type) (inj : rval -> V) (usem : A -> list (string * bval V) -> St -> completion V * St)
  (next : St -> option (option (rval + E)) * St) (clone : E -> St -> option E * St) (left : St -> nat) pr u, In pr (gp_parsers gp) -> no_return usem ->
  (forall v, fst (next v) <> None) -> (forall a b v, fst (usem a b v) <> Panicked) -> (forall er v, fst (clone er v) <> None) ->
  (forall v tok v', next v = (Some (Some (inl tok)), v') -> class items tok <> None /\ left v' < left v) ->
  (forall a b v c v', usem a b v = (c, v') -> left v' <= left v) ->
  let xparse n := x_parse gp (user_xenv gp inj usem next clone) n pr u in
  (exists o, xparse (K * (left u + 1)) = inr o /\ forall p, xo_result o <> PPanic p) \/ (forall n, exists st, xparse n = inl st).
Proof.
  destruct (c82_effects gp) as (K & HK). exists (K + 1). intros E V St inj usem next clone left pr u Hpr Hnr N1 N2 N3 Htok Hleft xparse.
  assert (Hp : parser_of items gp pr) by (repeat split; auto).
  assert (Hnp : forall n o p, xparse n = inr o -> xo_result o <> PPanic p).
  { intros n o p Ho Ep. destruct o as [r uo]. cbn in Ep. subst r. destruct (c57_no_internal_panic items gp pr Hp inj usem next clone Hnr _ _ _ _ Ho) as
      [(_ & [(v & Hv)|[(nm & k & up & b & v & _ & Hv)|(er & v & Hv)]])|(_ & tok & v & v' & Hv & Hc)].
    - apply (N1 v). rewrite Hv. reflexivity.
    - apply (N2 _ _ _ (f_equal fst Hv)).
    - apply (N3 er v). rewrite Hv. reflexivity.
    - exact (proj1 (Htok _ _ _ Hv) Hc). }
  set (N := (K + 1) * (left u + 1)). destruct (xparse N) as [st|o] eqn:EN; [right|left; exists o; split; [reflexivity|intro p; exact (Hnp _ _ p EN)]].
  (* the results of [next()] *)
  pose proof (rec_parse gp inj usem next clone pr N u []) as Hrec. unfold xparse in EN. rewrite EN in Hrec.
  set (rs := rec_sem (L := list (option (rval + E))) usem) in *. set (rn := rec_next next) in *. set (rc := rec_clone clone) in *.
  destruct (x_parse gp (user_xenv gp inj rs rn rc) N pr (u, [])) as [st'|o'] eqn:Ex; [|discriminate].
  pose proof (effects_reach items gp pr Hp inj rs rn rc (rec_no_return _ Hnr)
    (fun v tk c => snd v = map (fun t => Some (inl t)) c ++ [tk] /\ match tk with Some (inl _) => left (fst v) + List.length c + 1 <= left u | _ => List.length c <= left u end) N (u, [])) as Hr.
  rewrite Ex in Hr. destruct Hr as (c & (Hl & Hc) & _).
  - intros tk u' Hn. unfold rn, rec_next in Hn. cbn [fst snd] in Hn. destruct (next u) as [[r|] v] eqn:En; [|discriminate]. injection Hn as <- <-. cbn.
    split; [reflexivity|]. destruct r as [[tok|er]|]; try lia. destruct (Htok _ _ _ En). lia.
  - intros v tk c tok tk' v' (H1 & H2) -> Hn. unfold rn, rec_next in Hn. destruct (next (fst v)) as [[r|] v1] eqn:En; [|discriminate]. injection Hn as <- <-. cbn [fst snd].
    rewrite H1, map_app, app_length. cbn [map List.length]. rewrite <- !app_assoc. split; [reflexivity|]. destruct r as [[tok'|er]|]; try lia. destruct (Htok _ _ _ En). lia.
  - intros v tk c a b k v' (H1 & H2) Hu. unfold rs, rec_sem in Hu. destruct (usem a b (fst v)) as [c1 v1] eqn:Eu. injection Hu as <- <-. cbn [fst snd].
    split; [exact H1|]. pose proof (Hleft _ _ _ _ _ Eu). destruct tk as [[?|?]|]; lia.
  - assert (Hlen : List.length c <= left u) by (destruct (xs_token st') as [[?|?]|]; lia).
    pose proof (HK E V _ inj rs rn rc snd pr (u, []) N st' (rec_records usem next clone) Hpr Ex) as Hend. cbn beta in Hend.
    assert (Hlt : K * (List.length (snd (xs_user st')) - List.length (snd (u, @nil (option (rval + E))))) < N).
    { rewrite Hl, app_length, map_length. cbn [List.length snd]. unfold N. clear - Hlen. assert (K * (List.length c + 1 - 0) <= K * (left u + 1)) by (apply Nat.mul_le_mono_l; lia). lia. }
    intro n. destruct (le_lt_dec N n) as [Hn|Hn].
    + specialize (Hend Hlt n Hn). pose proof (rec_parse gp inj usem next clone pr n u []) as Hrn. fold rs rn rc in Hrn.
      destruct (x_parse gp (user_xenv gp inj rs rn rc) n pr (u, [])) as [s2|o2] eqn:E2; cbn in Hrn; [unfold xparse; rewrite Hrn; eauto|].
      destruct Hend as (_ & p & Hpp). exfalso. apply (Hnp n _ p Hrn). exact Hpp.
    + destruct (xparse n) as [s2|o2] eqn:E2; [eauto|exfalso]. unfold xparse, x_parse in *. replace N with (n + (N - n)) in EN by lia. rewrite x_run_more, E2 in EN.
      clear - EN. destruct (N - n); cbn in EN; discriminate.
Qed.
End Waiting.

(** ** The program *)
Section Program.
Context {A : Type}.
Variable pty : list ttree -> option (ty * list ttree).
Variable pex : list ttree -> option (A * list ttree).
Variable ppa : list ttree -> option (string * list ttree).
Hypothesis Hsyn : syn_parsers pty pex ppa.
Notation written := (items_syntax (parses pty) (parses pex) (parses ppa) (expr_before pex)).
Notation expand := (expand_tokens pty pex ppa).
Variables (ts : list ttree) (items : list (grammar_item A)) (ho : hash_order) (fuel : nat) (M : list (Rust.item A)) (sg : sigs) (te : token_enum).
Hypothesis Hwritten : written ts items.
Hypothesis Hho : hash_order_ok ho.
Hypothesis Hexpand : expand ho fuel ts = EModule M sg.
Hypothesis Hte : declared_tokens items = [te].
Hypothesis Hnames : distinct_names items.
Hypothesis Hplain : plain_patterns items.
Hypothesis Hown : own_token items te.
Variable U : user_types A.
Hypothesis Hcompiles : module_ok M sg U.
Variable token : rval -> Prop.   (* the values of the token type, which the patterns of enum Token cover if rustc says so *)
Hypothesis Hcover : forall rs, ut_covers U rs (TUser (te_type_name te)) -> forall tok, token tok -> exists r, In r rs /\ rmatch r tok <> None.

(** User code that does not panic, and reads tokens until they come to an end *)
Record good_user {E V St} (X : user A E V St) (left : St -> nat) : Prop := {
  gu_action : forall a l v, fst (us_action X a l v) <> Returned /\ fst (us_action X a l v) <> Panicked;
  gu_next : forall v, fst (us_next X v) <> None;
  gu_clone : forall er v, fst (us_clone X er v) <> None;
  gu_tokens : forall v tok v', us_next X v = (Some (Some (inl tok)), v') -> token tok /\ left v' < left v;
  gu_left : forall a l v c v', us_action X a l v = (c, v') -> left v' <= left v
}.
Lemma token_classes : forall tok, token tok -> class items tok <> None.
Proof.
  intros tok Ht. destruct (expanded pty pex ppa Hsyn ts items ho fuel M sg te Hwritten Hho Hexpand Hte) as (g & gp & He & Hn & EM & Es). pose proof Hcompiles as Hc. rewrite EM, Es in Hc.
  destruct (proj1 (c68_exactly items te g gp Hnames Hplain He Hn Hown U) Hc) as [_ _ _ [_ _ P3 _]].
  destruct (Hcover _ P3 tok Ht) as (r & Hr & Hm). apply in_map_iff in Hr. destruct Hr as (c & <- & Hin). exact (matched_class items Hplain tok c Hin Hm).
Qed.

(** For any grammar, LR(1) or not, a compiled parser has returned after [K] iterations of its loop per token, or it never will. *)
Theorem c83_program_waiting : exists K, forall N (E V St : Type) (X : user A E V St) left d u, In N (declared_nts items) -> an_pub N = true -> good_user X left ->
  let parse n := call_fn M X n (4 + d) (an_name N) "parse" [VIter] u in
  (exists v u', parse (K * (left u + 1)) = CVal v [VIter] u') \/ (forall n, parse n = CFuel).
Proof.
  destruct (expanded pty pex ppa Hsyn ts items ho fuel M sg te Hwritten Hho Hexpand Hte) as (g & gp & He & Hn & EM & Es). pose proof Hcompiles as Hc. rewrite EM, Es in Hc.
  destruct (c83_waiting items gp Hnames Hplain He) as (K & HK). exists K. intros N E V St X left d u HN Hpub [G1 G2 G3 G4 G5] parse.
  destruct (c68_entries items gp Hnames He N HN Hpub) as (pr & Hpr & En).
  assert (Hparse : forall n, parse n = call_of (x_parse gp (module_env gp X) n pr u)).
  { intro n. unfold parse. rewrite EM, <- En. exact (c68_parse items te g gp Hnames He Hn Hown U Hc pr X n d u Hpr). }
  destruct (HK E V St (us_part X) (action_sem X) (us_next X) (us_clone X) left pr u Hpr) as [(o & Ho & Hnp)|Hend].
  - intros a b v. exact (proj1 (G1 a _ v)).
  - exact G2.
  - intros a b v. exact (proj2 (G1 a _ v)).
  - exact G3.
  - intros v tok v' Hv. destruct (G4 _ _ _ Hv) as (H1 & H2). split; [exact (token_classes tok H1)|exact H2].
  - intros a b v c v' H. exact (G5 _ _ _ _ _ H).
  - left. rewrite Hparse. unfold module_env. rewrite Ho. cbn [call_of]. destruct (xo_result o) as [v|er|f x|p] eqn:Er; cbn [result_val]; [eauto|eauto|eauto|destruct (Hnp p eq_refl)].
  - right. intro n. rewrite Hparse. destruct (Hend n) as (st & Hst). unfold module_env. rewrite Hst. reflexivity.
Qed.

(** For LR(1) grammars as in C40 it returns, and what it returns is decided by what [next()] returned, which any [log] in the user's state tells. *)
Definition lex_val {E V} (er : E) : val E V := VCon "Result" "Err" [VCon "ParseError" "LexerError" [VErr er]].
Theorem c83_program_decides N {E V St} (X : user A E V St) left log d u : ulr1_grammar (nts items) -> tails_plain (nts items) -> all_productive (nts items) ->
  In N (declared_nts items) -> an_pub N = true -> good_user X left ->
  (forall v r v', us_next X v = (Some r, v') -> log v' = log v ++ [r]) -> (forall a l v c v', us_action X a l v = (c, v') -> log v' = log v) ->
  (forall er v c v', us_clone X er v = (c, v') -> log v' = log v) ->
  exists n x u' toks r, call_fn M X n (4 + d) (an_name N) "parse" [VIter] u = CVal x [VIter] u' /\
    log u' = log u ++ map (fun t => Some (inl t)) toks ++ [r] /\ sentence_prefix (nts items) (class items) (an_name N) toks /\
    match r with
    | None => (sentence (nts items) (class items) (an_name N) toks /\ exists v, x = ok_val v) \/
        (~ sentence (nts items) (class items) (an_name N) toks /\ exists expected, x = err_val "end-of-input" expected)
    | Some (inl tok) => ~ sentence_prefix (nts items) (class items) (an_name N) (toks ++ [tok]) /\
        exists found expected, class items tok = Some found /\ x = err_val found expected
    | Some (inr er) => exists er' v, us_clone X er v = (Some er', u') /\ x = lex_val er'
    end.
Proof.
  destruct (expanded pty pex ppa Hsyn ts items ho fuel M sg te Hwritten Hho Hexpand Hte) as (g & gp & He & Hn & EM & Es). pose proof Hcompiles as Hc. rewrite EM, Es in Hc.
  intros Hlr Htp Hall HN Hpub [G1 G2 G3 G4 G5] L1 L2 L3. destruct (c68_entries items gp Hnames He N HN Hpub) as (pr & Hpr & En).
  assert (Hp : parser_of items gp pr) by (repeat split; auto).
  destruct (c72_decides items gp pr Hp (us_part X) (action_sem X) (us_next X) (us_clone X) (fun a b v => proj1 (G1 a _ v)) log left u Hlr Htp Hall) as (n & o & toks & r & Hx & Hl & Hpre & Hm).
  - constructor; [exact L1|intros a b v c v' H; exact (L2 _ _ _ _ _ H)|exact L3].
  - exact G2.
  - intros a b v. exact (proj2 (G1 a _ v)).
  - exact G3.
  - intros v tok v' Hv. destruct (G4 _ _ _ Hv) as (H1 & H2). split; [exact (token_classes tok H1)|exact H2].
  - intros a b v c v' H. exact (G5 _ _ _ _ _ H).
  - rewrite En in Hpre, Hm. exists n.
    assert (Hcall : call_fn M X n (4 + d) (an_name N) "parse" [VIter] u = call_of (inr o)).
    { rewrite EM, <- En, (c68_parse items te g gp Hnames He Hn Hown U Hc pr X n d u Hpr). unfold module_env. rewrite Hx. reflexivity. }
    destruct r as [[tok|er]|].
    + destruct Hm as (Hno & found & x & Hcl & Er). exists (err_val found x), (xo_user o), toks, (Some (inl tok)). rewrite Hcall. cbn [call_of]. rewrite Er. repeat split; auto. eauto.
    + destruct Hm as (er' & v & Hv & Er). exists (lex_val er'), (xo_user o), toks, (Some (inr er)). rewrite Hcall. cbn [call_of]. rewrite Er. repeat split; auto. eauto.
    + destruct Hm as [(Hs & v & Er)|(Hs & x & Er)].
      * exists (ok_val v), (xo_user o), toks, None. rewrite Hcall. cbn [call_of]. rewrite Er. repeat split; auto. left. eauto.
      * exists (err_val "end-of-input" x), (xo_user o), toks, None. rewrite Hcall. cbn [call_of]. rewrite Er. repeat split; auto. right. eauto.
Qed.
End Program.

(** ** A case: the sums of C69, with actions that discard the next token.  The iterator's tokens are [None] for [+] and [Some x] for [Token::N(x)]. *)
Definition skip_state : Type := list (option rval) * list (option (rval + string)).
Definition sum_tok (x : option rval) : rval := match x with Some v => RVCtor "Token::N" [v] | None => RVUnit "Token::Plus" end.
Definition skip_user : user string string rval skip_state :=
  {| us_action := fun _ _ v => (Value (RVUnit "sum"), (tl (fst v), snd v));
     us_part := fun v => v;
     us_next := fun v => match fst v with
                         | [] => (Some None, ([], snd v ++ [None]))
                         | x :: l => (Some (Some (inl (sum_tok x))), (l, snd v ++ [Some (inl (sum_tok x))]))
                         end;
     us_clone := fun er v => (Some er, v) |}.
Definition skip_left (v : skip_state) : nat := List.length (fst v).
Lemma skip_good : good_user sum_token skip_user skip_left.
Proof.
  constructor; cbn.
  - intros a l v. split; discriminate.
  - intros [[|x l] lg]; discriminate.
  - discriminate.
  - intros [[|x l] lg] tok v' H; cbn in H; [discriminate|]. injection H as <- <-. cbn. split; [destruct x; constructor|lia].
  - intros a l [[|x r] lg] c v' H; cbn in H; injection H as _ <-; cbn; lia.
Qed.
Section CaseC83.
Variables (M : list (Rust.item string)) (sg : sigs).
Hypothesis H : expand_tokens toy_type toy_expr toy_path ho_id 100 sum_tokens = EModule M sg.
Notation parse n l := (call_fn M skip_user n 4 "Sum" "parse" [VIter] (l, [])).
Lemma sum_covered : forall rs, ut_covers sum_types rs (TUser (te_type_name sum_te)) -> forall tok, sum_token tok -> exists r, In r rs /\ rmatch r tok <> None.
Proof.
  intros rs [_ Hincl] tok Ht. destruct Ht as [|x].
  - exists (RPPath "Token::Plus"). split; [apply Hincl; cbn; tauto|]. cbn. discriminate.
  - exists (RPTupleStruct "Token::N" [RPWild]). split; [apply Hincl; cbn; tauto|]. cbn. discriminate.
Qed.
Example case_c83_waiting : exists K, forall l, (exists v u', parse (K * (List.length l + 1)) l = CVal v [VIter] u') \/ (forall n, parse n l = CFuel).
Proof.
  destruct (c83_program_waiting toy_type toy_expr toy_path toy_syn sum_tokens sum_items ho_id 100 M sg sum_te sum_written ho_id_ok H eq_refl sum_names eq_refl sum_own sum_types
    (case_c69_compiles M sg H) sum_token sum_covered) as (K & HK).
  exists K. intro l. exact (HK sum_nt string rval skip_state skip_user skip_left 0 (l, []) (or_introl eq_refl) eq_refl skip_good).
Qed.
Example case_c83_decides l : exists n x u' toks r, parse n l = CVal x [VIter] u' /\ snd u' = map (fun t => Some (inl t)) toks ++ [r] /\
  sentence_prefix (nts sum_items) (class sum_items) "Sum" toks /\
  match r with
  | None => (sentence (nts sum_items) (class sum_items) "Sum" toks /\ exists v, x = ok_val v) \/
      (~ sentence (nts sum_items) (class sum_items) "Sum" toks /\ exists expected, x = err_val "end-of-input" expected)
  | Some (inl tok) => ~ sentence_prefix (nts sum_items) (class sum_items) "Sum" (toks ++ [tok]) /\ exists found expected, class sum_items tok = Some found /\ x = err_val found expected
  | Some (inr er) => exists er' v, us_clone skip_user er v = (Some er', u') /\ x = lex_val er'
  end.
Proof.
  apply (c83_program_decides toy_type toy_expr toy_path toy_syn sum_tokens sum_items ho_id 100 M sg sum_te sum_written ho_id_ok H eq_refl sum_names eq_refl sum_own sum_types
    (case_c69_compiles M sg H) sum_token sum_covered sum_nt skip_user skip_left snd 0 (l, []) sum_lr1 sum_plain sum_productive (or_introl eq_refl) eq_refl skip_good).
  - intros [[|x r] lg] y v' Hv; cbn in Hv; injection Hv as <- <-; reflexivity.
  - intros a b v c v' Hv. cbn in Hv. injection Hv as _ <-. reflexivity.
  - intros er v c v' Hv. cbn in Hv. injection Hv as _ <-. reflexivity.
Qed.
End CaseC83.
(** It discards tokens (the one after the lookahead, when a production is reduced): [1 + + 1] is read as [1 + 1], and [1 + 1] as [1 +], an error. *)
Example case_c83_skips : match expand_tokens toy_type toy_expr toy_path ho_id 100 sum_tokens with
  | EModule M _ =>
      let one := Some (RVUnit "1") in
      (exists v u' , call_fn M skip_user 100 4 "Sum" "parse" [VIter] ([one; None; None; one], []) = CVal (ok_val v) [VIter] u') /\
      (exists f x u', call_fn M skip_user 100 4 "Sum" "parse" [VIter] ([one; None; one], []) = CVal (err_val f x) [VIter] u')
  | _ => False
  end.
Proof. vm_compute. split; [do 2 eexists|do 3 eexists]; reflexivity. Qed.
