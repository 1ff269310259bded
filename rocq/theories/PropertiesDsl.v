(** * PropertiesDsl: C41-C45, the macro as a function of its input tokens

    [pty], [pex], [ppa] stand for syn's parsers of types, expressions and paths, about which the record
    [syn_parsers] (DslSpec.v) is assumed.  Below, a toy instance and a complete input show that the
    hypotheses can be met. *)
From Verif Require Export DslWritable PropSpec PropertiesGen.
From Verif Require Import Grammars.
Local Open Scope string_scope.
Local Open Scope list_scope.

(** ** A toy instance: types are one identifier or [()]; expressions one literal, identifier or group;
    paths [a] or [a::b]. *)
Definition toy_type (ts : list ttree) : option (ty * list ttree) :=
  match ts with
  | TIdent s :: r => Some (s, r)
  | TGroup DParen [] :: r => Some ("()", r)
  | _ => None
  end.
Definition toy_expr (ts : list ttree) : option (string * list ttree) :=
  match ts with
  | TIdent s :: r => Some (s, r)
  | TLit _ text :: r => Some (text, r)
  | TGroup _ [] :: r => Some ("()", r)
  | _ => None
  end.
Definition toy_path (ts : list ttree) : option (string * list ttree) :=
  match ts with
  | TIdent a :: TPunct ":" true :: TPunct ":" _ :: TIdent b :: r => Some (a ++ "::" ++ b, r)%string
  | TIdent a :: r => Some (a, r)
  | _ => None
  end.
Lemma toy_type_inv ts t r : toy_type ts = Some (t, r) -> exists x, ts = x :: r /\ forall r', toy_type (x :: r') = Some (t, r').
Proof.
  destruct ts as [|[s|c j|sv text|s|[| |] [|y c]] ts]; cbn; try discriminate; intro H; injection H as <- <-; eauto.
Qed.
Lemma toy_expr_inv ts t r : toy_expr ts = Some (t, r) -> exists x, ts = x :: r /\ forall r', toy_expr (x :: r') = Some (t, r').
Proof.
  destruct ts as [|[s|c j|sv text|s|d [|y c]] ts]; cbn; try discriminate; intro H; injection H as <- <-; eauto.
Qed.
Lemma one_token {X} (p : list ttree -> option (X * list ttree)) :
  (forall ts t r, p ts = Some (t, r) -> exists x, ts = x :: r /\ forall r', p (x :: r') = Some (t, r')) -> prefix_parser p /\ forall r, stops p r.
Proof.
  intro H. split.
  - intros ts x r Hp. destruct (H _ _ _ Hp) as (t & -> & Ht). exists [t]. split; [reflexivity|]. split; [discriminate|]. apply Ht.
  - intros r l x Hp. destruct (H _ _ _ Hp) as (t & -> & Ht). apply Ht.
Qed.
Definition colons_ident (ts : list ttree) : bool :=
  match ts with TPunct c true :: TPunct d _ :: TIdent _ :: _ => Ascii.eqb c ":" && Ascii.eqb d ":" | _ => false end.
Lemma toy_path_short a r : colons_ident r = false -> toy_path (TIdent a :: r) = Some (a, r).
Proof.
  intro H. unfold toy_path. destruct r as [|[s|c j|sv text|s|d cc] r]; auto.
  destruct (Ascii.eqb c ":") eqn:Ec.
  - apply Ascii.eqb_eq in Ec. subst. destruct j; auto. destruct r as [|[s|d k|sv text|s|d cc] r]; auto.
    destruct (Ascii.eqb d ":") eqn:Ed.
    + apply Ascii.eqb_eq in Ed. subst. destruct r as [|[s| | | |] r]; auto. discriminate H.
    + destruct d as [[|] [|] [|] [|] [|] [|] [|] [|]]; try reflexivity. discriminate.
  - destruct c as [[|] [|] [|] [|] [|] [|] [|] [|]]; try reflexivity. discriminate.
Qed.
Lemma toy_path_long a j b r : toy_path (TIdent a :: TPunct ":" true :: TPunct ":" j :: TIdent b :: r) = Some (a ++ "::" ++ b, r)%string.
Proof. reflexivity. Qed.
Lemma toy_path_inv ts p r : toy_path ts = Some (p, r) ->
  (exists a, ts = TIdent a :: r /\ p = a /\ colons_ident r = false) \/
  (exists a j b, ts = TIdent a :: TPunct ":" true :: TPunct ":" j :: TIdent b :: r /\ p = (a ++ "::" ++ b)%string).
Proof.
  intro H. destruct ts as [|[a| | | |] ts]; try discriminate. destruct (colons_ident ts) eqn:E.
  - right. destruct ts as [|[s|c [|]|sv text|s|d cc] [|[s2|d2 k|sv2 text2|s2|d2 cc2] [|[b| | | |] ts]]]; try discriminate.
    cbn in E. apply andb_true_iff in E. destruct E as [E1 E2]. apply Ascii.eqb_eq in E1, E2. subst. rewrite toy_path_long in H.
    injection H as <- <-. eauto 10.
  - left. rewrite (toy_path_short _ _ E) in H. injection H as <- <-. eauto.
Qed.
Lemma toy_syn : syn_parsers toy_type toy_expr toy_path.
Proof.
  destruct (one_token _ toy_type_inv) as [H1 H2]. destruct (one_token _ toy_expr_inv) as [H3 H4]. constructor; auto.
  - intros ts p r H. destruct (toy_path_inv _ _ _ H) as [(a & -> & -> & _)|(a & j & b & -> & ->)].
    + exists [TIdent a]. split; [reflexivity|]. split; [discriminate|]. reflexivity.
    + exists [TIdent a; TPunct ":" true; TPunct ":" j; TIdent b]. split; [reflexivity|]. split; [discriminate|]. reflexivity.
  - intros r Hr l p Hp. destruct (toy_path_inv _ _ _ Hp) as [(a & -> & -> & _)|(a & j & b & -> & ->)].
    + cbn [app]. apply toy_path_short. destruct Hr as [->|[(c & j & r' & -> & Hc)|(d & c & r' & -> & _)]]; try reflexivity.
      destruct Hc as [<-|[<-|[]]]; destruct j; try reflexivity; (destruct r' as [|[| | | |] [|[| | | |] r']]; reflexivity).
    + apply toy_path_long.
Qed.

(** [enum Token<'a> { "a" => Token::A, "n" => Token::N(<usize>, ..), "s" => S { x: 1, .. } }
    type State = usize;
    pub Start: usize = { <x: Num> "a" => x, => 0 };
    Num: usize = <mut n: "n"> => n,] *)
Definition dc := TPunct ":" true :: TPunct ":" false :: nil.
Definition arrow := TPunct "=" true :: TPunct ">" false :: nil.
Definition colon := TPunct ":" false. Definition cmma := TPunct "," false. Definition eqs := TPunct "=" false.
Definition lt := TPunct "<" false. Definition gt := TPunct ">" false. Definition semi := TPunct ";" false.
Definition dots := TPunct "." true :: TPunct "." false :: nil.
Definition str (s : string) := TLit (Some s) s.
Definition demo_tokens : list ttree :=
  [TIdent "enum"; TIdent "Token"; lt; TLifetime "a"; gt;
   TGroup DBrace ([str "a"] ++ arrow ++ [TIdent "Token"] ++ dc ++ [TIdent "A"; cmma] ++
                  [str "n"] ++ arrow ++ [TIdent "Token"] ++ dc ++ [TIdent "N"; TGroup DParen ([lt; TIdent "usize"; gt; cmma] ++ dots); cmma] ++
                  [str "s"] ++ arrow ++ [TIdent "S"; TGroup DBrace ([TIdent "x"; colon; TLit None "1"; cmma] ++ dots)]);
   TIdent "type"; TIdent "State"; eqs; TIdent "usize"; semi;
   TIdent "pub"; TIdent "Start"; colon; TIdent "usize"; eqs;
   TGroup DBrace ([lt; TIdent "x"; colon; TIdent "Num"; gt; str "a"] ++ arrow ++ [TIdent "x"; cmma] ++ arrow ++ [TLit None "0"]); semi;
   TIdent "Num"; colon; TIdent "usize"; eqs; lt; TIdent "mut"; TIdent "n"; colon; str "n"; gt] ++ arrow ++ [TIdent "n"; cmma].
Definition demo_items : list (grammar_item string) :=
  [GITokenEnum {| te_type_name := "Token"; te_lifetimes := ["a"]; te_conversions :=
     [{| cv_from := "a"; cv_to := PatPath "Token::A" |};
      {| cv_from := "n"; cv_to := PatEnum "Token::N" [PatChoose "usize"; PatDotDot] |};
      {| cv_from := "s"; cv_to := PatStruct "S" [("x", PatLit "1")] true |}] |};
   GITypeDefState "usize";
   GINonTerminal {| an_pub := true; an_name := "Start"; an_type := "usize"; an_productions :=
     [{| ap_symbols := [ASNamed {| nm_mutable := false; nm_name := "x" |} (ASNonTerminal "Num"); ASTerminal "a"]; ap_action := Infallible "x" |};
      {| ap_symbols := []; ap_action := Infallible "0" |}] |};
   GINonTerminal {| an_pub := false; an_name := "Num"; an_type := "usize"; an_productions :=
     [{| ap_symbols := [ASNamed {| nm_mutable := true; nm_name := "n" |} (ASTerminal "n")]; ap_action := Infallible "n" |}] |}].

Section PropertiesDsl.
Context {A : Type}.
Variable pty : list ttree -> option (ty * list ttree).
Variable pex : list ttree -> option (A * list ttree).
Variable ppa : list ttree -> option (string * list ttree).
Hypothesis Hsyn : syn_parsers pty pex ppa.
(** [ts] is well-formed input with AST [items]; [written_with_commas]: the same, with a comma between any
    two productions. *)
Notation written := (items_syntax (parses pty) (parses pex) (parses ppa) (expr_before pex)).
Notation written_with_commas := (items_syntax (parses pty) (parses pex) (parses ppa) (fun _ _ _ => False)).
Notation ill_formed := (syntax_panics (parses pty) (parses pex) (parses ppa) (expr_before pex) (path_before ppa)).

(** ** C41: the syntax of the grammar language *)
Theorem c41_reads_syntax ts items : written ts items -> p_parser pty pex ppa ts = DOk items [].
Proof. apply parser_complete; auto. Qed.
Theorem c41_accepts_only_syntax ts items r : p_parser pty pex ppa ts = DOk items r -> r = [] /\ written ts items.
Proof. apply parser_sound; auto. Qed.
Theorem c41_commas ts items : written_with_commas ts items -> p_parser pty pex ppa ts = DOk items [].
Proof. intro H. apply c41_reads_syntax. eapply items_gap; [|exact H]. intros le e r []. Qed.
Theorem c41_unambiguous ts items items' : written ts items -> written ts items' -> items = items'.
Proof. intros H H'. apply c41_reads_syntax in H, H'. congruence. Qed.

(** ** C42: every grammar can be written down *)
Theorem c42_writable items : (exists ts, p_parser pty pex ppa ts = DOk items []) <-> Forall (item_writable (parses pty) (parses pex) (parses ppa)) items.
Proof.
  split.
  - intros (ts & H). destruct (parser_sound _ _ _ Hsyn _ _ _ H) as [_ Hw]. eapply items_syntax_writable; eauto.
  - intro H. destruct (items_written _ _ _ (expr_before pex) _ H) as (ts & Hts). exists ts. apply parser_complete; auto.
Qed.

(** ** C43: the macro is a function of its input tokens, and total *)

(** The input expands to [gp] / fails to. *)
Definition tokens_expand (ts : list ttree) (gp : generated (lexpr A)) : Prop :=
  exists ho fuel, hash_order_ok ho /\ parser_macro pty pex ppa ho fuel ts = XModule gp.
Theorem c43_terminates ts ho : hash_order_ok ho -> exists fuel x, x <> XFuel /\
  forall fuel', fuel <= fuel' -> parser_macro pty pex ppa ho fuel' ts = x.
Proof.
  intro Hho. unfold parser_macro. destruct (p_parser pty pex ppa ts) as [items r| | |] eqn:E.
  - destruct (c21_expansion_terminates items ho Hho) as (fuel & [(gp & H)|(p & H)]).
    + exists fuel, (XModule gp). split; [discriminate|]. intros f Hf. rewrite H by auto. reflexivity.
    + exists fuel, (XPanic p). split; [discriminate|]. intros f Hf. rewrite H by auto. reflexivity.
  - exists 0, XCompileError. split; [discriminate|auto].
  - exists 0, XSyntaxPanic. split; [discriminate|auto].
  - exfalso. exact (parser_total _ _ _ Hsyn _ E).
Qed.
Theorem c43_expands_written ts items gp : written ts items -> (tokens_expand ts gp <-> expands items gp).
Proof.
  intro H. apply c41_reads_syntax in H. unfold tokens_expand, expands, parser_macro. rewrite H.
  split; intros (ho & fuel & Hho & Hm); exists ho, fuel; (split; [exact Hho|]).
  - destruct (macro ho fuel items); try discriminate. congruence.
  - rewrite Hm. reflexivity.
Qed.
Theorem c43_expands_only_written ts gp : tokens_expand ts gp -> exists items, written ts items /\ expands items gp.
Proof.
  intros (ho & fuel & Hho & Hm). unfold parser_macro in Hm. destruct (p_parser pty pex ppa ts) as [items r| | |] eqn:E; try discriminate.
  destruct (c41_accepts_only_syntax _ _ _ E) as [-> Hw]. exists items. split; auto. exists ho, fuel. split; auto.
  destruct (macro ho fuel items); try discriminate. congruence.
Qed.
Theorem c43_same_module ts gp gp' : tokens_expand ts gp -> tokens_expand ts gp' ->
  gp_action gp' = gp_action gp /\ gp_goto gp' = gp_goto gp /\ gp_sem_actions gp' = gp_sem_actions gp /\
  gp_expected gp' = gp_expected gp /\ gp_terminal_strs gp' = gp_terminal_strs gp /\ gp_n_terminals gp' = gp_n_terminals gp /\
  gp_conversions gp' = gp_conversions gp /\ Permutation (gp_parsers gp') (gp_parsers gp).
Proof.
  intros (ho & fuel & Hho & Hm) (ho' & fuel' & Hho' & Hm'). unfold parser_macro in *. destruct (p_parser pty pex ppa ts) as [items r| | |]; try discriminate.
  destruct (macro ho fuel items) as [x| |] eqn:E; try discriminate. destruct (macro ho' fuel' items) as [x'| |] eqn:E'; try discriminate.
  injection Hm as <-. injection Hm' as <-. destruct (c22_hash_order_irrelevant items ho ho' fuel fuel' x Hho Hho' E) as (y & Hy & Hrest); [congruence|].
  rewrite E' in Hy. injection Hy as <-. exact Hrest.
Qed.

(** ** C44: panics while parsing *)
Theorem c44_panics_only ts : p_parser pty pex ppa ts = DPanic -> ill_formed ts.
Proof. apply parser_panic_sound; auto. Qed.
Theorem c44_panics ts : ill_formed ts -> p_parser pty pex ppa ts = DPanic.
Proof. apply parser_panic_complete; auto. Qed.
Theorem c44_written_no_panic ts items : written ts items -> ~ ill_formed ts.
Proof. intros H Hp. apply c41_reads_syntax in H. apply c44_panics in Hp. congruence. Qed.
(** Everything else is a compile error. *)
Theorem c44_errors_otherwise ts : p_parser pty pex ppa ts = DErr <-> (forall items, ~ written ts items) /\ ~ ill_formed ts.
Proof.
  split.
  - intro H. split; [intros items Hw; apply c41_reads_syntax in Hw; congruence|]. intro Hp. apply c44_panics in Hp. congruence.
  - intros [Hw Hp]. destruct (p_parser pty pex ppa ts) as [items r| | |] eqn:E; auto.
    + destruct (c41_accepts_only_syntax _ _ _ E) as [_ H]. destruct (Hw _ H).
    + destruct Hp. apply c44_panics_only; auto.
    + exfalso. exact (parser_total _ _ _ Hsyn _ E).
Qed.

(** What the user of the macro sees, whatever the iteration orders: a panic in the parser, a compile
    error, a panic of a later stage. *)
Theorem c44_macro_panics ho fuel ts : parser_macro pty pex ppa ho fuel ts = XSyntaxPanic <-> ill_formed ts.
Proof.
  unfold parser_macro. split.
  - intro H. apply c44_panics_only. destruct (p_parser pty pex ppa ts) as [items r| | |]; try discriminate; auto.
    destruct (macro ho fuel items); discriminate.
  - intro H. apply c44_panics in H. rewrite H. reflexivity.
Qed.
Theorem c44_macro_errors ho fuel ts : parser_macro pty pex ppa ho fuel ts = XCompileError <-> (forall items, ~ written ts items) /\ ~ ill_formed ts.
Proof.
  rewrite <- c44_errors_otherwise. unfold parser_macro. split.
  - intro H. destruct (p_parser pty pex ppa ts) as [items r| | |]; try discriminate; auto. destruct (macro ho fuel items); discriminate.
  - intro H. rewrite H. reflexivity.
Qed.
Theorem c43_macro_panics ho fuel ts p : parser_macro pty pex ppa ho fuel ts = XPanic p <->
  exists items, written ts items /\ macro ho fuel items = Panic p.
Proof.
  unfold parser_macro. split.
  - intro H. destruct (p_parser pty pex ppa ts) as [items r| | |] eqn:E; try discriminate. exists items.
    destruct (c41_accepts_only_syntax _ _ _ E) as [_ Hw]. split; auto. destruct (macro ho fuel items); try discriminate. congruence.
  - intros (items & Hw & Hm). apply c41_reads_syntax in Hw. rewrite Hw, Hm. reflexivity.
Qed.

(** ** C45: a literal that is not a string is ignored in front of a non-terminal

    [pre] and [post]: the symbols around it, [act]: the action. *)
Theorem c45_literal_ignored l text s (pub : bool) n lt t pre ss post ss' act a :
  literal l None text -> is_ident s = true -> is_ident n = true -> parses pty lt t ->
  syms_syntax pre ss -> syms_syntax post ss' -> action_syntax (parses pex) act a ->
  let rule body := (if pub then [TIdent "pub"] else []) ++ TIdent n :: colon :: lt ++ [eqs; TGroup DBrace body; semi] in
  p_parser pty pex ppa (rule (pre ++ l ++ TIdent s :: post ++ act)) = p_parser pty pex ppa (rule (pre ++ TIdent s :: post ++ act)) /\
  p_parser pty pex ppa (rule (pre ++ TIdent s :: post ++ act)) =
    DOk [GINonTerminal {| an_pub := pub; an_name := n; an_type := t;
           an_productions := [{| ap_symbols := ss ++ ASNonTerminal s :: ss'; ap_action := a |}] |}] [].
Proof.
  intros Hl Hs Hn Ht Hpre Hpost Hact rule.
  assert (Happ : forall x xs y ys, syms_syntax x xs -> syms_syntax y ys -> syms_syntax (x ++ y) (xs ++ ys)).
  { intros x xs y ys Hx Hy. induction Hx; cbn [app]; auto. rewrite <- app_assoc. constructor; auto. }
  assert (Hgen : forall jk, junk jk -> p_parser pty pex ppa (rule (pre ++ jk ++ TIdent s :: post ++ act)) =
    DOk [GINonTerminal {| an_pub := pub; an_name := n; an_type := t;
           an_productions := [{| ap_symbols := ss ++ ASNonTerminal s :: ss'; ap_action := a |}] |}] []).
  { intros jk Hjk. apply c41_reads_syntax. rewrite <- (app_nil_r (rule _)). constructor; [|constructor]. apply is_rule. unfold rule.
    apply rs_braces; auto. apply prss_last.
    replace (pre ++ jk ++ TIdent s :: post ++ act) with ((pre ++ (jk ++ [TIdent s]) ++ post) ++ act) by (rewrite <- !app_assoc; reflexivity).
    constructor; auto. apply Happ; auto. constructor; auto. constructor; auto. }
  split; [rewrite (Hgen l (junk_lit _ _ Hl)); symmetry|]; apply (Hgen [] junk_none).
Qed.
End PropertiesDsl.

(** ** Concrete cases *)

(** A toy path and type, as wholes *)
Lemma toy_ty s : parses toy_type [TIdent s] s. Proof. reflexivity. Qed.
Lemma toy_ex s : parses toy_expr [TIdent s] s. Proof. reflexivity. Qed.
Lemma a_comma : comma [cmma]. Proof. exists false; reflexivity. Qed.
Lemma an_arrow : fat_arrow arrow. Proof. exists false; reflexivity. Qed.
Lemma two_dots : dot_dot dots. Proof. exists false; reflexivity. Qed.

Lemma demo_written_commas : items_syntax (parses toy_type) (parses toy_expr) (parses toy_path) (fun _ _ _ => False) demo_tokens demo_items.
Proof.
  refine (iss_cons _ _ _ _ (firstn 6 demo_tokens) _ (skipn 6 demo_tokens) _ _ _).
  { apply is_enum. refine (es_lifetimes _ _ "Token" false [TLifetime "a"] ["a"] false _ _ eq_refl _ _).
    - refine (lts_cons "a" [] [] [] (or_introl eq_refl) lts_nil).
    - refine (cm_cons _ (str "a" :: arrow ++ ([TIdent "Token"] ++ dc ++ [TIdent "A"])) _ [cmma] _ _ _ a_comma _).
      { apply cvs; [exact an_arrow|]. apply ps_path; [apply path_start_intro; reflexivity|reflexivity]. }
      refine (cm_cons _ (str "n" :: arrow ++ (([TIdent "Token"] ++ dc ++ [TIdent "N"]) ++ [TGroup DParen ([lt; TIdent "usize"; gt; cmma] ++ dots)])) _ [cmma] _ _ _ a_comma _).
      { apply cvs; [exact an_arrow|]. apply ps_enum; [apply path_start_intro; reflexivity|reflexivity|].
        refine (cm_cons _ (lt :: [TIdent "usize"] ++ [gt]) _ [cmma] dots _ _ a_comma _); [apply ps_choose, toy_ty|].
        apply cm_last, ps_dots, two_dots. }
      apply cm_last. apply (cvs _ _ "s" "s" arrow ([TIdent "S"] ++ [TGroup DBrace _])); [exact an_arrow|].
      apply ps_struct; [apply path_start_intro; reflexivity|reflexivity|].
      refine (fs_cons _ _ "x" false [TLit None "1"] _ [cmma] dots _ _ eq_refl _ a_comma _); [eapply ps_lit; constructor|apply fs_dots, two_dots]. }
  refine (iss_cons _ _ _ _ (firstn 5 (skipn 6 demo_tokens)) _ (skipn 11 demo_tokens) _ _ _).
  { refine (is_state _ _ _ _ false [TIdent "usize"] "usize" false _). apply toy_ty. }
  refine (iss_cons _ _ _ _ (firstn 7 (skipn 11 demo_tokens)) _ (skipn 18 demo_tokens) _ _ _).
  { apply is_rule. refine (rs_braces _ _ _ true "Start" false [TIdent "usize"] "usize" false _ _ false eq_refl (toy_ty _) _).
    refine (prss_cons _ _ (([lt; TIdent "x"; colon; TIdent "Num"; gt] ++ [str "a"] ++ []) ++ (arrow ++ [TIdent "x"])) _ [cmma] (arrow ++ [TLit None "0"]) _ _ a_comma _).
    - constructor; [|constructor; [exact an_arrow|apply toy_ex|reflexivity]].
      constructor; [|constructor; [constructor|constructor]].
      refine (sy_named [] false false false false "x" ([] ++ [TIdent "Num"]) _ junk_none eq_refl _). constructor; [constructor|reflexivity].
    - apply prss_last. refine (prs _ [] [] (arrow ++ [TLit None "0"]) _ sys_nil _). constructor; [exact an_arrow|reflexivity|reflexivity]. }
  refine (iss_cons _ _ _ _ (skipn 18 demo_tokens) _ [] _ _ (iss_nil _ _ _ _)).
  apply is_rule. refine (rs_single _ _ _ false "Num" false [TIdent "usize"] "usize" false
    (([lt; TIdent "mut"; TIdent "n"; colon; str "n"; gt] ++ []) ++ (arrow ++ [TIdent "n"])) _ [cmma] eq_refl (toy_ty _) _ a_comma).
  constructor; [|constructor; [exact an_arrow|apply toy_ex|reflexivity]].
  constructor; [|constructor]. refine (sy_named [] false false false true "n" [str "n"] _ junk_none eq_refl _). constructor.
Qed.
Lemma demo_written : items_syntax (parses toy_type) (parses toy_expr) (parses toy_path) (expr_before toy_expr) demo_tokens demo_items.
Proof. eapply items_gap; [|exact demo_written_commas]. intros le e r []. Qed.
(** [N: usize = { "a" => x "b" => y };]: the missing comma is accepted, as [x] ends in front of ["b"] *)
Definition gap_tokens : list ttree := [TIdent "N"; colon; TIdent "usize"; eqs;
  TGroup DBrace ([str "a"] ++ arrow ++ [TIdent "x"; str "b"] ++ arrow ++ [TIdent "y"]); semi].
Definition gap_items : list (grammar_item string) := [GINonTerminal {| an_pub := false; an_name := "N"; an_type := "usize"; an_productions :=
  [{| ap_symbols := [ASTerminal "a"]; ap_action := Infallible "x" |}; {| ap_symbols := [ASTerminal "b"]; ap_action := Infallible "y" |}] |}].
Lemma gap_written : items_syntax (parses toy_type) (parses toy_expr) (parses toy_path) (expr_before toy_expr) gap_tokens gap_items.
Proof.
  rewrite <- (app_nil_r gap_tokens). apply iss_cons; [|apply iss_nil]. apply is_rule.
  refine (rs_braces _ _ _ false "N" false [TIdent "usize"] "usize" false _ _ false eq_refl (toy_ty _) _).
  refine (prss_gap _ _ (([str "a"] ++ []) ++ (arrow ++ [TIdent "x"])) _ (([str "b"] ++ []) ++ (arrow ++ [TIdent "y"])) _ _ _).
  - constructor; [constructor; constructor|]. constructor; [exact an_arrow|split; reflexivity|reflexivity].
  - apply prss_last. constructor; [constructor; constructor|]. constructor; [exact an_arrow|reflexivity|reflexivity].
Qed.
Example case_c41 : p_parser toy_type toy_expr toy_path demo_tokens = DOk demo_items [].
Proof. exact (c41_commas _ _ _ toy_syn _ _ demo_written_commas). Qed.
Example case_c41_gap : p_parser toy_type toy_expr toy_path gap_tokens = DOk gap_items [].
Proof. exact (c41_reads_syntax _ _ _ toy_syn _ _ gap_written). Qed.
(** computed, not by the theorem *)
Example case_c41_computed : p_parser toy_type toy_expr toy_path demo_tokens = DOk demo_items [] /\
  p_parser toy_type toy_expr toy_path (tl demo_tokens) = DErr.
Proof. split; vm_compute; reflexivity. Qed.
Example case_c42 : Forall (item_writable (parses toy_type) (parses toy_expr) (parses toy_path)) demo_items.
Proof. apply (c42_writable _ _ _ toy_syn). exists demo_tokens. exact case_c41. Qed.
(** A keyword is no non-terminal name: such an AST is the parse of nothing. *)
Example case_c42_not : ~ exists ts, p_parser toy_type toy_expr toy_path ts =
  DOk [GINonTerminal {| an_pub := false; an_name := "match"; an_type := "usize"; an_productions := [] |}] [].
Proof. rewrite (c42_writable _ _ _ toy_syn). intro H. apply Forall_inv in H. destruct H as [Hn _]. discriminate Hn. Qed.

Definition demo_gp := Eval vm_compute in match parser_macro toy_type toy_expr toy_path ho_id 100 demo_tokens with XModule gp => Some gp | _ => None end.
Example case_c43 : exists gp, demo_gp = Some gp /\ tokens_expand toy_type toy_expr toy_path demo_tokens gp /\ expands demo_items gp /\
  map pr_name (gp_parsers gp) = ["Start"].
Proof.
  eexists. split; [reflexivity|].
  match goal with |- tokens_expand _ _ _ _ ?g /\ _ => assert (H : tokens_expand toy_type toy_expr toy_path demo_tokens g) end.
  { exists ho_id, 100. split; [exact ho_id_ok|vm_compute; reflexivity]. }
  split; [exact H|]. split; [exact (proj1 (c43_expands_written _ _ _ toy_syn _ _ _ demo_written) H)|reflexivity].
Qed.

(** [type Stat = usize;], and [enum Token { "a" => }]; a missing comma between fields *)
Example case_c44 :
  syntax_panics (parses toy_type) (parses toy_expr) (parses toy_path) (expr_before toy_expr) (path_before toy_path) (demo_tokens ++ [TIdent "type"; TIdent "Stat"]) /\
  syntax_panics (parses toy_type) (parses toy_expr) (parses toy_path) (expr_before toy_expr) (path_before toy_path) [TIdent "enum"; TIdent "Token"; TGroup DBrace ([str "a"] ++ arrow)] /\
  syntax_panics (parses toy_type) (parses toy_expr) (parses toy_path) (expr_before toy_expr) (path_before toy_path)
    [TIdent "enum"; TIdent "Token"; TGroup DBrace ([str "a"] ++ arrow ++
     [TIdent "S"; TGroup DBrace [TIdent "x"; colon; TIdent "P"; TIdent "y"; colon; TIdent "_"]])] /\
  p_parser toy_type toy_expr toy_path [TIdent "enum"; TIdent "Token"; TGroup DBrace ([str "a"] ++ arrow ++
     [TIdent "S"; TGroup DBrace [TIdent "x"; colon; TIdent "P"; TIdent "y"; colon; TIdent "_"]])] = DPanic.
Proof.
  split; [|split; [|split; [|vm_compute; reflexivity]]].
  - generalize demo_written. generalize demo_tokens demo_items. intros ts items H. induction H as [|l i l' is Hi His IH].
    + apply sp_type_name; [reflexivity|discriminate].
    + rewrite <- app_assoc. eapply sp_later; eauto.
  - apply sp_enum_plain; [reflexivity|]. refine (cp_here _ _ _ "a" "a" arrow [] an_arrow _). apply pp_start.
    rewrite pat_first_iff. discriminate.
  - apply sp_enum_plain; [reflexivity|]. refine (cp_here _ _ _ "a" "a" arrow _ an_arrow _).
    refine (pp_struct _ _ _ [TIdent "S"] "S" _ [] (path_start_intro "S" [] eq_refl) eq_refl _).
    refine (fp_comma _ _ _ "x" false [TIdent "P"] _ [TIdent "y"; colon; TIdent "_"] eq_refl (ps_path _ _ [TIdent "P"] "P" (path_start_intro "P" [] eq_refl) eq_refl) _ _ _).
    + discriminate.
    + intros q Hq. injection Hq as <-. split; [reflexivity|discriminate].
    + intros c r' Hc. split; intros (k & ->); discriminate.
Qed.

(** [pub S: usize = { 5 N "a" => x };] is read as [pub S: usize = { N "a" => x };]. *)
Example case_c45 :
  p_parser toy_type toy_expr toy_path ([TIdent "pub"; TIdent "S"; colon; TIdent "usize"; eqs;
    TGroup DBrace ([TLit None "5"; TIdent "N"; str "a"] ++ arrow ++ [TIdent "x"]); semi]) =
  DOk [GINonTerminal {| an_pub := true; an_name := "S"; an_type := "usize"; an_productions :=
    [{| ap_symbols := [ASNonTerminal "N"; ASTerminal "a"]; ap_action := Infallible "x" |}] |}] [].
Proof.
  destruct (c45_literal_ignored _ _ _ toy_syn [TLit None "5"] "5" "N" true "S" [TIdent "usize"] "usize" [] [] ([str "a"] ++ []) [ASTerminal "a"]
    (arrow ++ [TIdent "x"]) (Infallible "x") (lit_tok _ _) eq_refl eq_refl (toy_ty _) sys_nil) as [H1 H2].
  - constructor; constructor.
  - constructor; [exact an_arrow|apply toy_ex|reflexivity].
  - cbn zeta in H1, H2. rewrite H2 in H1. exact H1.
Qed.

(** The unit tests of src/ast.rs:457-586, as far as the toy parsers go *)
Notation pat ts := (p_pattern toy_type toy_path 50 ts).
Example tests_patterns :
  pat [TIdent "X"; TGroup DParen [TIdent "A"; cmma; TIdent "B"]] = DOk (PatEnum "X" [PatPath "A"; PatPath "B"]) [] /\
  pat ([TIdent "X"] ++ dc ++ [TIdent "Y"; TGroup DParen [TIdent "A"; cmma; TIdent "B"]]) = DOk (PatEnum "X::Y" [PatPath "A"; PatPath "B"]) [] /\
  pat ([TIdent "X"] ++ dc ++ [TIdent "Y"; TGroup DBrace ([TIdent "a"; colon; TIdent "A"; cmma; TIdent "b"; colon; TIdent "B"; cmma] ++ dots)])
    = DOk (PatStruct "X::Y" [("a", PatPath "A"); ("b", PatPath "B")] true) [] /\
  pat ([TIdent "X"] ++ dc ++ [TIdent "Y"; TGroup DBrace [TIdent "a"; colon; TIdent "A"; cmma; TIdent "b"; colon; TIdent "B"]])
    = DOk (PatStruct "X::Y" [("a", PatPath "A"); ("b", PatPath "B")] false) [] /\
  pat [TGroup DParen [TIdent "A"; cmma; TIdent "B"]] = DOk (PatTuple [PatPath "A"; PatPath "B"]) [] /\
  pat ([TIdent "X"] ++ dc ++ [TIdent "Y"]) = DOk (PatPath "X::Y") [] /\
  pat [TIdent "X"] = DOk (PatPath "X") [] /\
  pat [TIdent "_"] = DOk PatUnderscore [] /\
  pat dots = DOk PatDotDot [] /\
  pat [TLit None "123"] = DOk (PatLit "123") [] /\
  pat [str "a"] = DOk (PatLit "a") [] /\
  pat [lt; TIdent "A"; gt] = DOk (PatChoose "A") [].
Proof. repeat split; vm_compute; reflexivity. Qed.
Notation sym ts := (p_symbol 50 ts).
Example tests_symbols :
  sym [str "a"] = DOk (ASTerminal "a") [] /\
  sym [lt; TIdent "x"; colon; str "a"; gt] = DOk (ASNamed {| nm_mutable := false; nm_name := "x" |} (ASTerminal "a")) [] /\
  sym [lt; TIdent "mut"; TIdent "x"; colon; str "a"; gt] = DOk (ASNamed {| nm_mutable := true; nm_name := "x" |} (ASTerminal "a")) [] /\
  sym [str "x"; TPunct "+" true; TPunct "*" true; TPunct "?" false]
    = DOk (ASRepeat RQuestion (ASRepeat RStar (ASRepeat RPlus (ASTerminal "x")))) [] /\
  sym [TIdent "Expr"] = DOk (ASNonTerminal "Expr") [] /\
  sym [lt; TIdent "exprs"; colon; TIdent "Expr"; TPunct "+" true; gt]
    = DOk (ASNamed {| nm_mutable := false; nm_name := "exprs" |} (ASRepeat RPlus (ASNonTerminal "Expr"))) [].
Proof. repeat split; vm_compute; reflexivity. Qed.
