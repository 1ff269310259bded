(** * PropertiesMemory: C71, how many entries the stacks of a parser hold

    Vocabulary: MemorySpec.v (left parts of a parse tree, heights), InterleaveSpec.v, Effects.v, USpec.v.  [xs_values] is the value
    stack, [xs_states] the state stack. *)
From Verif Require Import MemoryProofs Decide InterleaveProofs ComputedProofs PropertiesHygiene.
From Verif Require Export MemorySpec PropertiesInterleave.
Local Open Scope string_scope. Local Open Scope list_scope.

Section Any.
Context {A : Type}.
Variable items : list (grammar_item A).
Variable gp : generated (lexpr A).
Variable pr : parser_struct.
Hypothesis Hp : parser_of items gp pr.
Context {E V St : Type}.
Variable inj : rval -> V.
Variable usem : A -> list (string * bval V) -> St -> completion V * St.   (* the user's actions *)
Variable next : St -> option (option (rval + E)) * St.                    (* the user's iterator *)
Variable clone : E -> St -> option E * St.                                (* [Clone] of the lexer's errors *)
Hypothesis Hnr : no_return usem.
Notation xparse := (x_parse gp (user_xenv gp inj usem next clone)).
Notation Plays := (plays (nts items) (fields items inj) usem next).
Notation tree t := (utree_of (nts items) (class items) t (ASNonTerminal (pr_name pr))).
Notation machine n u := (effects_machine items gp pr Hp E V St inj usem next clone Hnr n u).

(** The state stack always has one entry more than the value stack. *)
Theorem c71_stacks n u st : xparse n pr u = inl st -> List.length (xs_states st) = S (List.length (xs_values st)).
Proof.
  intro H. destruct (machine n u) as (y & _ & _ & Hy). rewrite H in Hy. destruct y as [c|o]; [|contradiction].
  destruct Hy as (_ & _ & E3 & ->). apply (f_equal (@List.length _)) in E3. rewrite !map_length in E3. congruence.
Qed.

(** If the grammar has a height, the stacks are bounded, whatever is parsed. *)
Theorem c71_height h : stack_height (nts items) h -> forall n u st, xparse n pr u = inl st ->
  List.length (xs_values st) <= Nat.max 1 (h (pr_name pr)).
Proof.
  intros Hh n u st H. destruct (machine n u) as (y & Hm & _ & Hy). rewrite H in Hy. destruct y as [c|o]; [|contradiction].
  destruct Hy as (_ & _ & E3 & _). apply (f_equal (@List.length _)) in E3. rewrite !map_length in E3. rewrite E3.
  unfold einit in Hm. destruct (next u) as [[tk0|] u0]; [|exfalso; clear - Hm; inversion Hm].
  refine (height_moves _ _ _ _ _ _ _ _ _ _ (height_bound _ _ _ Hh) _ _ _ Hm _). cbn [ec_stack List.length]. apply Nat.le_0_l.
Qed.

(** Without empty productions the value stack has fewer entries than [next()] has returned results. *)
Theorem c71_tokens log n u st : no_empty_production (nts items) -> records usem next clone log -> xparse n pr u = inl st ->
  exists rs, log (xs_user st) = log u ++ rs /\ List.length (xs_values st) < List.length rs.
Proof.
  intros Hne Hr H. destruct (c70_running items gp pr Hp inj usem next clone Hnr n u st H) as (tk0 & u0 & forest & syms & rest & En & Hf & Hplay & _).
  destruct (proj2 (plays_log (nts items) (fields items inj) usem next clone log Hr) _ _ _ _ _ _ Hplay) as (rs & El & Elen).
  exists (tk0 :: rs). rewrite El, (rc_next _ _ _ _ Hr _ _ _ En), <- app_assoc. split; [reflexivity|].
  pose proof (proj2 (yield_nonempty (nts items) (class items) Hne) _ _ Hf) as Hy.
  pose proof (plays_length _ _ _ _ _ _ _ _ _ _ Hplay) as Hl. rewrite rev_length, map_length in Hl. cbn [List.length]. rewrite Hl, Elen.
  apply le_n_S. exact Hy.
Qed.

(** During a run that returns a value, the numbers of entries the value stack has are exactly the lengths of the left parts of the
    parse tree that the run walks. *)
Theorem c71_exact m u v u' : xparse m pr u = inr (XOutcome (POk v) u') ->
  exists t tk0 u0, tree t /\ next u = (Some tk0, u0) /\ Plays t tk0 u0 (BVal v) None u' /\
    forall k, (exists n st, xparse n pr u = inl st /\ List.length (xs_values st) = k) <-> (exists f, left_part t f /\ List.length f = k).
Proof.
  intro H. destruct (machine m u) as (y & Hm & _ & Hy). rewrite H in Hy. destruct y as [c|o]; [contradiction|]. subst o.
  assert (Hu : forall n y, emoves_by (nts items) (ffirst (computed items)) (map cv_from (cs items)) (class items) (fields items inj) usem next clone (pr_name pr) n (einit next u) y ->
    match xparse n pr u, y with
    | inl st, inl c => List.length (xs_values st) = List.length (ec_stack c)
    | inr o, inr o' => o = o'
    | _, _ => False
    end).
  { intros n y Hn. destruct (machine n u) as (y0 & _ & Hun & Hy). rewrite (Hun _ Hn). destruct (xparse n pr u) as [st|o], y0 as [c|o']; auto.
    destruct Hy as (_ & _ & E3 & _). apply (f_equal (@List.length _)) in E3. rewrite !map_length in E3. exact E3. }
  assert (Hun : forall n y y', emoves_by (nts items) (ffirst (computed items)) (map cv_from (cs items)) (class items) (fields items inj) usem next clone (pr_name pr) n (einit next u) y ->
    emoves_by (nts items) (ffirst (computed items)) (map cv_from (cs items)) (class items) (fields items inj) usem next clone (pr_name pr) n (einit next u) y' -> y = y').
  { intros n y y' H1 H2. destruct (machine n u) as (y0 & _ & Hq & _). rewrite (Hq _ H1), (Hq _ H2). reflexivity. }
  assert (Hex : forall n, exists y, emoves_by (nts items) (ffirst (computed items)) (map cv_from (cs items)) (class items) (fields items inj) usem next clone (pr_name pr) n (einit next u) y).
  { intro n. destruct (machine n u) as (y0 & Hq & _). eauto. }
  unfold einit in *. destruct (next u) as [[tk0|] u0] eqn:En; [|exfalso; clear - Hm; inversion Hm].
  destruct (accepts_from _ _ _ _ _ _ _ _ _ _ _ _ _ Hm (ex_intro _ _ eq_refl)) as (k & ck & HSk & Hk & Es & Et & Eu).
  destruct (history _ _ _ _ _ _ _ _ _ tk0 u0 k _ _ [] Hk) as (Fk & Hhk & Hall); [split; constructor|].
  pose proof (holds_length _ _ _ _ _ _ _ _ _ Hhk) as Hlen. rewrite Es in Hlen. destruct Fk as [|t [|]]; try discriminate.
  destruct Hhk as (Hf & Hplay). rewrite Es, Et, Eu in *. cbn in Hf, Hplay.
  exists t, tk0, u0. split; [inversion Hf; assumption|]. split; [reflexivity|]. split.
  { inversion Hplay; subst. match goal with Hx : InterleaveSpec.plays_all _ _ _ _ [] _ _ _ _ _ |- _ => inversion Hx; subst end. assumption. }
  intro d. split.
  - intros (n & st & Hst & <-). destruct (Hex n) as (y & Hy). pose proof (Hu _ _ Hy) as Hl. rewrite Hst in Hl. destruct y as [c|o]; [|contradiction].
    destruct (Nat.le_gt_cases n k) as [Hle|Hgt].
    + destruct (Hall n Hle) as (cn & Fn & H1 & H2 & _ & H4). pose proof (Hun _ _ _ Hy H1) as Ec. injection Ec as <-.
      exists Fn. split; [exact (left_part_path _ _ _ H4)|]. rewrite Hl. exact (holds_length _ _ _ _ _ _ _ _ _ H2).
    + pose proof (moves_longer _ _ _ _ _ _ _ _ _ _ _ _ HSk n Hgt) as H1. pose proof (Hun _ _ _ Hy H1). discriminate.
  - intros (f & Hlp & <-). destruct (left_part_reaches _ _ Hlp []) as (j & Hj). cbn in Hj.
    destruct (Hall k (le_n k)) as (_ & Fk & _ & _ & P1 & P2). rewrite Nat.sub_diag in P2. inversion P2; subst.
    pose proof (path_from_nil _ _ _ _ P1 Hj) as Hle.
    destruct (Hall (k - j) (Nat.le_sub_l k j)) as (cn & Fn & H1 & H2 & _ & H4).
    assert (Ej : k - (k - j) = j) by (clear - Hle; lia). rewrite Ej in H4. rewrite <- (path_back _ _ _ _ H4 Hj).
    pose proof (Hu _ _ H1) as Hl. destruct (xparse (k - j) pr u) as [st|o] eqn:Ex; [|contradiction].
    exists (k - j), st. split; [exact Ex|]. rewrite Hl. symmetry. exact (holds_length _ _ _ _ _ _ _ _ _ H2).
Qed.
End Any.

(** *** Which grammars have bounded stacks: those whose only recursion is left recursion. *)
Theorem c71_flat {A} (items : list (grammar_item A)) gp pr : parser_of items gp pr -> ~ nests (nts items) (pr_name pr) ->
  exists B, forall (E V St : Type) (inj : rval -> V) (usem : A -> list (string * bval V) -> St -> completion V * St)
    (next : St -> option (option (rval + E)) * St) (clone : E -> St -> option E * St) n u st, no_return usem ->
    x_parse gp (user_xenv gp inj usem next clone) n pr u = inl st -> List.length (xs_values st) <= B.
Proof.
  intros Hp Hno. destruct (flat_bound (nts items) (pr_name pr) Hno) as (B & HB). exists B.
  intros E V St inj usem next clone n u st Hnr H. destruct (effects_machine items gp pr Hp E V St inj usem next clone Hnr n u) as (y & Hm & _ & Hy).
  rewrite H in Hy. destruct y as [c|o]; [|contradiction]. destruct Hy as (_ & _ & E3 & _). apply (f_equal (@List.length _)) in E3. rewrite !map_length in E3. rewrite E3.
  unfold einit in Hm. destruct (next u) as [[tk0|] u0]; [|exfalso; clear - Hm; inversion Hm].
  refine (height_moves _ _ _ _ _ _ _ _ _ _ HB _ _ _ Hm _). cbn [ec_stack List.length]. apply Nat.le_0_l.
Qed.
(** Otherwise (LR(1), plain tails, no useless symbols) some token strings need stacks as large as one likes, whatever the actions. *)
Theorem c71_nested {A} (items : list (grammar_item A)) gp pr : parser_of items gp pr -> ulr1_grammar (nts items) -> tails_plain (nts items) ->
  no_useless_symbol (nts items) (class items) -> nests (nts items) (pr_name pr) ->
  forall B, exists toks, forall (E V W I : Type) (inj : rval -> V) (usem : A -> list (string * bval V) -> W -> option (V * W))
    (next : I -> option (rval + E) * I) it it' w, (forall a b x, usem a b x <> None) -> feeds_then next it toks None it' ->
    exists n st, x_parse gp (user_xenv gp inj (pure_sem usem) (pure_next next) pure_clone) n pr (it, w) = inl st /\ B <= List.length (xs_values st).
Proof.
  intros Hp Hlr Htp Huse (i & m & k & H1 & H2) B. destruct (nested_tree _ _ Huse _ _ H2 B) as (tm & Htm & f & Hf & Hl).
  destruct (inside_tree _ _ Huse _ _ _ H1 tm Htm) as (t & Ht & Hlp). destruct (Hlp f Hf) as (f' & Hf' & Hl').
  exists (uyield t). intros E V W I inj usem next it it' w Htot (it1 & Hfeeds & Hend).
  destruct (next it) as [tk0 it0] eqn:En.
  destruct (proj1 (pure_plays (nts items) (class items) (fields items inj) usem next Htot) _ _ Ht it it1 tk0 it0 w Hfeeds En) as (b & w' & Hplay & Hb).
  destruct (Hb _ eq_refl) as (v & ->). rewrite Hend in Hplay. cbn [fst snd] in Hplay.
  destruct (c70_complete items gp pr Hp inj (pure_sem usem) (pure_next next) pure_clone (pure_no_return usem) t (it, w) tk0 (it0, w) v (it', w') Hlr Htp Ht
    (pure_next_eq _ _ _ _ _ En) Hplay) as (n & Hrun).
  destruct (c71_exact items gp pr Hp inj (pure_sem usem) (pure_next next) pure_clone (pure_no_return usem) n (it, w) v (it', w') Hrun)
    as (t' & tk0' & u0' & Ht' & En' & Hplay' & Hall).
  rewrite (pure_next_eq _ _ _ _ _ En) in En'. injection En' as <- <-.
  destruct (proj1 (pure_plays_feeds (nts items) (fields items inj) usem next) _ _ _ _ _ _ Hplay' it En) as (it2 & Hf2 & Hn2). cbn [fst] in Hn2.
  assert (t = t').
  { refine (c13_unambiguous items gp pr inj usem next Hp t t' Hlr Ht Ht' _). exact (feeds_ends _ _ _ _ _ _ _ _ Hfeeds Hend Hf2 Hn2). }
  subst t'. destruct (proj2 (Hall (List.length f')) (ex_intro _ f' (conj Hf' eq_refl))) as (n' & st & Hst & Hls).
  exists n', st. split; [exact Hst|]. rewrite Hls, Hl'. apply Nat.le_trans with (List.length f); [exact Hl|apply Nat.le_add_l].
Qed.
Theorem c71_bounded {A} (items : list (grammar_item A)) gp pr : parser_of items gp pr -> ulr1_grammar (nts items) -> tails_plain (nts items) ->
  no_useless_symbol (nts items) (class items) ->
  (exists B, forall (E V St : Type) (inj : rval -> V) (usem : A -> list (string * bval V) -> St -> completion V * St)
    (next : St -> option (option (rval + E)) * St) (clone : E -> St -> option E * St) n u st, no_return usem ->
    x_parse gp (user_xenv gp inj usem next clone) n pr u = inl st -> List.length (xs_values st) <= B) <->
  ~ nests (nts items) (pr_name pr).
Proof.
  intros Hp Hlr Htp Huse. split; [|exact (c71_flat items gp pr Hp)]. intros (B & HB) Hn.
  destruct (c71_nested items gp pr Hp Hlr Htp Huse Hn (S B)) as (toks & Ht).
  set (nx := fun l : list rval => match l with [] => (None, []) | x :: l' => (Some (@inl rval unit x), l') end).
  destruct (Ht unit unit unit (list rval) (fun _ => tt) (fun _ _ x => Some (tt, x)) nx toks [] tt) as (n & st & Hst & Hle).
  - discriminate.
  - exists []. split; [|reflexivity]. clear. induction toks as [|x l IH]; [constructor|]. econstructor; [reflexivity|exact IH].
  - pose proof (HB _ _ _ _ _ _ _ _ _ _ (pure_no_return _) Hst) as Hle'. exact (Nat.nle_succ_diag_l _ (Nat.le_trans _ _ _ Hle Hle')).
Qed.

(** The stacks grow at most linearly (on the grammars of C58 whose parsers are linear). *)
Theorem c71_linear {A} (items : list (grammar_item A)) gp : distinct_names items -> plain_patterns items -> expands items gp ->
  tails_productive (nts items) -> tails_plain (nts items) \/ empty_direct (nts items) \/ ulr1_grammar (nts items) ->
  exists K, forall (E V St : Type) (inj : rval -> V) (usem : A -> list (string * bval V) -> St -> completion V * St)
    (next : St -> option (option (rval + E)) * St) (clone : E -> St -> option E * St) log pr n u st,
    In pr (gp_parsers gp) -> no_return usem -> records usem next clone log -> x_parse gp (user_xenv gp inj usem next clone) n pr u = inl st ->
    exists rs, log (xs_user st) = log u ++ rs /\ List.length (xs_values st) <= K * List.length rs.
Proof.
  intros Hnames Hplain Hex Hprod Hcond. destruct (c58_linear items gp Hnames Hplain Hex Hprod Hcond) as (K & HK). exists K.
  intros E V St inj usem next clone log pr n u st Hpr Hnr Hr H.
  destruct (proj1 (HK E V St inj usem next clone pr u Hpr Hnr) log n st Hr H) as (rs & El & Hn). exists rs. split; [exact El|].
  apply Nat.le_trans with n; [|exact Hn].
  destruct (effects_machine items gp pr (conj Hnames (conj Hplain (conj Hex Hpr))) E V St inj usem next clone Hnr n u) as (y & Hm & _ & Hy).
  rewrite H in Hy. destruct y as [c|o]; [|contradiction]. destruct Hy as (_ & _ & E3 & _). apply (f_equal (@List.length _)) in E3. rewrite !map_length in E3. rewrite E3.
  unfold einit in Hm. destruct (next u) as [[tk0|] u0]; [|exfalso; clear - Hm; inversion Hm].
  exact (moves_grow _ _ _ _ _ _ _ _ _ _ _ _ Hm).
Qed.

(** *** Cases.  The left-recursive list of C56: at most four entries, however long the input. *)
Definition cdecl_height (n : string) : nat := if String.eqb n "S" then 3 else 4.
(** Checking a height by evaluation. *)
Definition height_check {A} (nts : list (ast_non_terminal A)) (h : string -> nat) : bool :=
  all_productions nts (fun n q => Nat.leb (List.length (ap_symbols q)) (h n) &&
    forallb (fun k => match nth_error (body q) k with Some (ASNonTerminal C) => Nat.leb (k + h C) (h n) | _ => true end) (seq 0 (List.length (body q)))).
Lemma height_check_ok {A} (l : list (ast_non_terminal A)) h : height_check l h = true -> stack_height l h.
Proof.
  intros Hc n p q H. pose proof (all_productions_spec l _ n p q Hc H) as Hb. cbn beta in Hb. apply andb_prop in Hb. destruct Hb as (H1 & H2).
  split; [apply Nat.leb_le; exact H1|]. intros k C Hk. rewrite forallb_forall in H2. specialize (H2 k). rewrite Hk in H2. apply Nat.leb_le, H2.
  apply in_seq. split; [apply Nat.le_0_l|]. apply nth_error_Some. rewrite Hk. discriminate.
Qed.
Example case_c71_height n u st : x_parse cdecl_gp (user_xenv cdecl_gp (fun v => v) c_sem c_next c_clone) n cdecl_P u = inl st ->
  List.length (xs_values st) <= 4.
Proof.
  exact (c71_height cdecl cdecl_gp cdecl_P cdecl_parser (fun v => v) c_sem c_next c_clone c_no_return cdecl_height
    (height_check_ok (nts cdecl) cdecl_height eq_refl) n u st).
Qed.
(** Four entries are needed: [L typedef id ;]. *)
Example case_c71_height_reached : exists n st, c_parse n ["typedef"; "x"; ";"] = inl st /\ List.length (xs_values st) = 4.
Proof. exists 4. eexists. split; [vm_compute; reflexivity|reflexivity]. Qed.

(** A right-recursive list: after reading all of its tokens the stack holds every one of them. *)
Definition rlist : list (grammar_item string) :=
  [ tokens [unit_tok "x" "Token::X"]; rule true "L" "()" [([$"x"; #"L"], "more"); ([$"x"], "last")] ].
Definition rlist_gp : generated (lexpr string) := Eval vm_compute in module_of rlist.
Definition rlist_L : parser_struct := Eval vm_compute in parser_named rlist_gp "L".
Lemma rlist_parser : parser_of rlist rlist_gp rlist_L. Proof. prove_parser_of. Qed.
Lemma rlist_no_empty : no_empty_production (nts rlist).
Proof.
  intros n p q H Hs. pose proof (all_productions_spec (nts rlist) (fun _ q => match ap_symbols q with [] => false | _ => true end) n p q eq_refl H) as Hc.
  cbn beta in Hc. rewrite Hs in Hc. discriminate.
Qed.
Lemma rlist_plain : tails_plain (nts rlist). Proof. exact (UserLr1.no_empty_tails_plain _ rlist_no_empty). Qed.
Lemma rlist_lr1 : ulr1_grammar (nts rlist).
Proof.
  destruct (automaton rlist) as [[[[g tbl] states] entries]| |] eqn:E; [|vm_compute in E; discriminate..].
  eapply automaton_clean; [exact (proj1 rlist_parser)|exact rlist_plain|exact E|]. vm_compute in E. injection E as <- <- <- <-. vm_compute. reflexivity.
Qed.
Lemma rlist_useful : no_useless_symbol (nts rlist) (class rlist).
Proof.
  assert (Hx : utree_of (nts rlist) (class rlist) (ULeaf (RVUnit "Token::X")) ($"x")) by (constructor; reflexivity).
  intros n p q s H Hin. destruct (Decide.uproduction_In (nts rlist) n p q H) as (N & HN & _ & Hq). cbn in HN. destruct HN as [<-|[]]. cbn in Hq.
  destruct Hq as [<-|[<-|[]]]; cbn in Hin; repeat (destruct Hin as [<-|Hin]); try contradiction; eexists; try exact Hx.
  eapply (ut_node _ _ "L" 1 [ULeaf (RVUnit "Token::X")]); [reflexivity|]. constructor; [exact Hx|constructor].
Qed.
Lemma rlist_nests : nests (nts rlist) "L".
Proof. exists 0, "L", 0. split; [constructor|]. eapply (in_down _ _ 0 _ 1 _ 0); [reflexivity|reflexivity|constructor]. Qed.
Example case_c71_nested B : exists toks, forall (I : Type) (next : I -> option (rval + unit) * I) it it', feeds_then next it toks None it' ->
  exists n st, x_parse rlist_gp (user_xenv rlist_gp (fun v => v) (pure_sem (fun _ _ w => Some (RVTuple [], w))) (pure_next next) pure_clone) n rlist_L (it, tt) = inl st /\
    B <= List.length (xs_values st).
Proof.
  destruct (c71_nested rlist rlist_gp rlist_L rlist_parser rlist_lr1 rlist_plain rlist_useful rlist_nests B) as (toks & H). exists toks.
  intros I next it it' Hf. apply (H unit rval unit I (fun v => v) (fun _ _ w => Some (RVTuple [], w)) next it it' tt); [discriminate|exact Hf].
Qed.
(** The list of C56 does not nest, so c71_flat applies to it too. *)
Example case_c71_flat : ~ nests (nts cdecl) "P".
Proof.
  intros (i & n & k & _ & H). pose proof (height_inside (nts cdecl) cdecl_height (height_check_ok (nts cdecl) cdecl_height eq_refl) _ _ _ H) as Hk.
  clear - Hk. lia.
Qed.
(** Exactly: for [x x x] the sizes of the value stack are the lengths of the left parts of a parse tree of [x x x]. *)
Definition r_parse n l := x_parse rlist_gp (user_xenv rlist_gp (fun v => v) (pure_sem (fun _ _ w => Some (RVTuple [], w))) (pure_next vec_next) pure_clone) n rlist_L (l, tt).
Example case_c71_exact : exists t, utree_of (nts rlist) (class rlist) t (ASNonTerminal "L") /\ uyield t = [RVUnit "Token::X"; RVUnit "Token::X"; RVUnit "Token::X"] /\
  forall k, (exists n st, r_parse n [ok "Token::X"; ok "Token::X"; ok "Token::X"] = inl st /\ List.length (xs_values st) = k) <-> (exists f, left_part t f /\ List.length f = k).
Proof.
  assert (H : r_parse 10 [ok "Token::X"; ok "Token::X"; ok "Token::X"] = inr (XOutcome (POk (RVTuple [])) ([], tt))) by (vm_compute; reflexivity).
  destruct (c71_exact rlist rlist_gp rlist_L rlist_parser (fun v => v) _ _ _ (pure_no_return _) _ _ _ _ H) as (t & tk0 & u0 & Ht & En & Hplay & Hall).
  exists t. split; [exact Ht|]. split; [|exact Hall]. cbn in En. injection En as <- <-.
  destruct (proj1 (pure_plays_feeds _ _ _ _) _ _ _ _ _ _ Hplay [ok "Token::X"; ok "Token::X"; ok "Token::X"] eq_refl) as (it1 & Hf & Hn).
  refine (feeds_ends vec_next _ _ it1 _ [] _ [] Hf Hn _ eq_refl). repeat (econstructor; try reflexivity).
Qed.
(** Fewer entries than results of [next()], with any user code that is made to record them. *)
Example case_c71_tokens n l st :
  x_parse rlist_gp (user_xenv rlist_gp (fun v => v) (rec_sem (pure_sem (fun _ _ w => Some (RVTuple [], w)))) (rec_next (pure_next vec_next)) (rec_clone pure_clone)) n rlist_L ((l, tt), []) = inl st ->
  List.length (xs_values st) < List.length (snd (xs_user st)).
Proof.
  intro H. destruct (c71_tokens rlist rlist_gp rlist_L rlist_parser (fun v => v) _ _ _ (EffectsReplay.rec_no_return _ (pure_no_return _)) snd n _ _ rlist_no_empty (EffectsReplay.rec_records _ _ _) H) as (rs & E & Hl).
  cbn [snd] in E. rewrite E. exact Hl.
Qed.
Example case_c71_linear : exists K, forall n ws st, c_parse n ws = inl st -> List.length (xs_values st) <= K * List.length (c_log (xs_user st)).
Proof.
  destruct (c71_linear cdecl cdecl_gp) as (K & HK); try solve [apply cdecl_parser].
  - exact cdecl_reliable.
  - left. exact cdecl_plain.
  - exists K. intros n ws st H. assert (Hpr : In cdecl_P (gp_parsers cdecl_gp)) by apply cdecl_parser.
    destruct (HK string rval cst (fun v => v) c_sem c_next c_clone c_log cdecl_P n _ st Hpr c_no_return c_records H) as (rs & E & Hl).
    cbn [c_log] in E. rewrite E. exact Hl.
Qed.
