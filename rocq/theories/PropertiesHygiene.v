(** * PropertiesHygiene: C52, the identifiers of the generated module

    Model: Names.v.  The expansion declares functions, types, variants and methods under identifiers it makes up, next to
    the entry points' names, which the user chose.  When do references mean what they should? *)
From Coq Require Import Ascii.
From Verif Require Import NamesProofs ActionProofs StageProofs.
From Verif Require Export PropertiesCode Findings.
Local Open Scope string_scope. Local Open Scope list_scope.

(** [te] is the token declaration of [items] and [g] the grammar it is lowered to. *)
Definition named {A} (items : list (grammar_item A)) (te : token_enum) (g : grammar (lexpr A)) : Prop :=
  In te (declared_tokens items) /\ lower (declared_nts items) (token_entries items) = Ok g.

(** Names the module takes for itself. *)
Definition own_types : list string := ["LRAction"; "ParseError"; "SemanticActionResult"].
Definition own_values : list string :=
  ["ACTION"; "GOTO"; "token_value"; "SEMANTIC_ACTIONS"; "EXPECTED_TERMINALS"; "TERMINAL_STRS"; "parse_generic"].
Definition taken {A} (te : token_enum) (g : grammar A) (x : string) : Prop :=
  In x own_types \/ In x own_values \/ x = (to_lowercase (te_type_name te) ++ "_terminal_idx")%string \/
  exists i j p, get_production g i j = Some p /\ x = ("nt" ++ decimal i ++ "p" ++ decimal j ++ "_action")%string.
(** A name that cannot be taken, whatever the rest of the grammar. *)
Definition safe_name (te : token_enum) (x : string) : Prop :=
  ~ In x own_types /\ ~ In x own_values /\ x <> (to_lowercase (te_type_name te) ++ "_terminal_idx")%string /\
  forall i j, x <> ("nt" ++ decimal i ++ "p" ++ decimal j ++ "_action")%string.

Lemma NoDup_map_same {X Y} (f : X -> Y) (l : list X) : NoDup (map f l) -> forall a b, In a l -> In b l -> f a = f b -> a = b.
Proof.
  induction l as [|x l IH]; cbn; intros H a b Ha Hb E; [contradiction|]. inversion H as [|? ? H1 H2]; subst.
  destruct Ha as [->|Ha], Hb as [->|Hb]; auto.
  - exfalso. apply H1. rewrite E. apply in_map; auto.
  - exfalso. apply H1. rewrite <- E. apply in_map; auto.
Qed.
Lemma uproduction_of {A} (l : list (ast_non_terminal A)) N p pr : NoDup (map an_name l) -> In N l -> nth_error (an_productions N) p = Some pr ->
  uproduction l (an_name N) p = Some pr.
Proof.
  intros Hnd HN Hp. unfold uproduction. destruct (find _ l) as [M|] eqn:E.
  - apply find_some in E. destruct E as (E1 & E2). apply String.eqb_eq in E2. rewrite (NoDup_map_same an_name l Hnd M N E1 HN); congruence.
  - exfalso. pose proof (find_none _ _ E N HN) as Hc. cbn in Hc. rewrite String.eqb_refl in Hc. discriminate.
Qed.

Section Hygiene.
Context {A : Type}.
Variables (items : list (grammar_item A)) (te : token_enum) (g : grammar (lexpr A)) (gp : generated (lexpr A)).
Hypothesis Hnames : distinct_names items.
Hypothesis Hex : expands items gp.
Hypothesis Hnamed : named items te g.

Lemma hygiene_data : exists ti act tbl states entries ho fuel, lowered (nts items) (cs items) ti g /\ wf_grammar g /\
  generated_ok g (cs items) tbl states entries act gp /\ hash_order_ok ho /\ generate_lr1_parser ho fuel g te = Ok gp /\
  declared_tokens items = [te] /\ cs items = te_conversions te.
Proof.
  destruct (expands_expansion items gp Hex) as (g1 & tbl & states & entries & He).
  destruct (expansion_data items _ _ _ _ _ He) as (ti & act & Hlow & Hwf & Hgen & Hnd & Hsh & ho & fuel & Hho & Hg & Hf & Ha).
  destruct He as (_ & _ & _ & _ & Hl & _). destruct Hnamed as [Ht Hl']. rewrite Hl' in Hl. injection Hl as <-.
  destruct Hex as (ho1 & fuel1 & _ & Hm). pose proof (macro_unfold ho1 fuel1 items) as Hu. rewrite Hm in Hu.
  destruct Hu as (te1 & g1 & Ht1 & _). rewrite Ht1 in Ht. destruct Ht as [->|[]].
  exists ti, act, tbl, states, entries, ho, fuel. rewrite (the_tokens_one _ _ Ht1) in Hg. rewrite (token_entries_one _ _ Ht1) in *. auto 10.
Qed.

Lemma entry_names : Permutation (map pr_name (gp_parsers gp)) (map an_name (filter an_pub (nts items))).
Proof. pose proof (Permutation_map fst (c34_parsers items gp Hnames Hex)) as H. rewrite !map_map in H. exact H. Qed.
Lemma entry_names_nodup : NoDup (map pr_name (gp_parsers gp)).
Proof.
  eapply Permutation_NoDup; [apply Permutation_sym, entry_names|]. unfold distinct_names in Hnames. clear - Hnames.
  induction (nts items) as [|N l IH]; cbn in *; [constructor|]. inversion Hnames as [|? ? H1 H2]; subst.
  destruct (an_pub N); [|auto]. cbn. constructor; [|auto]. intro Hin. apply H1. apply in_map_iff in Hin. destruct Hin as (M & E & HM).
  apply filter_In in HM. apply in_map_iff. exists M. tauto.
Qed.
Lemma entry_name_In x : In x (map pr_name (gp_parsers gp)) <-> exists N, In N (nts items) /\ an_pub N = true /\ an_name N = x.
Proof.
  split.
  - intro H. apply (Permutation_in _ entry_names) in H. apply in_map_iff in H. destruct H as (N & E & H). apply filter_In in H. exists N. tauto.
  - intros (N & H1 & H2 & <-). apply (Permutation_in _ (Permutation_sym entry_names)). apply in_map. apply filter_In. auto.
Qed.

(** Reordered: the module's own values, then the entry points. *)
Definition own_value_items : list string :=
  ["ACTION"; "GOTO"; token_terminal_idx_name te; "token_value"] ++ fn_names g ++
  ["SEMANTIC_ACTIONS"; "EXPECTED_TERMINALS"; "TERMINAL_STRS"; "parse_generic"].
Lemma value_items_eq : value_items te g gp = own_value_items ++ map pr_name (gp_parsers gp).
Proof. unfold value_items, own_value_items. rewrite <- !app_assoc. reflexivity. Qed.
Lemma taken_In x : taken te g x <-> In x own_types \/ In x own_value_items.
Proof.
  unfold taken, own_value_items. rewrite !in_app_iff, fn_names_In. unfold own_values, action_fn_name, token_terminal_idx_name. cbn. split.
  - intros [H|[H|[H|(i & j & p & H1 & H2)]]]; [tauto| |subst; tauto|].
    + intuition (subst; auto 20).
    + right. right. left. exists i, j, p. auto.
  - intros [H|[H|[(i & j & p & H1 & H2)|H]]]; [tauto| | |].
    + intuition (subst; auto 20).
    + right. right. right. exists i, j, p. auto.
    + intuition (subst; auto 20).
Qed.
Lemma own_value_items_nodup : NoDup own_value_items.
Proof.
  assert (Hf : forall x, In x (fn_names g) -> last_char x = Some "n"%char).
  { intros x H. apply fn_names_In in H. destruct H as (i & j & p & -> & _). apply action_fn_last. }
  assert (Hi : last_char (token_terminal_idx_name te) = Some "x"%char) by apply idx_fn_last.
  unfold own_value_items. apply NoDup_app_intro; [|apply NoDup_app_intro|].
  - repeat (apply NoDup_cons; [cbn; intuition (try discriminate; match goal with H : _ = _ |- _ => apply (f_equal last_char) in H; rewrite ?Hi in H; cbn in H; discriminate H end)|]).
    apply NoDup_nil.
  - apply fn_names_nodup.
  - repeat (apply NoDup_cons; [cbn; intuition discriminate|]). apply NoDup_nil.
  - intros x H1 H2. apply Hf in H1. cbn in H2. intuition (subst; discriminate H1).
  - intros x H1 H2. apply in_app_or in H2.
    assert (Hx : last_char x = Some "n"%char \/ In x ["SEMANTIC_ACTIONS"; "EXPECTED_TERMINALS"; "TERMINAL_STRS"; "parse_generic"]) by (destruct H2; auto).
    cbn in H1. destruct H1 as [<-|[<-|[<-|[<-|[]]]]]; rewrite ?Hi in Hx; cbn in Hx;
      (destruct Hx as [Hx|Hx]; [discriminate Hx|]); intuition (try discriminate; match goal with H : _ = token_terminal_idx_name te |- _ => apply (f_equal last_char) in H; rewrite Hi in H; cbn in H; discriminate H end).
Qed.

(** The items of the module have different names (per namespace) exactly if no entry point has a name the module takes
    for itself. *)
Theorem c52_items : NoDup (type_items gp) /\ NoDup (value_items te g gp) <->
  forall N, In N (declared_nts items) -> an_pub N = true -> ~ taken te g (an_name N).
Proof.
  rewrite value_items_eq. unfold type_items. change ["LRAction"; "ParseError"; "SemanticActionResult"] with own_types. split.
  - intros [H1 H2] N HN HNp Ht. assert (Hin : In (an_name N) (map pr_name (gp_parsers gp))) by (apply entry_name_In; eauto).
    apply taken_In in Ht. destruct Ht as [Ht|Ht]; [eapply (NoDup_app_disj _ _ H1)|eapply (NoDup_app_disj _ _ H2)]; eauto.
  - intro H. assert (Hd : forall x, In x (map pr_name (gp_parsers gp)) -> ~ taken te g x).
    { intros x Hx. apply entry_name_In in Hx. destruct Hx as (N & H1 & H2 & <-). auto. }
    split; (apply NoDup_app_intro; [|apply entry_names_nodup|]).
    + unfold own_types. repeat (apply NoDup_cons; [cbn; intuition discriminate|]). apply NoDup_nil.
    + intros x H1 H2. apply (Hd x H2). apply taken_In. auto.
    + apply own_value_items_nodup.
    + intros x H1 H2. apply (Hd x H2). apply taken_In. auto.
Qed.
(** In particular if the entry points have safe names. *)
Corollary c52_safe : (forall N, In N (declared_nts items) -> an_pub N = true -> safe_name te (an_name N)) ->
  NoDup (type_items gp) /\ NoDup (value_items te g gp).
Proof.
  intro H. apply c52_items. intros N HN HNp Ht. destruct (H N HN HNp) as (S1 & S2 & S3 & S4).
  destruct Ht as [Ht|[Ht|[Ht|(i & j & p & _ & Ht)]]]; auto. exact (S4 i j Ht).
Qed.

(** No item hides a name that the module's code takes from outside, exactly if neither an entry point nor (for the types)
    the token type gets in the way. *)
Theorem c52_scope :
  (forall x, (In x (type_items gp) -> ~ In x (outer_types te)) /\ (In x (value_items te g gp) -> ~ In x outer_values)) <->
  ~ In (te_type_name te) own_types /\
  forall N, In N (declared_nts items) -> an_pub N = true ->
    ~ In (an_name N) ["Option"; "Result"; "Vec"; "Iterator"; "Clone"; "u16"; "u32"; "usize"; "str"; te_type_name te] /\
    ~ In (an_name N) ["Some"; "None"; "Ok"; "Err"].
Proof.
  change ["Option"; "Result"; "Vec"; "Iterator"; "Clone"; "u16"; "u32"; "usize"; "str"; te_type_name te] with (outer_types te).
  change ["Some"; "None"; "Ok"; "Err"] with outer_values. rewrite value_items_eq. unfold type_items. change ["LRAction"; "ParseError"; "SemanticActionResult"] with own_types. split.
  - intro H. split.
    + intro Hin. destruct (H (te_type_name te)) as [H1 _]. apply H1; [apply in_or_app; auto|]. unfold outer_types. cbn. tauto.
    + intros N HN HNp. destruct (H (an_name N)) as [H1 H2]. assert (Hin : In (an_name N) (map pr_name (gp_parsers gp))) by (apply entry_name_In; eauto).
      split; [apply H1|apply H2]; apply in_or_app; auto.
  - intros [Ht Hp] x. split; intros Hin Ho; apply in_app_or in Hin; destruct Hin as [Hin|Hin].
    + unfold outer_types in Ho. cbn in Ho, Hin, Ht. intuition (subst; try discriminate; auto).
    + apply entry_name_In in Hin. destruct Hin as (N & H1 & H2 & <-). destruct (Hp N H1 H2). auto.
    + unfold outer_values in Ho. cbn in Ho.
      assert (Hl : last_char x = Some "e"%char \/ last_char x = Some "k"%char \/ last_char x = Some "r"%char) by (intuition (subst; cbn; auto)).
      unfold own_value_items in Hin. rewrite !in_app_iff in Hin. destruct Hin as [Hin|[Hin|Hin]].
      * cbn in Hin. destruct Hin as [<-|[<-|[<-|[<-|[]]]]]; rewrite ?idx_fn_last in Hl; cbn in Hl; try (intuition discriminate).
      * apply fn_names_In in Hin. destruct Hin as (i & j & p & -> & _). rewrite action_fn_last in Hl. intuition discriminate.
      * cbn in Hin. intuition (subst; cbn in *; intuition discriminate).
    + apply entry_name_In in Hin. destruct Hin as (N & H1 & H2 & <-). destruct (Hp N H1 H2). auto.
Qed.

(** The type parameters of the generated functions hide no outer name exactly if the token type is called neither [R] nor [E]. *)
Theorem c52_parameters : (forall x, In x (outer_types te) -> ~ In x type_parameters) <-> te_type_name te <> "R" /\ te_type_name te <> "E".
Proof.
  unfold outer_types, type_parameters. cbn. split.
  - intro H. specialize (H (te_type_name te)). split; intro E; apply H; rewrite E; tauto.
  - intros [H1 H2] x Hx Hp. intuition (subst; try discriminate; congruence).
Qed.

(** The entries of SEMANTIC_ACTIONS are names; each is declared once, as the function the model has at that index. *)
Theorem c52_functions : List.length (fn_names g) = List.length (gp_sem_actions gp) /\
  forall k name, nth_error (fn_names g) k = Some name -> exists f, nth_error (gp_sem_actions gp) k = Some f /\ declared_as name (fn_decls g gp) = [f].
Proof.
  destruct hygiene_data as (ti & act & tbl & states & entries & ho & fuel & _ & _ & _ & _ & Hg & _).
  destruct (fn_named ho fuel g te gp Hg) as (L & H & _). split; [exact L|]. intros k name Hk. destruct (H k name Hk) as (i & j & p & f & _ & _ & Hf & _).
  exists f. split; [exact Hf|]. apply declared_as_In.
  - unfold fn_decls. rewrite map_fst_combine by exact L. apply fn_names_nodup.
  - eapply combine_In_nth; eauto.
Qed.

(** The names of variants and of methods of [SemanticActionResult] are different. *)
Theorem c52_members : NoDup (map fst (result_enum te g)) /\ NoDup (map fst (result_methods te g)).
Proof. split; [apply result_enum_nodup|apply result_methods_nodup]. Qed.

(** The types of the value of a symbol: the extracted parts of a token, or the type of a non-terminal. *)
Definition symbol_types (s : ast_symbol) (tys : list ty) : Prop :=
  match unnamed s with
  | ASTerminal t => exists c, In c (token_entries items) /\ cv_from c = t /\ tys = pattern_types (cv_to c)
  | ASNonTerminal n => exists N, In N (declared_nts items) /\ an_name N = n /\ tys = [an_type N]
  | _ => False
  end.
(** The variant a method extracts from. *)
Definition variant_name (m : extract_method) : string :=
  match m with ExToken i => token_variant_name i | ExNonTerminal v => non_terminal_variant_name v end.
(** A statement that pops the value of symbol [s]: it binds the binder of [s], if any, to what a method extracts; the
    method is declared, once, and extracts from a variant that is declared, once, with the types of [s]. *)
Definition pops_symbol (s : ast_symbol) (st : pop_stmt) : Prop :=
  match binder_of s with
  | None => st = PopIgnore
  | Some x => exists m tys, st = PopBind (nm_mutable x) (nm_name x) m /\
      declared_as (method_name m) (result_methods te g) = [m] /\
      symbol_types s tys /\ declared_as (variant_name m) (result_enum te g) = [tys]
  end.

Lemma nt_type n i : map_get String.eqb n (nt_indices_of (nts items)) = Some i -> forall ti, lowered (nts items) (cs items) ti g ->
  exists N M, In N (nts items) /\ an_name N = n /\ get_non_terminal g i = Some M /\ nt_return_ty M = an_type N.
Proof.
  intros Hi ti Hlow. destruct (nt_indices_inv _ _ _ Hi) as (N & HN & E). destruct (slot_body_nt items ti g Hlow N i HN) as (M & HM & Ht).
  exists N, M. split; [eapply slots_In; eauto|]. auto.
Qed.
Lemma pops_ok ti : lowered (nts items) (cs items) ti g -> cs items = te_conversions te -> forall ss bss pops,
  Forall2 (fun s x => sym_rel (nts items) (cs items) s (bs_symbol x) /\ bs_binder x = binder_of s) ss bss ->
  mapM (pop_code (variant_names g)) bss = Ok pops -> Forall2 pops_symbol ss pops.
Proof.
  intros Hlow Hcs ss bss pops H. revert pops. induction H as [|s x ss bss [Hs Hb] _ IH]; intros pops Hp; cbn in Hp.
  - injection Hp as <-. constructor.
  - apply bind_Ok in Hp. destruct Hp as (st & Hst & Hp). apply bind_Ok in Hp. destruct Hp as (pops' & Hps & Hp). injection Hp as <-.
    constructor; [|auto]. unfold pops_symbol. unfold pop_code in Hst. rewrite Hb in Hst. destruct (binder_of s) as [n|]; [|congruence].
    unfold LowerTrees.sym_rel in Hs. unfold symbol_types. destruct (unnamed s) as [t|nm|op s'|n' s']; try contradiction;
      destruct Hs as (i & Hi & Hx); rewrite Hx in Hst.
    + injection Hst as <-. rewrite nth_error_map in Hi. destruct (nth_error (cs items) i) as [c|] eqn:Ec; [|discriminate]. injection Hi as Hi.
      exists (ExToken i), (pattern_types (cv_to c)). pose proof Ec as Ec'. rewrite Hcs in Ec'. destruct (token_variant_declared te g i c Ec') as [D1 D2].
      split; [reflexivity|]. split; [exact D2|]. split; [|exact D1]. exists c. split; [eapply nth_error_In; eauto|auto].
    + destruct (nt_type nm i Hi ti Hlow) as (N & M & HN & E & HM & Ht).
      destruct (variant_of (variant_names g) i) as [v|] eqn:Ev; [|discriminate]. injection Hst as <-.
      destruct (nt_variant_declared te g i M v HM Ev) as [D1 D2]. exists (ExNonTerminal v), [nt_return_ty M].
      split; [reflexivity|]. split; [exact D2|]. split; [|exact D1]. exists N. split; [auto|]. split; [auto|]. rewrite Ht. reflexivity.
Qed.

(** Every production of the source has a function, declared under its name; its body pops the symbols from right to left
    with declared methods that yield the declared types, and wraps the value of the action in a declared variant that
    holds the non-terminal's type. *)
Theorem c52_typed : forall n p pr N, uproduction (declared_nts items) n p = Some pr -> In N (declared_nts items) -> an_name N = n ->
  exists k name f, nth_error (fn_names g) k = Some name /\ nth_error (gp_sem_actions gp) k = Some f /\
    declared_as name (fn_decls g gp) = [f] /\ sf_action f = EUser (action_expr (ap_action pr)) /\
    Forall2 pops_symbol (rev (ap_symbols pr)) (sf_pops f) /\
    declared_as (non_terminal_variant_name (sf_variant f)) (result_enum te g) = [[an_type N]].
Proof.
  destruct hygiene_data as (ti & act & tbl & states & entries & ho & fuel & Hlow & Hwf & _ & _ & Hg & _ & Hcs).
  intros n p pr N Hp HN Hn. destruct (ActionProofs.uproduction_In items Hnames n p pr Hp) as (N' & i & Hs & Hn' & Hi).
  destruct (production_down _ _ ti g Hlow Hnames _ _ _ _ Hi Hp) as (q & Hq & Hl).
  destruct (lprod_rhs _ _ ti g Hlow _ _ Hl) as (_ & Hact & Hsyms).
  destruct (fn_named ho fuel g te gp Hg) as (_ & _ & Hfn). destruct (Hfn i p q Hq) as (k & f & K1 & K2 & F1 & F2 & F3).
  exists k, (action_fn_name i p), f. split; [exact K1|]. split; [exact K2|].
  destruct (proj2 c52_functions k _ K1) as (f' & K2' & D). assert (f' = f) by congruence; subst f'. split; [exact D|]. split; [congruence|]. split.
  - eapply pops_ok; [exact Hlow|exact Hcs| |exact F3]. apply Forall2_rev_; exact Hsyms.
  - destruct (nt_type n i Hi ti Hlow) as (N2 & M & HN2 & E & HM & Ht).
    rewrite (proj1 (nt_variant_declared te g i M _ HM F2)), Ht. do 3 f_equal. eapply NoDup_map_same; [exact Hnames|exact HN2|exact HN|congruence].
Qed.
(** An entry point names a declared method, which yields the type [parse] returns. *)
Theorem c52_parsers : forall pr, In pr (gp_parsers gp) ->
  declared_as (non_terminal_method_name (pr_extract_variant pr)) (result_methods te g) = [ExNonTerminal (pr_extract_variant pr)] /\
  declared_as (non_terminal_variant_name (pr_extract_variant pr)) (result_enum te g) = [[pr_return_ty pr]].
Proof.
  destruct hygiene_data as (ti & act & tbl & states & entries & ho & fuel & Hlow & Hwf & Hgen & _).
  intros pr Hpr. destruct (gn_parser _ _ _ _ _ _ _ Hgen pr Hpr) as (nt & e & N & f & q & _ & HN & _ & Ht & _ & Hv & _).
  destruct (nt_variant_declared te g nt N _ HN Hv) as [D1 D2]. rewrite Ht. auto.
Qed.

(** [value_stack] means the value stack wherever the functions mention it, exactly if no symbol is bound to that name. *)
Theorem c52_value_stack : (forall f b, In f (gp_sem_actions gp) -> In b (occurrences false (sf_pops f)) -> b = true) <->
  (forall N pr s x, In N (declared_nts items) -> In pr (an_productions N) -> In s (ap_symbols pr) -> binder_of s = Some x -> nm_name x <> "value_stack").
Proof.
  destruct hygiene_data as (ti & act & tbl & states & entries & ho & fuel & Hlow & Hwf & _ & _ & Hg & _ & Hcs).
  split.
  - intros H N pr s x HN Hpr Hs Hx. apply In_nth_error in Hpr. destruct Hpr as (p & Hp).
    assert (Hu : uproduction (nts items) (an_name N) p = Some pr) by (eapply uproduction_of; eauto).
    destruct (c52_typed _ _ _ N Hu HN eq_refl) as (k & name & f & _ & Hf & _ & _ & Hpops & _).
    pose proof (proj1 (occurrences_all (sf_pops f) false) (fun b Hb => H f b (nth_error_In _ _ Hf) Hb)) as [_ Hno].
    apply in_rev in Hs. clear - Hpops Hs Hx Hno. induction Hpops as [|s' st ss pops Hst _ IH]; [contradiction|]. destruct Hs as [->|Hs].
    + unfold pops_symbol in Hst. rewrite Hx in Hst. destruct Hst as (m & tys & -> & _). eapply Hno. left; reflexivity.
    + apply IH; auto. intros m y e Hin. eapply Hno. right; exact Hin.
  - intros H f b Hf. apply In_nth_error in Hf. destruct Hf as (k & Hk). destruct (fn_named ho fuel g te gp Hg) as (L & Hfn & _).
    assert (Hlt : k < List.length (fn_names g)) by (rewrite L; apply nth_error_Some; congruence).
    destruct (nth_error (fn_names g) k) as [name|] eqn:Ek; [|apply nth_error_None in Ek; lia].
    destruct (Hfn k name Ek) as (i & j & q & f' & Hq & _ & Hk' & F1 & F2 & F3). assert (f' = f) by congruence; subst f'.
    apply occurrences_all. split; [reflexivity|]. intros m x e Hin. apply mapM_Forall2 in F3.
    assert (Hbs : exists y, In y (p_symbols q) /\ exists n, bs_binder y = Some n /\ nm_name n = x).
    { clear - F3 Hin. assert (Hr : exists y, In y (rev (p_symbols q)) /\ exists n, bs_binder y = Some n /\ nm_name n = x).
      - induction F3 as [|y st ys sts Hy _ IH]; [contradiction|]. destruct Hin as [->|Hin].
        + exists y. split; [left; reflexivity|]. unfold pop_code in Hy. destruct (bs_binder y) as [n|]; [|discriminate]. exists n. split; auto.
          destruct (bs_symbol y) as [nt|t]; [destruct (variant_of (variant_names g) nt)|]; try discriminate; injection Hy as _ <- _; reflexivity.
        + destruct (IH Hin) as (y' & Hy' & H'). exists y'. split; [right; auto|auto].
      - destruct Hr as (y & Hy & H'). exists y. split; [apply in_rev; auto|auto]. }
    destruct Hbs as (y & Hy & n & Hn & <-).
    destruct (get_production_inv _ _ ti g Hlow _ _ _ Hq) as [(N & i0 & HN & HNp & _ & _ & ->)|(N & i0 & HN & -> & _)].
    + cbn in Hy. destruct Hy as [<-|[]]. cbn in Hn. injection Hn as <-. cbn. discriminate.
    + destruct (production_up _ _ ti g Hlow Hnames _ _ _ _ (slot_index (nts items) Hnames N i0 HN) Hq) as (pr & Hpr & Hl).
      destruct (lprod_rhs _ _ ti g Hlow _ _ Hl) as (_ & _ & Hsyms).
      destruct (Decide.uproduction_In (nts items) _ _ _ Hpr) as (N' & HN' & _ & Hin').
      assert (Hs : exists s, In s (ap_symbols pr) /\ binder_of s = Some n).
      { clear - Hsyms Hy Hn. induction Hsyms as [|s z ss zs [_ Hz] _ IH]; [contradiction|]. destruct Hy as [->|Hy].
        - exists s. split; [left; reflexivity|congruence].
        - destruct (IH Hy) as (s' & H1 & H2). exists s'. split; [right; auto|auto]. }
      destruct Hs as (s & Hs1 & Hs2). eapply H; eauto.
Qed.
End Hygiene.

(** ** Cases *)
Definition arith_te : token_enum := the_tokens arith.
Definition lowered_arith : grammar (lexpr string) :=
  Eval vm_compute in match lower (declared_nts arith) (token_entries arith) with Ok g => g | _ => {| g_nts := []; g_terminals := [] |} end.
Lemma arith_named : named arith arith_te lowered_arith.
Proof. split; [left; reflexivity|reflexivity]. Qed.
Lemma not_in_dec (x : string) l : existsb (String.eqb x) l = false -> ~ In x l.
Proof. intros H Hin. assert (Ht : existsb (String.eqb x) l = true) by (apply existsb_exists; exists x; split; [auto|apply String.eqb_refl]). congruence. Qed.
Lemma not_action x i j : last_char x <> Some "n"%char -> x <> ("nt" ++ decimal i ++ "p" ++ decimal j ++ "_action")%string.
Proof. intros H E. apply H. rewrite E. exact (action_fn_last i j). Qed.
(** The entry point [E] of the arithmetic grammar has a safe name, so the items do not clash. *)
Example case_c52 : NoDup (type_items arith_gp) /\ NoDup (value_items arith_te lowered_arith arith_gp).
Proof.
  apply (c52_safe arith arith_te lowered_arith arith_gp arith_names arith_expands).
  intros N HN HNp. cbn in HN. assert (Hn : an_name N = "E") by (intuition (subst; try discriminate; auto)). rewrite Hn.
  split; [apply not_in_dec; reflexivity|]. split; [apply not_in_dec; reflexivity|]. split; [discriminate|]. intros i j. apply not_action. discriminate.
Qed.
Example case_c52_scope : forall x, In x (type_items arith_gp) -> ~ In x (outer_types arith_te).
Proof.
  intro x. refine (proj1 (proj2 (c52_scope arith arith_te lowered_arith arith_gp arith_names arith_expands) _ x)).
  split; [apply not_in_dec; reflexivity|]. intros N HN HNp. cbn in HN.
  assert (Hn : an_name N = "E") by (intuition (subst; try discriminate; auto)). rewrite Hn. split; apply not_in_dec; reflexivity.
Qed.
(** [E1 -> E1 "+" T]: function [nt2p0_action], which pops [t] as the value of [T] and [e] as that of [E1]. *)
Example case_c52_typed : exists f, declared_as "nt2p0_action" (fn_decls lowered_arith arith_gp) = [f] /\ sf_action f = EUser "e + t" /\
  map (fun st => match st with PopBind _ x m => (x, method_name m) | PopIgnore => ("", "") end) (sf_pops f) =
    [("t", "non_terminal_0"); ("", ""); ("e", "non_terminal_0")] /\
  declared_as "NonTerminal0" (result_enum arith_te lowered_arith) = [["u64"]].
Proof. eexists. split; [reflexivity|]. repeat split; reflexivity. Qed.
Example case_c52_value_stack : forall f b, In f (gp_sem_actions arith_gp) -> In b (occurrences false (sf_pops f)) -> b = true.
Proof.
  apply (c52_value_stack arith arith_te lowered_arith arith_gp arith_names arith_expands arith_named).
  intros N pr s x HN Hpr Hs Hx. cbn in HN.
  repeat (destruct HN as [HN|HN]; [subst N; cbn in Hpr; repeat (destruct Hpr as [Hpr|Hpr]; [subst pr; cbn in Hs; repeat (destruct Hs as [Hs|Hs]; [subst s; cbn in Hx; first [discriminate Hx|injection Hx as <-; discriminate]|]); contradiction|]); contradiction|]). contradiction.
Qed.

(** What "lowercased" means in [taken] and [safe_name]: letter by letter. *)
Definition lowered_char (c d : ascii) : Prop :=
  (exists i, String.get i "ABCDEFGHIJKLMNOPQRSTUVWXYZ" = Some c /\ String.get i "abcdefghijklmnopqrstuvwxyz" = Some d) \/
  ((forall i, String.get i "ABCDEFGHIJKLMNOPQRSTUVWXYZ" <> Some c) /\ d = c).
Theorem c52_lowercase s : String.length (to_lowercase s) = String.length s /\
  forall i c, String.get i s = Some c -> exists d, String.get i (to_lowercase s) = Some d /\ lowered_char c d.
Proof.
  assert (Hch : forall c, lowered_char c (lower_char c)).
  { intro c. unfold lowered_char. destruct c as [[] [] [] [] [] [] [] []];
      first [ right; split; [intros i Hi; do 26 (destruct i as [|i]; [discriminate Hi|]); discriminate Hi|reflexivity]
            | left; let rec go n := first [exists n; split; reflexivity | go (S n)] in go 0 ]. }
  induction s as [|a s [IH1 IH2]]; cbn.
  - split; [reflexivity|]. intros [|i] c H; discriminate.
  - split; [congruence|]. intros [|i] c H; cbn in *; [injection H as <-; eauto|auto].
Qed.
Example case_c52_lowercase : token_terminal_idx_name {| te_type_name := "MyToken_Z9"; te_lifetimes := []; te_conversions := [] |} = "mytoken_z9_terminal_idx".
Proof. reflexivity. Qed.
Example case_c52_parameters : forall x, In x (outer_types arith_te) -> ~ In x type_parameters.
Proof. apply c52_parameters. split; vm_compute; discriminate. Qed.
(** The macro accepts a token type called [E]; in [fn parse<E: Clone>] that name means the type of lexer errors. *)
Definition token_named_E : list (grammar_item string) :=
  [ GITokenEnum {| te_type_name := "E"; te_lifetimes := []; te_conversions := [unit_tok "a" "E::A"] |}; rule true "S" "()" [([$ "a"], "()")] ].
Theorem c52_parameters_refuted : ~ (forall (items : list (grammar_item string)) gp te g, distinct_names items -> expands items gp -> named items te g ->
  forall x, In x (outer_types te) -> ~ In x type_parameters).
Proof.
  intro H. assert (He : expands token_named_E (module_of token_named_E)) by expand_it. assert (Hd : distinct_names token_named_E) by prove_distinct.
  destruct (lower (declared_nts token_named_E) (token_entries token_named_E)) as [g| |] eqn:Eg; [|vm_compute in Eg; discriminate..].
  refine (H token_named_E _ _ g Hd He (conj (or_introl eq_refl) Eg) "E" _ _); cbn; tauto.
Qed.

(** ** Refutations of the unrestricted claims *)

(** A grammar with an entry point called [ParseError] is expanded, but the module then declares that type twice. *)
Definition own_name : list (grammar_item string) :=
  [ tokens [unit_tok "a" "Token::A"]; rule true "ParseError" "()" [([$ "a"], "()")] ].
Theorem c52_clash_refuted : ~ (forall (items : list (grammar_item string)) gp, distinct_names items -> expands items gp -> NoDup (type_items gp)).
Proof.
  intro H. assert (He : expands own_name (module_of own_name)) by expand_it. assert (Hd : distinct_names own_name) by prove_distinct.
  specialize (H own_name _ Hd He). vm_compute in H. inversion H as [|? ? _ H1]; subst. inversion H1 as [|? ? H2 _]; subst. apply H2. cbn. tauto.
Qed.
(** A symbol may be bound to the name [value_stack]: the function then pushes onto the popped value. *)
Definition stack_name : list (grammar_item string) :=
  [ tokens [unit_tok "a" "Token::A"]; rule true "S" "()" [(["value_stack" ::= $ "a"], "()")] ].
Theorem c52_value_stack_refuted : ~ (forall (items : list (grammar_item string)) gp, distinct_names items -> expands items gp ->
  forall f b, In f (gp_sem_actions gp) -> In b (occurrences false (sf_pops f)) -> b = true).
Proof.
  intro H. assert (He : expands stack_name (module_of stack_name)) by expand_it. assert (Hd : distinct_names stack_name) by prove_distinct.
  specialize (H stack_name _ Hd He). vm_compute in H. specialize (H _ false (or_introl eq_refl) (or_intror (or_introl eq_refl))). discriminate H.
Qed.
