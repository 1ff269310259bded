(** * PropertiesEmit: the text of the emitted module (C64-C66)

    Vocabulary: Rust.v (a fragment of Rust and its interpreter; it knows nothing of parsers), Emit.v (the [quote!]
    templates), EmitSpec.v ([usable_names], [bindable], results as Rust values), Names.v ([named]), Effects.v. *)
From Coq Require Import NArith Ascii.
From Verif Require Import NamesProofs StageProofs PropertiesHygiene EmitBinds EffectsProofs AddedProofs PropertiesEffects.
From Verif Require Export EmitSpec.
Local Open Scope string_scope. Local Open Scope list_scope.

(** User code as in Runtime.v: an iterator and a world apart from it, and only actions panic; an action sees the
    Rust values of its variables. *)
Definition pure_user {A E V W I} (part : rval -> V) (uact : A -> list (string * val E V) -> W -> option (V * W))
  (next : I -> option (rval + E) * I) : user A E V (I * W) :=
  {| us_action := fun a l u => match uact a l (snd u) with Some (v, w) => (Value v, (fst u, w)) | None => (Panicked, u) end;
     us_part := part;
     us_next := pure_next next;
     us_clone := pure_clone |}.
(** Its actions in terms of bindings *)
Definition on_bindings {A E V W} (uact : A -> list (string * val E V) -> W -> option (V * W))
  (a : A) (b : list (string * bval V)) (w : W) : option (V * W) := uact a (map (fun '(x, y) => (x, bval_val y)) b) w.
(** [Ok(v)] *)
Definition ok_val {E V} (v : V) : val E V := VCon "Result" "Ok" [VUser v].
(** How a run of Runtime.v ends, as the end of a call *)
Definition ended {E V W I} (o : outcome E V W I) : cout E V (I * W) :=
  call_of (inr (XOutcome (oc_result o) (oc_iter o, oc_world o))).

Section Emitted.
Context {A : Type}.
Variables (items : list (grammar_item A)) (te : token_enum) (g : grammar (lexpr A)) (gp : generated (lexpr A)).
Hypothesis Hnames : distinct_names items.
Hypothesis Hexp : expands items gp.
Hypothesis Hnamed : named items te g.
Hypothesis Husable : usable_names items te g.
Notation module := (emit te g gp).

Lemma entry_nonempty pr : In pr (gp_parsers gp) -> pr_name pr <> "".
Proof.
  intro H. assert (Hin : In (pr_name pr) (map pr_name (gp_parsers gp))) by (apply in_map; auto).
  apply (entry_name_In items gp Hnames Hexp) in Hin. destruct Hin as (N & H1 & H2 & <-). destruct Husable as (Hu & _). destruct (Hu N H1 H2) as (Hn & _). exact Hn.
Qed.

(** ** C64: evaluating the emitted code

    [parse] of an entry point of the emitted module, evaluated as Rust code with any user code, does what the model of
    Effects.v does, iteration by iteration: same result or panic, same effects, still running after the same number
    of iterations.  So what is proved of that model, and of Runtime.v, holds of the emitted code. *)
Theorem c64_parse pr {E V St} (U : user A E V St) n d u : In pr (gp_parsers gp) ->
  call_fn module U n (4 + d) (pr_name pr) "parse" [VIter] u = call_of (x_parse gp (module_env gp U) n pr u).
Proof.
  intro Hpr. exact (call_parse te g gp (evaluable_of items te g gp Hnames Hexp Hnamed Husable) U pr Hpr n d u (entry_nonempty pr Hpr)).
Qed.
(** Its evaluation is always defined: every name it mentions is declared once, every call has as many arguments as
    parameters, every operation has operands it applies to. *)
Corollary c64_defined pr {E V St} (U : user A E V St) n d u : In pr (gp_parsers gp) ->
  call_fn module U n (4 + d) (pr_name pr) "parse" [VIter] u <> CIll.
Proof.
  intro Hpr. rewrite (c64_parse pr U n d u Hpr). destruct (x_parse gp (module_env gp U) n pr u) as [st|o]; cbn; [discriminate|].
  destruct (result_val (xo_result o)); discriminate.
Qed.

Section Pure.
Context {E V W I : Type}.
Variable part : rval -> V.
Variable uact : A -> list (string * val E V) -> W -> option (V * W).
Variable next : I -> option (rval + E) * I.
Variable pr : parser_struct.
Hypothesis Hpr : In pr (gp_parsers gp).
Notation parse_call := (call_fn module (pure_user part uact next)).

(** With user code as in Runtime.v a call ends as [c] exactly if the run of Runtime.v ends so. *)
Theorem c64_returns d it w c :
  ((exists n, parse_call n (4 + d) (pr_name pr) "parse" [VIter] (it, w) = c) /\ c <> CFuel <->
   exists o, returns gp part (on_bindings uact) next pr it w o /\ c = ended o).
Proof.
  pose proof (c56_pure (E := E) gp part (on_bindings uact) next pr) as Hp. split.
  - intros ((n & H) & Hc). rewrite (c64_parse pr _ n d (it, w) Hpr) in H.
    destruct (x_parse gp (module_env gp (pure_user part uact next)) n pr (it, w)) as [st|[r [it' w']]] eqn:Ex; [cbn in H; congruence|].
    specialize (Hp n it w {| oc_result := r; oc_iter := it'; oc_world := w' |}). cbn [oc_result oc_iter oc_world] in Hp.
    exists {| oc_result := r; oc_iter := it'; oc_world := w' |}. split; [exists n; apply Hp; exact Ex|]. rewrite <- H. reflexivity.
  - intros (o & (n & Ho) & ->). apply Hp in Ho. split.
    + exists n. rewrite (c64_parse pr _ n d (it, w) Hpr).
      change (module_env gp (pure_user part uact next)) with (user_xenv gp part (pure_sem (on_bindings uact)) (pure_next (W := W) next) (pure_clone (E := E))). rewrite Ho. reflexivity.
    + unfold ended, call_of. cbn [xo_result]. destruct (result_val (oc_result o)); discriminate.
Qed.

Lemma ended_ok (o : outcome E V W I) v it' w' : ended o = CVal (ok_val v) [VIter] (it', w') -> oc_result o = POk v /\ oc_iter o = it' /\ oc_world o = w'.
Proof.
  unfold ended, call_of. cbn [xo_result xo_user]. destruct (oc_result o) as [x|e|f x|p]; cbn [result_val]; intro H; try discriminate.
  unfold ok_val in H. injection H as H1 H2 H3. subst. auto.
Qed.

(** *** In terms of the grammar: C01, C02 and C12 for the emitted code *)
Hypothesis Hplain : plain_patterns items.
Theorem c64_value n d it w v it' w' : parse_call n (4 + d) (pr_name pr) "parse" [VIter] (it, w) = CVal (ok_val v) [VIter] (it', w') ->
  exists t, utree_of (nts items) (class items) t (ASNonTerminal (pr_name pr)) /\
    feeds_then next it (uyield t) None it' /\
    ueval (nts items) (fields items part) (on_bindings uact) t w = Some (BVal v, w').
Proof.
  intro H. assert (Hp : parser_of items gp pr) by (repeat split; auto).
  assert (Hr : exists o, returns gp part (on_bindings uact) next pr it w o /\ CVal (ok_val v) [VIter] (it', w') = ended o).
  { apply (c64_returns d). split; [exists n; exact H|discriminate]. }
  destruct Hr as (o & Ho & He). symmetry in He. destruct (ended_ok o v it' w' He) as (E1 & <- & <-).
  exact (c02_value_of_tree items gp pr part (on_bindings uact) next it w Hp o v Ho E1).
Qed.
Theorem c64_exact d it w toks it' : ulr1_grammar (nts items) -> tails_plain (nts items) ->
  (forall a l w, uact a l w <> None) -> feeds_then next it toks None it' ->
  sentence (nts items) (class items) (pr_name pr) toks <->
  exists n v w', parse_call n (4 + d) (pr_name pr) "parse" [VIter] (it, w) = CVal (ok_val v) [VIter] (it', w').
Proof.
  intros Hlr Hne Htot Hfd. assert (Hp : parser_of items gp pr) by (repeat split; auto).
  rewrite (c12_exact items gp pr part (on_bindings uact) next it w Hp toks it' Hlr Hne (fun a b w0 => Htot a _ w0) Hfd). split.
  - intros (v & w' & Ho). assert (Hr : (exists n, parse_call n (4 + d) (pr_name pr) "parse" [VIter] (it, w) = CVal (ok_val v) [VIter] (it', w')) /\ CVal (E := E) (ok_val v) [VIter] (it', w') <> CFuel).
    { apply c64_returns. eexists. split; [exact Ho|reflexivity]. }
    destruct Hr as ((n & Hn) & _). eauto.
  - intros (n & v & w' & H). exists v, w'.
    assert (Hr : exists o, returns gp part (on_bindings uact) next pr it w o /\ CVal (ok_val v) [VIter] (it', w') = ended o).
    { apply (c64_returns d). split; [exists n; exact H|discriminate]. }
    destruct Hr as ([r i x] & Ho & He). symmetry in He. destruct (ended_ok _ v it' w' He) as (E1 & E2 & E3). cbn in E1, E2, E3. subst. exact Ho.
Qed.
(** C40: it decides, with errors at the first wrong token. *)
Definition err_val (found expected : string) : val E V :=
  VCon "Result" "Err" [VRec "ParseError" "ParserError" [("found", VStr found); ("expected", VStr expected)]].
Theorem c64_decides d it w toks it' : ulr1_grammar (nts items) -> tails_plain (nts items) -> all_productive (nts items) ->
  (forall a l w, uact a l w <> None) -> feeds_then next it toks None it' -> (forall tok, In tok toks -> class items tok <> None) ->
  (sentence (nts items) (class items) (pr_name pr) toks /\
   exists n v w', parse_call n (4 + d) (pr_name pr) "parse" [VIter] (it, w) = CVal (ok_val v) [VIter] (it', w')) \/
  (~ sentence (nts items) (class items) (pr_name pr) toks /\
   exists n pre post found expected it2 w', toks = pre ++ post /\
     parse_call n (4 + d) (pr_name pr) "parse" [VIter] (it, w) = CVal (err_val found expected) [VIter] (it2, w') /\
     sentence_prefix (nts items) (class items) (pr_name pr) pre /\
     match post with
     | [] => found = "end-of-input"
     | tok :: _ => class items tok = Some found /\ ~ sentence_prefix (nts items) (class items) (pr_name pr) (pre ++ [tok])
     end).
Proof.
  intros Hlr Htp Hall Htot Hfd Hcl. assert (Hp : parser_of items gp pr) by (repeat split; auto).
  assert (Hret : forall r i x, returns gp part (on_bindings uact) next pr it w {| oc_result := r; oc_iter := i; oc_world := x |} ->
    exists n, parse_call n (4 + d) (pr_name pr) "parse" [VIter] (it, w) = call_of (inr (XOutcome r (i, x)))).
  { intros r i x H. destruct (proj2 (c64_returns d it w (ended {| oc_result := r; oc_iter := i; oc_world := x |}))) as [Hn _]; [eauto|exact Hn]. }
  destruct (c40_decides items gp pr part (on_bindings uact) next it w Hp toks it' Hlr Htp Hall (fun a b w0 => Htot a _ w0) Hfd Hcl)
    as [(Hs & v & w' & Ho)|(Hns & pre & post & f & x & it2 & w' & -> & Ho & H1 & H2)]; destruct (Hret _ _ _ Ho) as (n & Hn).
  - left. split; [exact Hs|]. exists n, v, w'. exact Hn.
  - right. split; [exact Hns|]. exists n, pre, post, f, x, it2, w'. split; [reflexivity|]. split; [exact Hn|]. auto.
Qed.
End Pure.

(** *** Panics, for any user code that does not [return] from an action: never an index out of bounds, an [unwrap] of
    [None], [unreachable!()] or [panic!("Stuck! (2)")]; the panic is the user's, or a token matches no pattern. *)
Theorem c64_panics pr {E V St} (U : user A E V St) n d u k u' : In pr (gp_parsers gp) -> plain_patterns items ->
  (forall a l u, fst (us_action U a l u) <> Returned) ->
  call_fn module U n (4 + d) (pr_name pr) "parse" [VIter] u = CPanic k u' ->
  k = KUser \/ k = KNoArm /\ exists tok v v', us_next U v = (Some (Some (inl tok)), v') /\ class items tok = None.
Proof.
  intros Hpr Hplain Hnr H. rewrite (c64_parse pr U n d u Hpr) in H.
  destruct (x_parse gp (module_env gp U) n pr u) as [st|[r u1]] eqn:Ex; [discriminate|]. cbn [call_of xo_result xo_user] in H.
  destruct r as [v|e|f x|p]; cbn [result_val] in H; try discriminate. injection H as <- <-.
  assert (Hp : parser_of items gp pr) by (repeat split; auto).
  assert (Hnr' : no_return (action_sem U)) by (intros a b u0; apply Hnr).
  destruct (c57_no_internal_panic items gp pr Hp (us_part U) (action_sem U) (us_next U) (us_clone U) Hnr' n u p u1 Ex) as [(-> & _)|(-> & Hc)]; [left; reflexivity|right; auto].
Qed.
End Emitted.

(** ** C65: bindings

    An identifier bound by [let], a pattern or a parameter must not be the name of a static, a unit struct or a unit
    variant in scope: it would not be a binding (rustc reports E0530, or takes it for the constant, which has another
    type).  Entry points are unit structs, and [quote!] does not keep the template's variables apart from the user's
    names, so this is up to the user: exactly [bindable]. *)
Section Bindings.
Context {A : Type}.
Variables (items : list (grammar_item A)) (te : token_enum) (g : grammar (lexpr A)) (gp : generated (lexpr A)).
Hypothesis Hnames : distinct_names items.
Hypothesis Hexp : expands items gp.
Hypothesis Hnamed : named items te g.

Lemma fns_length : List.length (fn_names g) = List.length (gp_sem_actions gp).
Proof.
  destruct (hygiene_data items te g gp Hexp Hnamed) as (ti & act & tbl & states & entries & ho & fuel & _ & _ & _ & _ & Hg & _).
  exact (proj1 (fn_named ho fuel g te gp Hg)).
Qed.
Lemma pop_bound f m x e : In f (gp_sem_actions gp) -> In (PopBind m x e) (sf_pops f) -> In x (module_binds (emit te g gp)).
Proof.
  intros Hf Hin. rewrite emit_binds. do 2 right. rewrite !in_app_iff. do 3 right. left. apply in_flat_map.
  apply In_nth_error in Hf. destruct Hf as (k & Hk). assert (Hlt : k < List.length (fn_names g)) by (rewrite fns_length; apply nth_error_Some; congruence).
  destruct (nth_error (fn_names g) k) as [name|] eqn:Ek; [|apply nth_error_None in Ek; lia].
  exists (name, f). split; [eapply combine_In_nth; eauto|]. right. cbn [snd]. unfold pop_names. apply in_flat_map. exists (PopBind m x e). split; [exact Hin|left; reflexivity].
Qed.
Lemma entry_binds N : In N (nts items) -> an_pub N = true -> 0 < n_variants g /\ In "x" (module_binds (emit te g gp)).
Proof.
  intros HN HNp.
  destruct (hygiene_data items te g gp Hexp Hnamed) as (ti & act & tbl & states & entries & ho & fuel & Hlow & Hwf & Hgen & _ & Hg & _ & Hcs).
  destruct (slot_exists (nts items) N HN) as (i & Hi). pose proof (entry_nt _ _ ti g Hlow N i Hi HNp) as He.
  assert (Hq : get_production g (S i) 0 = Some (entry_production i)) by (unfold get_production; rewrite He; reflexivity).
  destruct (fn_named ho fuel g te gp Hg) as (_ & _ & Hfn). destruct (Hfn _ _ _ Hq) as (k & f & _ & Hf & _ & F2 & F3).
  split; [pose proof (variants_below g _ _ F2); lia|]. cbn in F3. unfold pop_code in F3. cbn in F3.
  destruct (variant_of (variant_names g) i) as [v|]; [|discriminate]. injection F3 as F3. apply nth_error_In in Hf.
  eapply (pop_bound f); [exact Hf|]. rewrite <- F3. left; reflexivity.
Qed.
Lemma part_bound x : part_name te x -> In x (module_binds (emit te g gp)).
Proof.
  intros (c & i & Hc & Hi & ->). rewrite emit_binds. do 2 right. rewrite !in_app_iff. left. apply in_flat_map.
  apply In_nth_error in Hc. destruct Hc as (k & Hk). exists (k, c). split; [apply enumerate_nth_error; exact Hk|].
  unfold idents. apply (in_map field_ident). apply in_seq. unfold chosen. lia.
Qed.
Lemma bound_origin x : In x (module_binds (emit te g gp)) -> In x template_locals \/ binder_in (nts items) x \/ part_name te x.
Proof.
  assert (Hid : forall k c, In (k, c) (enumerate (te_conversions te)) -> In x (idents 0 (chosen (cv_to c))) -> part_name te x).
  { intros k c Hkc H. unfold idents in H. apply in_map_iff in H. destruct H as (i & <- & H). apply in_seq in H. exists c, i. split; [|split; [unfold chosen in H; lia|reflexivity]].
    apply enumerate_nth_error in Hkc. eapply nth_error_In; exact Hkc. }
  rewrite emit_binds. intros [<-|[<-|H]]; try (left; cbn; tauto). rewrite !in_app_iff in H. destruct H as [H|[H|[H|[H|[H|H]]]]].
  - apply in_flat_map in H. destruct H as ([k c] & Hkc & H). right; right. eapply Hid; eauto.
  - apply in_flat_map in H. destruct H as ([k c] & Hkc & [<-|H]); [left; cbn; tauto|]. right; right. eapply Hid; eauto.
  - apply in_flat_map in H. destruct H as (k & _ & [<-|[<-|[]]]); left; cbn; tauto.
  - apply in_flat_map in H. destruct H as ([name f] & Hd & [<-|H]); [left; cbn; tauto|]. cbn [snd] in H. unfold pop_names in H. apply in_flat_map in H.
    destruct H as ([|m y e] & Hp & Hy); [contradiction|]. destruct Hy as [<-|[]]. apply in_combine_r in Hd.
    destruct (pops_binder items te g gp Hnames Hexp Hnamed f m y e Hd Hp) as [->|H]; [left; cbn; tauto|right; left; exact H].
  - left. unfold generic_names in H. cbn in H. cbn. tauto.
  - apply in_flat_map in H. destruct H as (pr & _ & [<-|[]]). left; cbn; tauto.
Qed.

Theorem c65_bindings : (forall x, In x (module_binds (emit te g gp)) -> is_constant (emit te g gp) x = false) <-> bindable (declared_nts items) te.
Proof.
  assert (Hpub : forall x, In x (map pr_name (gp_parsers gp)) <-> exists N, In N (nts items) /\ an_pub N = true /\ an_name N = x) by (apply (entry_name_In items gp Hnames Hexp)).
  assert (Hconst : forall x, is_constant (emit te g gp) x = false <-> ~ (In x template_statics \/ In x (map pr_name (gp_parsers gp)) \/ x = "None")).
  { intro x. rewrite <- (is_constant_iff te g gp fns_length). split; [intros -> H; discriminate H|]. destruct (is_constant _ x); [intro H; exfalso; apply H; reflexivity|reflexivity]. }
  split.
  - intro H. assert (Hb : forall x, binder_in (nts items) x -> In x (module_binds (emit te g gp))).
    { intros x Hx. destruct (binder_pops items te g gp Hnames Hexp Hnamed x Hx) as (f & m & e & Hf & Hp). eapply pop_bound; eauto. }
    split.
    + intros N HN HNp. assert (Hn : ~ In (an_name N) (module_binds (emit te g gp))).
      { intro Hin. apply H, Hconst in Hin. apply Hin. right; left. apply Hpub. eauto. }
      split; [|split; [auto|intro Hpt; exact (Hn (part_bound _ Hpt))]]. intro Hl. apply Hn. clear Hn.
      destruct (entry_binds N HN HNp) as (Hv & Hx). rewrite emit_binds in *.
      assert (Hg : In (an_name N) generic_names \/ an_name N = "self" \/ an_name N = "f" \/ an_name N = "x") by (cbn in Hl; cbn; intuition (subst; auto)).
      destruct Hg as [Hg|[Hg|[Hg|Hg]]].
      * do 2 right. rewrite !in_app_iff. do 4 right. left. exact Hg.
      * do 2 right. rewrite !in_app_iff. do 2 right. left. apply in_flat_map. exists 0. split; [apply in_seq; lia|]. rewrite Hg. left; reflexivity.
      * do 2 right. rewrite !in_app_iff. do 2 right. left. apply in_flat_map. exists 0. split; [apply in_seq; lia|]. rewrite Hg. right; left; reflexivity.
      * rewrite Hg. exact Hx.
    + intros x Hx. apply Hb, H, Hconst in Hx. tauto.
  - intros (Hp & Hb) x Hx. apply Hconst. intros [Hs|[Hs|Hs]].
    + apply bound_origin in Hx. destruct Hx as [Hx|[Hx|Hx]]; [destruct (local_not_static x Hx); tauto|destruct (Hb x Hx); tauto|destruct (part_not_static te x Hx) as (? & _); tauto].
    + apply Hpub in Hs. destruct Hs as (N & HN & HNp & <-). destruct (Hp N HN HNp) as (B1 & B2 & B3). apply bound_origin in Hx. tauto.
    + apply bound_origin in Hx. destruct Hx as [Hx|[Hx|Hx]]; [destruct (local_not_static x Hx); tauto|destruct (Hb x Hx); tauto|destruct (part_not_static te x Hx) as (_ & ? & _); tauto].
Qed.
End Bindings.

(** ** C66: each action expression of the user's is spliced into the module exactly once, in the order of the grammar. *)
Section Spliced.
Context {A : Type}.
Variables (items : list (grammar_item A)) (te : token_enum) (g : grammar (lexpr A)) (gp : generated (lexpr A)).
Hypothesis Hnames : distinct_names items.
Hypothesis Hexp : expands items gp.
Hypothesis Hnamed : named items te g.

Lemma numbered_users (l : list (non_terminal (lexpr A))) : forall k,
  flat_map (fun q => match p_action (snd q) with EUser e => [e] | EVar _ => [] end) (numbered_from k l) =
  flat_map (fun N => flat_map (fun p => match p_action p with EUser e => [e] | EVar _ => [] end) (nt_productions N)) l.
Proof.
  induction l as [|N l IH]; intro k; [reflexivity|]. unfold numbered_from. cbn [List.length seq combine flat_map]. rewrite flat_map_app.
  fold (numbered_from (S k) l). rewrite IH. f_equal. rewrite flat_map_map. unfold enumerate. generalize 0. generalize (nt_productions N).
  induction l0 as [|p ps IHp]; intro j; [reflexivity|]. cbn [List.length seq combine flat_map snd]. rewrite IHp. reflexivity.
Qed.
Lemma lprods_users ti N : lowered (nts items) (cs items) ti g -> In N (nts items) ->
  flat_map (fun p => match p_action p with EUser e => [e] | EVar _ => [] end) (lprods (nt_indices_of (nts items)) ti N) =
  map (fun p => action_expr (ap_action p)) (an_productions N).
Proof.
  intros Hlow HN. destruct (lo_prods _ _ _ _ Hlow N HN) as (ps & Hps). unfold lprods. rewrite Hps. apply mapM_Forall2 in Hps.
  induction Hps as [|p q l l' Hq _ IH]; [reflexivity|]. cbn [flat_map map]. destruct (lprod_rhs _ _ ti g Hlow _ _ Hq) as (_ & -> & _). cbn [app]. rewrite IH. reflexivity.
Qed.

Theorem c66_spliced : module_users (emit te g gp) =
  flat_map (fun N => map (fun p => action_expr (ap_action p)) (an_productions N)) (declared_nts items).
Proof.
  destruct (hygiene_data items te g gp Hexp Hnamed) as (ti & act & tbl & states & entries & ho & fuel & Hlow & Hwf & Hgen & _ & Hg & _ & Hcs).
  rewrite (emit_users te g gp (fns_length items te g gp Hexp Hnamed)).
  assert (Hfns : flat_map (fun f => match sf_action f with EUser e => [e] | EVar _ => [] end) (gp_sem_actions gp) =
                 flat_map (fun q => match p_action (snd q) with EUser e => [e] | EVar _ => [] end) (numbered_from 0 (g_nts g))).
  { destruct (generate_steps ho _ _ _ _ Hg) as (tbl' & states' & entries' & fns & g' & tb & gv & H1 & H2 & H3 & _ & _ & _ & _ & _ & E1 & _).
    unfold generate_semantic_action_table in H3. apply bind_Ok in H3. destruct H3 as ((fns0 & nts') & H3 & Hx). injection Hx as <- <-.
    apply gen_non_terminals_all in H3. destruct H3 as (new & E & Hn). cbn in E. subst fns0. rewrite E1. clear - Hn.
    induction Hn as [|q f l l' (F1 & _) _ IH]; [reflexivity|]. cbn [flat_map]. rewrite F1, IH. reflexivity. }
  rewrite Hfns, numbered_users, (lowered_blocks _ _ ti g Hnames Hlow).
  assert (Hin : forall x, In x (slots 0 (nts items)) -> In (fst x) (nts items)) by (intros [N i] H; eapply slots_In; eauto).
  transitivity (flat_map (fun N => map (fun p => action_expr (ap_action p)) (an_productions N)) (map fst (slots 0 (nts items)))); [|rewrite slots_fst; reflexivity]. revert Hin. generalize (slots 0 (nts items)). intros l Hin.
  induction l as [|[N i] l IH]; [reflexivity|]. cbn [flat_map map]. rewrite flat_map_app, IH by (intros x Hx; apply Hin; right; exact Hx). f_equal.
  cbn [fst snd]. rewrite <- (lprods_users ti N Hlow (Hin _ (or_introl eq_refl))). unfold block.
  destruct (an_pub N); cbn; rewrite ?app_nil_r; reflexivity.
Qed.
End Spliced.

(** ** Cases *)
Definition binders {A} (nts : list (ast_non_terminal A)) : list string :=
  flat_map (fun N => flat_map (fun p => flat_map (fun s => match binder_of s with Some n => [nm_name n] | None => [] end) (ap_symbols p)) (an_productions N)) nts.
Lemma binders_In {A} (nts : list (ast_non_terminal A)) x : binder_in nts x <-> In x (binders nts).
Proof.
  unfold binders. split.
  - intros (N & p & s & n & HN & Hp & Hs & Hn & <-). apply in_flat_map. exists N. split; [exact HN|]. apply in_flat_map. exists p. split; [exact Hp|].
    apply in_flat_map. exists s. split; [exact Hs|]. rewrite Hn. left; reflexivity.
  - intro H. apply in_flat_map in H. destruct H as (N & HN & H). apply in_flat_map in H. destruct H as (p & Hp & H). apply in_flat_map in H. destruct H as (s & Hs & H).
    destruct (binder_of s) as [n|] eqn:En; [|contradiction]. destruct H as [<-|[]]. exists N, p, s, n. auto.
Qed.
Definition parts (te : token_enum) : list string := flat_map (fun c => idents 0 (chosen (cv_to c))) (te_conversions te).
Lemma parts_In te x : part_name te x <-> In x (parts te).
Proof.
  unfold parts, idents, chosen. split.
  - intros (c & i & Hc & Hi & ->). apply in_flat_map. exists c. split; [exact Hc|]. apply (in_map field_ident). apply in_seq. lia.
  - intro H. apply in_flat_map in H. destruct H as (c & Hc & H). apply in_map_iff in H. destruct H as (i & <- & H). apply in_seq in H. exists c, i. repeat split; auto. lia.
Qed.
(** [bindable] and [usable_names] can be decided. *)
Definition without (x : string) (l : list string) : bool := negb (existsb (String.eqb x) l).
Definition bindable_check {A} (nts : list (ast_non_terminal A)) (te : token_enum) : bool :=
  forallb (fun N => without (an_name N) (template_locals ++ binders nts ++ parts te)) (filter an_pub nts) &&
  forallb (fun x => without x ("None" :: template_statics)) (binders nts).
Definition usable_check {A} (items : list (grammar_item A)) (te : token_enum) (g : grammar (lexpr A)) : bool :=
  forallb (fun N => without (an_name N) ("" :: own_types ++ own_value_items te g ++ ["Some"; "None"; "Ok"; "Err"])) (filter an_pub (declared_nts items)) &&
  bindable_check (declared_nts items) te && without "value_stack" (binders (declared_nts items)).
Lemma without_spec x l : without x l = true <-> ~ In x l.
Proof.
  unfold without. rewrite Bool.negb_true_iff. split; [apply not_in_dec|]. intro H. destruct (existsb (String.eqb x) l) eqn:E; [|reflexivity]. exfalso. apply H.
  apply existsb_exists in E. destruct E as (y & Hy & E). apply String.eqb_eq in E. subst. exact Hy.
Qed.
Lemma bindable_iff {A} (nts : list (ast_non_terminal A)) te : bindable_check nts te = true <-> bindable nts te.
Proof.
  unfold bindable_check, bindable. rewrite Bool.andb_true_iff, !forallb_forall. split; intros (H1 & H2); split.
  - intros N HN HNp. assert (Hf : In N (filter an_pub nts)) by (apply filter_In; auto). apply H1, without_spec in Hf. rewrite !in_app_iff, <- binders_In, <- parts_In in Hf. tauto.
  - intros x Hx. apply binders_In, H2, without_spec in Hx. cbn in Hx. cbn. intuition auto.
  - intros N HN. apply filter_In in HN. destruct HN as (HN & HNp). apply without_spec. rewrite !in_app_iff, <- binders_In, <- parts_In. destruct (H1 N HN HNp) as (B1 & B2 & B3). tauto.
  - intros x Hx. apply without_spec. apply binders_In, H2 in Hx. destruct Hx as (B1 & B2). intros [<-|H]; auto.
Qed.
Lemma usable_iff {A} (items : list (grammar_item A)) te g : usable_check items te g = true <-> usable_names items te g.
Proof.
  unfold usable_check, usable_names. rewrite !Bool.andb_true_iff, forallb_forall, bindable_iff, without_spec. split.
  - intros ((H1 & H2) & H3). split; [|split; [exact H2|intros x Hx ->; apply H3, binders_In; exact Hx]].
    intros N HN HNp. assert (Hf : In N (filter an_pub (declared_nts items))) by (apply filter_In; auto). apply H1, without_spec in Hf.
    cbn [In] in Hf. rewrite !in_app_iff in Hf. rewrite taken_In. split; [intro E; apply Hf; auto|]. tauto.
  - intros (H1 & H2 & H3). split; [split; [|exact H2]|intro H; apply binders_In in H; exact (H3 _ H eq_refl)].
    intros N HN. apply filter_In in HN. destruct HN as (HN & HNp). apply without_spec. destruct (H1 N HN HNp) as (B1 & B2 & B3). rewrite taken_In in B2.
    cbn [In]. rewrite !in_app_iff. intros [E|[H|[H|H]]]; auto.
Qed.

Lemma arith_usable : usable_names arith arith_te lowered_arith.
Proof. apply usable_iff. vm_compute. reflexivity. Qed.
Definition arith_module : list (item string) := Eval vm_compute in emit arith_te lowered_arith arith_gp.
(** Actions that look up Rust variables *)
Definition arith_uact (a : string) (l : list (string * val string rval)) (w : list string) : option (rval * list string) :=
  let num x := match lget x l with Some (VUser (RVOther n)) => n | _ => 0 end in
  Some (if String.eqb a "e + t" then RVOther (num "e" + num "t")
        else if String.eqb a "t * f" then RVOther (num "t" * num "f")
        else RVOther (num a), w ++ [a]).
(** [4 * 1 + 2]: the emitted code, evaluated, returns 6 *)
Example case_c64_run : call_fn arith_module (pure_user (fun v => v) arith_uact vec_next) 100 4 "E" "parse" [VIter] ([int 4; STAR; int 1; PLUS; int 2], []) =
  CVal (ok_val (RVOther 6)) [VIter] ([], ["i"; "f"; "i"; "t * f"; "t"; "i"; "f"; "e + t"; "e"]).
Proof. vm_compute. reflexivity. Qed.
Example case_c64_error : call_fn arith_module (pure_user (fun v => v) arith_uact vec_next) 100 4 "E" "parse" [VIter] ([int 4; STAR; STAR], []) =
  CVal (VCon "Result" "Err" [VRec "ParseError" "ParserError" [("found", VStr "*"); ("expected", VStr "(, int")]]) [VIter] ([], ["i"; "f"]).
Proof. vm_compute. reflexivity. Qed.
(** so there is a tree with that value *)
Example case_c64_value : exists t, utree_of (nts arith) (class arith) t (ASNonTerminal "E") /\
  feeds_then vec_next [int 4; STAR; int 1; PLUS; int 2] (uyield t) None [] /\
  ueval (nts arith) (fields arith (fun v => v)) (on_bindings arith_uact) t [] = Some (BVal (RVOther 6), ["i"; "f"; "i"; "t * f"; "t"; "i"; "f"; "e + t"; "e"]).
Proof.
  destruct arith_parser as (_ & Hplain & _ & Hpr).
  exact (c64_value arith arith_te lowered_arith arith_gp arith_names arith_expands arith_named arith_usable (fun v => v) arith_uact vec_next arith_E Hpr Hplain
    100 0 [int 4; STAR; int 1; PLUS; int 2] [] _ _ _ case_c64_run).
Qed.
Example case_c64_exact toks : sentence (nts arith) (class arith) "E" toks <->
  exists n v w', call_fn arith_module (pure_user (fun v => v) arith_uact vec_next) n 4 "E" "parse" [VIter] (map inl toks, []) = CVal (ok_val v) [VIter] ([], w').
Proof.
  destruct arith_parser as (_ & Hplain & _ & Hpr).
  apply (c64_exact arith arith_te lowered_arith arith_gp arith_names arith_expands arith_named arith_usable (fun v => v) arith_uact vec_next arith_E Hpr Hplain 0 (map inl toks) [] toks []
    arith_lr1).
  - apply no_empty_tails_plain, case_no_empty.
  - discriminate.
  - exists []. split; [|reflexivity]. induction toks as [|t toks IH]; [constructor|]. econstructor; [reflexivity|exact IH].
Qed.
Example case_c65 : forall x, In x (module_binds arith_module) -> is_constant arith_module x = false.
Proof. apply (c65_bindings arith arith_te lowered_arith arith_gp arith_names arith_expands arith_named). apply bindable_iff. vm_compute. reflexivity. Qed.
Example case_c66 : module_users arith_module = ["e"; "e + t"; "t"; "t * f"; "f"; "e"; "i"].
Proof. exact (c66_spliced arith arith_te lowered_arith arith_gp arith_names arith_expands arith_named). Qed.

(** ** Refutations of the unrestricted claims *)

(** [pub expr: u64 = <expr:expr> "+" <i:int> => .., <i:int> => ..;] is accepted, but in [let expr = ..] the name is that
    of the unit struct [expr]: the module does not compile. *)
Definition lower_case : list (grammar_item string) :=
  [ arith_tokens; rule true "expr" "u64" [(["expr" ::= #"expr"; $"+"; "i" ::= $"int"], "expr + i"); (["i" ::= $"int"], "i")] ].
Definition lowered_or_nil (items : list (grammar_item string)) : grammar (lexpr string) :=
  match lower (declared_nts items) (token_entries items) with Ok g => g | _ => {| g_nts := []; g_terminals := [] |} end.
(** So is an entry point called like a variable of the template, *)
Definition entry_token : list (grammar_item string) := [ arith_tokens; rule true "token" "u64" [(["i" ::= $"int"], "i")] ].
(** or a binder called like a static. *)
Definition binder_static : list (grammar_item string) := [ arith_tokens; rule true "S" "u64" [(["ACTION" ::= $"int"], "0")] ].
Theorem c65_refuted :
  ~ (forall (items : list (grammar_item string)) te g gp, distinct_names items -> expands items gp -> named items te g ->
       forall x, In x (module_binds (emit te g gp)) -> is_constant (emit te g gp) x = false).
Proof.
  intro H. assert (He : expands lower_case (module_of lower_case)) by expand_it. assert (Hd : distinct_names lower_case) by prove_distinct.
  assert (Hn : named lower_case (the_tokens lower_case) (lowered_or_nil lower_case)) by (split; [left; reflexivity|vm_compute; reflexivity]).
  specialize (H lower_case _ _ _ Hd He Hn). apply (c65_bindings _ _ _ _ Hd He Hn) in H. apply bindable_iff in H. vm_compute in H. discriminate H.
Qed.
Definition does_not_compile (items : list (grammar_item string)) (start : string) (input : list (rval + string)) : Prop :=
  distinct_names items /\ expands items (module_of items) /\ named items (the_tokens items) (lowered_or_nil items) /\ In start (map pr_name (gp_parsers (module_of items))) /\
  call_fn (emit (the_tokens items) (lowered_or_nil items) (module_of items)) (pure_user (fun v => v) arith_uact vec_next) 100 4 start "parse" [VIter] (input, []) = CIll.
Ltac one_name := unfold distinct_names; vm_compute; apply NoDup_cons; [intros []|apply NoDup_nil].
Ltac does_not := split; [one_name|split; [expand_it|split; [split; [left; reflexivity|vm_compute; reflexivity]|split; [vm_compute; tauto|vm_compute; reflexivity]]]].
Theorem c64_defined_refuted : does_not_compile lower_case "expr" [int 1; PLUS; int 2] /\ does_not_compile entry_token "token" [int 1] /\
  does_not_compile binder_static "S" [int 1] /\ does_not_compile stack_name "S" [ok "Token::A"].
Proof. split; [does_not|split; [does_not|split; does_not]]. Qed.
