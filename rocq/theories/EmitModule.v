(** * EmitModule: the names of the emitted module resolve to its items *)
From Coq Require Import NArith Ascii.
From Verif Require Import NamesProofs PropertiesHygiene.
From Verif Require Export EmitSpec.
Local Open Scope string_scope. Local Open Scope list_scope.

(** ** Looking up declarations *)
Lemma declared_none {X} (decls : list (string * X)) x : ~ In x (map fst decls) -> declared_as x decls = [].
Proof.
  unfold declared_as. induction decls as [|[n y] decls IH]; cbn; intro H; [reflexivity|].
  destruct (String.eqb_spec x n) as [->|_]; [exfalso; auto|]. apply IH. auto.
Qed.
Lemma declared_In {X} (decls : list (string * X)) x d : In d (declared_as x decls) <-> In (x, d) decls.
Proof.
  unfold declared_as. rewrite in_map_iff. split.
  - intros ([n y] & <- & H). apply filter_In in H. destruct H as [H E]. apply String.eqb_eq in E. cbn in *. subst. auto.
  - intro H. exists (x, d). split; [reflexivity|]. apply filter_In. split; [auto|]. cbn. apply String.eqb_refl.
Qed.
Lemma declared_nil {X} (decls : list (string * X)) x : declared_as x decls = [] -> ~ In x (map fst decls).
Proof.
  intros H Hin. apply in_map_iff in Hin. destruct Hin as ([n d] & E & Hin). cbn in E. subst n. apply declared_In in Hin. rewrite H in Hin. exact Hin.
Qed.

Section Module.
Context {A : Type}.
Variables (te : token_enum) (g : grammar (lexpr A)) (gp : generated (lexpr A)).
Notation M := (emit te g gp).

Definition action_defs : list (string * vdef A) :=
  map (fun d => (fst d, DFn {| fd_params := ["value_stack"]; fd_body := e_body (sf_pops (snd d)) (sf_variant (snd d)) (sf_action (snd d)) |})) (fn_decls g gp).
Definition fn_def_of (i : item A) : fn_def A := match i with IFn _ f => f | _ => {| fd_params := []; fd_body := XUnitE |} end.
Definition static_of (i : item A) : vdef A := match i with IStatic _ d e => DStatic d e | _ => DStruct end.

Lemma emit_vdefs : vdefs M =
  [("ACTION", static_of (e_action_array gp)); ("GOTO", static_of (e_goto_array g gp));
   (token_terminal_idx_name te, DFn (fn_def_of (e_token_terminal_idx te))); ("token_value", DFn (fn_def_of (e_token_value te)))] ++
  action_defs ++
  [("SEMANTIC_ACTIONS", static_of (e_semantic_actions g)); ("EXPECTED_TERMINALS", static_of (e_expected gp));
   ("TERMINAL_STRS", static_of (e_terminal_strs gp)); ("parse_generic", DFn (fn_def_of (e_parse_generic te gp)))] ++
  map (fun pr => (pr_name pr, DStruct)) (gp_parsers gp).
Proof.
  unfold vdefs, emit. rewrite !flat_map_app. cbn [flat_map e_lr_action e_action_array e_goto_array e_parse_error e_token_terminal_idx
    e_token_value e_result_type e_result_impl e_semantic_actions e_expected e_terminal_strs e_parse_generic app]. do 4 f_equal.
  f_equal; [|do 4 f_equal].
  - unfold action_defs. induction (fn_decls g gp) as [|d l IH]; cbn; [reflexivity|]. rewrite IH. reflexivity.
  - induction (gp_parsers gp) as [|pr l IH]; cbn; [reflexivity|]. rewrite IH. reflexivity.
Qed.
Lemma emit_tdefs : tdefs M =
  [("LRAction", [("Shift", ShFields [("next_state", "u32")]);
     ("Reduce", ShFields [("non_terminal_idx", "u16"); ("n_symbols", "u16"); ("semantic_action_idx", "u16")]); ("Accept", ShUnit)]);
   ("ParseError", [("LexerError", ShTuple ["E"]); ("ParserError", ShFields [("found", "&'static str"); ("expected", "&'static str")])]);
   ("SemanticActionResult", map (fun '(x, tys) => (x, ShTuple tys)) (result_enum te g))] ++
  map (fun pr => (pr_name pr, [])) (gp_parsers gp).
Proof.
  unfold tdefs, emit. rewrite !flat_map_app. cbn [flat_map e_lr_action e_action_array e_goto_array e_parse_error e_token_terminal_idx
    e_token_value e_result_type e_result_impl e_semantic_actions e_expected e_terminal_strs e_parse_generic app]. do 3 f_equal.
  assert (E : flat_map (fun i : item A => match i with IEnum x _ vs => [(x, vs)] | IStruct x => [(x, [])] | _ => [] end) (map e_action_fn (fn_decls g gp)) = []).
  { induction (fn_decls g gp) as [|d l IH]; cbn; auto. }
  rewrite E. cbn [app]. induction (gp_parsers gp) as [|pr l IH]; cbn; [reflexivity|]. rewrite IH. reflexivity.
Qed.
Definition result_fns : list (string * fn_def A) :=
  map (fun '(i, c) => e_token_method i c) (enumerate (te_conversions te)) ++ map e_non_terminal_method (seq 0 (n_variants g)).
Definition parse_fn (pr : parser_struct) : fn_def A :=
  {| fd_params := ["input"];
     fd_body := XCall (XId "parse_generic") [XId "input"; XPath "SemanticActionResult" (non_terminal_method_name (pr_extract_variant pr));
                                             XInt U32 (pr_init_state pr); XInt Usize (pr_action_idx pr)] |}.
Lemma emit_assoc q : assoc_fns M q =
  (if String.eqb "SemanticActionResult" q then result_fns else []) ++
  flat_map (fun pr => if String.eqb (pr_name pr) q then [("parse", parse_fn pr)] else []) (gp_parsers gp).
Proof.
  unfold assoc_fns, emit. rewrite !flat_map_app. cbn [flat_map e_lr_action e_action_array e_goto_array e_parse_error e_token_terminal_idx
    e_token_value e_result_type e_result_impl e_semantic_actions e_expected e_terminal_strs e_parse_generic app]. rewrite app_nil_r.
  assert (E : flat_map (fun i : item A => match i with IImpl x fs => if String.eqb x q then fs else [] | _ => [] end) (map e_action_fn (fn_decls g gp)) = []).
  { induction (fn_decls g gp) as [|d l IH]; cbn; auto. }
  rewrite E. cbn [app]. f_equal. induction (gp_parsers gp) as [|pr l IH]; cbn; [reflexivity|]. rewrite IH. reflexivity.
Qed.

Hypothesis Hlen : List.length (fn_names g) = List.length (gp_sem_actions gp).
Lemma emit_values : map fst (vdefs M) = value_items te g gp.
Proof.
  rewrite emit_vdefs. unfold value_items. rewrite !map_app. cbn [map fst app]. do 4 f_equal. unfold action_defs. rewrite !map_map. cbn [fst].
  change (fun x : string * sem_fn (lexpr A) => fst x) with (@fst string (sem_fn (lexpr A))). unfold fn_decls. rewrite map_fst_combine by exact Hlen. reflexivity.
Qed.
Lemma emit_types : map fst (tdefs M) = type_items gp.
Proof. rewrite emit_tdefs. unfold type_items. rewrite map_app, map_map. reflexivity. Qed.

Hypothesis Hv : NoDup (value_items te g gp).
Hypothesis Ht : NoDup (type_items gp).
Lemma vdef_In x d : In (x, d) (vdefs M) -> declared_as x (vdefs M) = [d].
Proof. apply declared_as_In. rewrite emit_values. exact Hv. Qed.
Lemma tdef_In x d : In (x, d) (tdefs M) -> declared_as x (tdefs M) = [d].
Proof. apply declared_as_In. rewrite emit_types. exact Ht. Qed.

Lemma v_static_action : declared_as "ACTION" (vdefs M) = [static_of (e_action_array gp)].
Proof. apply vdef_In. rewrite emit_vdefs. cbn. auto. Qed.
Lemma v_static_goto : declared_as "GOTO" (vdefs M) = [static_of (e_goto_array g gp)].
Proof. apply vdef_In. rewrite emit_vdefs. cbn. auto. Qed.
Lemma v_idx : declared_as (token_terminal_idx_name te) (vdefs M) = [DFn (fn_def_of (e_token_terminal_idx te))].
Proof. apply vdef_In. rewrite emit_vdefs. cbn. auto. Qed.
Lemma v_value : declared_as "token_value" (vdefs M) = [DFn (fn_def_of (e_token_value te))].
Proof. apply vdef_In. rewrite emit_vdefs. cbn. auto. Qed.
Lemma v_semantic : declared_as "SEMANTIC_ACTIONS" (vdefs M) = [static_of (e_semantic_actions g)].
Proof. apply vdef_In. rewrite emit_vdefs. apply in_or_app. right. apply in_or_app. right. cbn. auto. Qed.
Lemma v_expected : declared_as "EXPECTED_TERMINALS" (vdefs M) = [static_of (e_expected gp)].
Proof. apply vdef_In. rewrite emit_vdefs. apply in_or_app. right. apply in_or_app. right. cbn. auto. Qed.
Lemma v_strs : declared_as "TERMINAL_STRS" (vdefs M) = [static_of (e_terminal_strs gp)].
Proof. apply vdef_In. rewrite emit_vdefs. apply in_or_app. right. apply in_or_app. right. cbn. auto. Qed.
Lemma v_generic : declared_as "parse_generic" (vdefs M) = [DFn (fn_def_of (e_parse_generic te gp))].
Proof. apply vdef_In. rewrite emit_vdefs. apply in_or_app. right. apply in_or_app. right. cbn. auto 10. Qed.
Definition action_def (f : sem_fn (lexpr A)) : fn_def A :=
  {| fd_params := ["value_stack"]; fd_body := e_body (sf_pops f) (sf_variant f) (sf_action f) |}.
Lemma v_action k name f : nth_error (fn_names g) k = Some name -> nth_error (gp_sem_actions gp) k = Some f ->
  declared_as name (vdefs M) = [DFn (action_def f)].
Proof.
  intros H1 H2. apply vdef_In. rewrite emit_vdefs. apply in_or_app. right. apply in_or_app. left. unfold action_defs. apply in_map_iff.
  exists (name, f). split; [reflexivity|]. eapply combine_In_nth; eauto.
Qed.
Lemma t_action : declared_as "LRAction" (tdefs M) = [[("Shift", ShFields [("next_state", "u32")]);
     ("Reduce", ShFields [("non_terminal_idx", "u16"); ("n_symbols", "u16"); ("semantic_action_idx", "u16")]); ("Accept", ShUnit)]].
Proof. apply tdef_In. rewrite emit_tdefs. cbn. auto. Qed.
Lemma t_error : declared_as "ParseError" (tdefs M) = [[("LexerError", ShTuple ["E"]); ("ParserError", ShFields [("found", "&'static str"); ("expected", "&'static str")])]].
Proof. apply tdef_In. rewrite emit_tdefs. cbn. auto. Qed.
Lemma t_result : declared_as "SemanticActionResult" (tdefs M) = [map (fun '(x, tys) => (x, ShTuple tys)) (result_enum te g)].
Proof. apply tdef_In. rewrite emit_tdefs. cbn. auto. Qed.

Lemma parser_name_not_own pr : In pr (gp_parsers gp) -> ~ In (pr_name pr) own_types.
Proof. intros H Hin. unfold type_items in Ht. eapply (NoDup_app_disj _ _ Ht); [exact Hin|apply in_map; exact H]. Qed.
Lemma other_parsers q : In q own_types ->
  flat_map (fun pr => if String.eqb (pr_name pr) q then [("parse", parse_fn pr)] else []) (gp_parsers gp) = [].
Proof.
  intro Hq. pose proof parser_name_not_own as H. revert H. generalize (gp_parsers gp). intro l. induction l as [|pr l IH]; intro H; cbn; [reflexivity|].
  destruct (String.eqb_spec (pr_name pr) q) as [E|_]; [exfalso; eapply H; [left; reflexivity|rewrite E; exact Hq]|]. apply IH. intros pr' H'. apply H. right; auto.
Qed.
Lemma a_action : assoc_fns M "LRAction" = [].
Proof. rewrite emit_assoc, other_parsers by (cbn; auto). reflexivity. Qed.
Lemma a_error : assoc_fns M "ParseError" = [].
Proof. rewrite emit_assoc, other_parsers by (cbn; auto). reflexivity. Qed.
Lemma a_result : assoc_fns M "SemanticActionResult" = result_fns.
Proof. rewrite emit_assoc, other_parsers by (cbn; auto). rewrite app_nil_r. reflexivity. Qed.
Lemma parsers_nodup : NoDup (map pr_name (gp_parsers gp)).
Proof. unfold type_items in Ht. pose proof Ht as H. do 3 (apply NoDup_cons_iff in H; destruct H as [_ H]). exact H. Qed.
Lemma a_parser pr : In pr (gp_parsers gp) -> assoc_fns M (pr_name pr) = [("parse", parse_fn pr)].
Proof.
  intro Hin. rewrite emit_assoc. assert (Hne : String.eqb "SemanticActionResult" (pr_name pr) = false).
  { apply String.eqb_neq. intro E. apply (parser_name_not_own pr Hin). rewrite <- E. cbn. auto. }
  rewrite Hne. cbn [app]. pose proof parsers_nodup as Hnd. revert Hnd Hin. generalize (gp_parsers gp). intro l. induction l as [|p l IH]; intros Hnd Hin; [contradiction|].
  cbn. inversion Hnd as [|? ? H1 H2]; subst. destruct Hin as [->|Hin].
  - rewrite String.eqb_refl. cbn. f_equal. clear - H1. induction l as [|p l IH]; cbn; [reflexivity|].
    destruct (String.eqb_spec (pr_name p) (pr_name pr)) as [E|_]; [exfalso; apply H1; left; auto|]. apply IH. intro H. apply H1. right; auto.
  - destruct (String.eqb_spec (pr_name p) (pr_name pr)) as [E|_]; [exfalso; apply H1; rewrite E; apply in_map; auto|]. cbn. auto.
Qed.

(** Methods and variants of the result type. *)
Lemma result_fns_names : map fst result_fns = map fst (result_methods te g).
Proof.
  unfold result_fns, result_methods. rewrite !map_app, !map_map. f_equal. unfold enumerate. generalize (te_conversions te) as l. intro l.
  generalize (seq_length (List.length l) 0). generalize (seq 0 (List.length l)). intro is. revert l.
  induction is as [|i is IH]; intros [|c l] H; cbn in *; try discriminate; auto. f_equal. apply IH. injection H as H; exact H.
Qed.
Lemma m_token i c : nth_error (te_conversions te) i = Some c -> declared_as (token_method_name i) result_fns = [snd (e_token_method i c)].
Proof.
  intro H. apply declared_as_In; [rewrite result_fns_names; apply result_methods_nodup|]. apply in_or_app. left. apply in_map_iff. exists (i, c). split; [reflexivity|].
  apply enumerate_nth_error. exact H.
Qed.
Lemma m_non_terminal v : v < n_variants g -> declared_as (non_terminal_method_name v) result_fns = [snd (e_non_terminal_method v)].
Proof.
  intro H. apply declared_as_In; [rewrite result_fns_names; apply result_methods_nodup|]. apply in_or_app. right. apply in_map_iff. exists v. split; [reflexivity|].
  apply in_seq. split; [apply Nat.le_0_l|exact H].
Qed.
Lemma method_no_variant m x : In m (map fst result_fns) -> In x (map fst (result_enum te g)) -> m <> x.
Proof.
  rewrite result_fns_names, result_enum_names. unfold result_methods. rewrite map_app, !map_map. cbn [fst]. rewrite !in_app_iff, !in_map_iff.
  intros [(i & <- & _)|(i & <- & _)] [(j & <- & _)|(j & <- & _)]; discriminate.
Qed.
Lemma variants_map x : declared_as x (map (fun '(x, tys) => (x, ShTuple tys)) (result_enum te g)) = map ShTuple (declared_as x (result_enum te g)).
Proof.
  unfold declared_as. induction (result_enum te g) as [|[y tys] l IH]; [reflexivity|]. cbn [map filter fst].
  destruct (String.eqb x y); cbn [map]; rewrite IH; reflexivity.
Qed.
Lemma ctor_result self q x tys : self_or self q = "SemanticActionResult" -> String.eqb q "" = false -> declared_as x (result_enum te g) = [tys] ->
  ctor_of M self q x = Some ("SemanticActionResult", ShTuple tys).
Proof.
  intros Hq Hne Hx. unfold ctor_of. rewrite Hne, Hq, t_result, a_result, variants_map, Hx. cbn [map].
  rewrite (declared_none result_fns x); [reflexivity|]. intro H. eapply method_no_variant; [exact H| |reflexivity].
  apply in_map_iff. exists (x, tys). split; [reflexivity|]. apply declared_In. rewrite Hx. left; reflexivity.
Qed.
Lemma path_result {E V} stat self q x tys : self_or self q = "SemanticActionResult" -> String.eqb q "" = false -> String.eqb q "::std::mem" = false ->
  declared_as x (result_enum te g) = [tys] -> path_val (E := E) (V := V) M stat self q x = Some (VCtor "SemanticActionResult" x).
Proof.
  intros Hq H0 Hm Hx. unfold path_val. rewrite Hm, (ctor_result self q x tys Hq H0 Hx), H0, Hq, a_result.
  rewrite (declared_none result_fns x); [reflexivity|]. intro H. eapply method_no_variant; [exact H| |reflexivity].
  apply in_map_iff. exists (x, tys). split; [reflexivity|]. apply declared_In. rewrite Hx. left; reflexivity.
Qed.
Lemma path_method {E V} stat self m d : In m (map fst result_fns) -> declared_as m result_fns = [d] ->
  path_val (E := E) (V := V) M stat self "SemanticActionResult" m = Some (VFn "SemanticActionResult" m).
Proof.
  intros Hm Hd. unfold path_val. change (String.eqb "SemanticActionResult" "::std::mem") with false. change (String.eqb "SemanticActionResult" "") with false.
  change (self_or self "SemanticActionResult") with "SemanticActionResult". cbn match. rewrite a_result, Hd, t_result, variants_map.
  rewrite (declared_none (result_enum te g) m); [reflexivity|]. intro H. exact (method_no_variant m m Hm H eq_refl).
Qed.
Lemma fn_result m d : declared_as m result_fns = [d] -> fn_of M "SemanticActionResult" m = Some d.
Proof. intro H. unfold fn_of. change (String.eqb "SemanticActionResult" "") with false. cbn match. rewrite a_result, H. reflexivity. Qed.
Lemma fn_parser pr : In pr (gp_parsers gp) -> pr_name pr <> "" -> fn_of M (pr_name pr) "parse" = Some (parse_fn pr).
Proof. intros H Hn. unfold fn_of. apply String.eqb_neq in Hn. rewrite Hn, a_parser by auto. reflexivity. Qed.
Lemma fn_plain x f : declared_as x (vdefs M) = [DFn f] -> fn_of M "" x = Some f.
Proof. intro H. unfold fn_of. cbn [String.eqb]. rewrite H. reflexivity. Qed.
Lemma path_fn {E V} stat self x f : declared_as x (vdefs M) = [DFn f] -> path_val (E := E) (V := V) M stat self "" x = Some (VFn "" x).
Proof. intro H. unfold path_val. cbn [String.eqb]. rewrite H. reflexivity. Qed.
Lemma path_static {E V} stat self x d e : declared_as x (vdefs M) = [DStatic d e] -> path_val (E := E) (V := V) M stat self "" x = stat d e.
Proof. intro H. unfold path_val. cbn [String.eqb]. rewrite H. reflexivity. Qed.

(** The prelude. *)
Hypothesis Hprelude : forall x, In x outer_values -> ~ In x (value_items te g gp).
Lemma ctor_prelude self x : In x outer_values -> ctor_of M self "" x = prelude_ctor x.
Proof. intro H. unfold ctor_of. cbn [String.eqb]. rewrite declared_none; [reflexivity|]. rewrite emit_values. auto. Qed.
Lemma ctor_some self : ctor_of M self "" "Some" = Some ("Option", ShTuple ["T"]). Proof. rewrite ctor_prelude by (cbn; auto). reflexivity. Qed.
Lemma ctor_none self : ctor_of M self "" "None" = Some ("Option", ShUnit). Proof. rewrite ctor_prelude by (cbn; auto). reflexivity. Qed.
Lemma ctor_ok self : ctor_of M self "" "Ok" = Some ("Result", ShTuple ["T"]). Proof. rewrite ctor_prelude by (cbn; auto). reflexivity. Qed.
Lemma ctor_err self : ctor_of M self "" "Err" = Some ("Result", ShTuple ["E"]). Proof. rewrite ctor_prelude by (cbn; auto). reflexivity. Qed.
Lemma path_prelude {E V} stat self x : In x outer_values -> path_val (E := E) (V := V) M stat self "" x =
  match prelude_ctor x with Some (en, ShUnit) => Some (VCon en x []) | Some (_, ShTuple _) => Some (VCtor "" x) | _ => None end.
Proof.
  intro H. unfold path_val. cbn [String.eqb]. rewrite ctor_prelude by exact H. rewrite declared_none by (rewrite emit_values; auto).
  destruct (prelude_ctor x) as [[en [|tys|fs]]|]; reflexivity.
Qed.
Lemma ctor_shift self : ctor_of M self "LRAction" "Shift" = Some ("LRAction", ShFields [("next_state", "u32")]).
Proof. unfold ctor_of. change (self_or self "LRAction") with "LRAction". cbn match. rewrite t_action, a_action. reflexivity. Qed.
Lemma ctor_reduce self : ctor_of M self "LRAction" "Reduce" = Some ("LRAction", ShFields [("non_terminal_idx", "u16"); ("n_symbols", "u16"); ("semantic_action_idx", "u16")]).
Proof. unfold ctor_of. change (self_or self "LRAction") with "LRAction". cbn match. rewrite t_action, a_action. reflexivity. Qed.
Lemma ctor_accept self : ctor_of M self "LRAction" "Accept" = Some ("LRAction", ShUnit).
Proof. unfold ctor_of. change (self_or self "LRAction") with "LRAction". cbn match. rewrite t_action, a_action. reflexivity. Qed.
Lemma ctor_lexer_error self : ctor_of M self "ParseError" "LexerError" = Some ("ParseError", ShTuple ["E"]).
Proof. unfold ctor_of. change (self_or self "ParseError") with "ParseError". cbn match. rewrite t_error, a_error. reflexivity. Qed.
Lemma ctor_parser_error self : ctor_of M self "ParseError" "ParserError" = Some ("ParseError", ShFields [("found", "&'static str"); ("expected", "&'static str")]).
Proof. unfold ctor_of. change (self_or self "ParseError") with "ParseError". cbn match. rewrite t_error, a_error. reflexivity. Qed.
Lemma path_lexer_error {E V} stat self : path_val (E := E) (V := V) M stat self "ParseError" "LexerError" = Some (VCtor "ParseError" "LexerError").
Proof.
  unfold path_val. rewrite ctor_lexer_error. change (String.eqb "ParseError" "::std::mem") with false. change (String.eqb "ParseError" "") with false.
  change (self_or self "ParseError") with "ParseError". cbn match. rewrite a_error. reflexivity.
Qed.
Lemma path_accept {E V} stat self : path_val (E := E) (V := V) M stat self "LRAction" "Accept" = Some (VCon "LRAction" "Accept" []).
Proof.
  unfold path_val. rewrite ctor_accept. change (String.eqb "LRAction" "::std::mem") with false. change (String.eqb "LRAction" "") with false.
  change (self_or self "LRAction") with "LRAction". cbn match. rewrite a_action. reflexivity.
Qed.
End Module.
