(** * EmitTyped: the items of the emitted module are well-typed *)
From Coq Require Import NArith Ascii.
From Verif Require Import NamesProofs PropertiesHygiene EmitModule EmitRun EmitBinds.
From Verif Require Export TypedSpec RustTypesProofs.
Local Open Scope string_scope. Local Open Scope list_scope.

Scheme po_min := Minimality for pattern_of Sort Prop with pos_min := Minimality for patterns_of Sort Prop with pf_min := Minimality for fields_of Sort Prop.
Combined Scheme patterns_mutind from po_min, pos_min, pf_min.

Section Typed.
Context {A : Type}.
Variables (te : token_enum) (g : grammar (lexpr A)) (gp : generated (lexpr A)).
Variable U : user_types A.
Hypothesis Hev : resolvable te g gp.
Hypothesis Hout : forall x, In x (te_type_name te :: prelude_types) -> ~ In x (type_items gp).
Hypothesis Htok : ~ In (te_type_name te) (prelude_types ++ ["R"; "E"]).
Notation M := (emit te g gp).
Notation S := (emit_sigs te g gp).
Notation TT := (TUser (te_type_name te)).
Notation SAR := (TCon "SemanticActionResult" []).
Notation ERR := (TCon "ParseError" [TParam "E"]).
Let Hl := ev_len _ _ _ Hev. Let Hv := ev_values _ _ _ Hev. Let Ht := ev_types _ _ _ Hev. Let Hp := ev_prelude _ _ _ Hev.

(** ** Names of types *)
Lemma none_outer x : In x (te_type_name te :: prelude_types) -> declared_as x (tdefs M) = [].
Proof. intro H. apply declared_none. rewrite emit_types. apply Hout. exact H. Qed.
Lemma undeclared_outer x : In x (te_type_name te :: prelude_types) -> undeclared M x = true.
Proof. intro H. unfold undeclared. rewrite none_outer; auto. Qed.
Lemma undeclared_own x : In x own_types -> undeclared M x = false.
Proof.
  intro H. unfold undeclared. assert (Hd : exists vs, declared_as x (tdefs M) = [vs]); [|destruct Hd as (vs & ->); reflexivity].
  cbn in H. destruct H as [<-|[<-|[<-|[]]]]; eexists; [apply t_action|apply t_error|apply t_result]; exact Ht.
Qed.
Ltac outer := first [rewrite none_outer by (cbn; tauto) | rewrite undeclared_outer by (cbn; tauto)].
Lemma nt_option ps t : existsb (String.eqb "Option") ps = false -> named_type M S ps "Option" [t] = Some (option_ty t).
Proof. intro H. unfold named_type. rewrite H. outer. reflexivity. Qed.
Lemma nt_result ps t e : existsb (String.eqb "Result") ps = false -> named_type M S ps "Result" [t; e] = Some (result_ty t e).
Proof. intro H. unfold named_type. rewrite H. outer. reflexivity. Qed.
Lemma nt_vec ps t : existsb (String.eqb "Vec") ps = false -> named_type M S ps "Vec" [t] = Some (TVec t).
Proof. intro H. unfold named_type. rewrite H. outer. reflexivity. Qed.
Lemma nt_u32 ps : existsb (String.eqb "u32") ps = false -> named_type M S ps "u32" [] = Some (TInt U32).
Proof. intro H. unfold named_type. rewrite H. outer. reflexivity. Qed.
Lemma nt_usize ps : existsb (String.eqb "usize") ps = false -> named_type M S ps "usize" [] = Some (TInt Usize).
Proof. intro H. unfold named_type. rewrite H. outer. reflexivity. Qed.
Lemma nt_lr_action ps : existsb (String.eqb "LRAction") ps = false -> named_type M S ps "LRAction" [] = Some (TCon "LRAction" []).
Proof. intro H. unfold named_type. rewrite H, (t_action te g gp Ht). reflexivity. Qed.
Lemma nt_sar ps : existsb (String.eqb "SemanticActionResult") ps = false -> named_type M S ps "SemanticActionResult" [] = Some SAR.
Proof. intro H. unfold named_type. rewrite H, (t_result te g gp Ht). reflexivity. Qed.
Lemma nt_error ps t : existsb (String.eqb "ParseError") ps = false -> named_type M S ps "ParseError" [t] = Some (TCon "ParseError" [t]).
Proof. intro H. unfold named_type. rewrite H, (t_error te g gp Ht). reflexivity. Qed.
Lemma nt_param ps x : existsb (String.eqb x) ps = true -> named_type M S ps x [] = Some (TParam x).
Proof. intro H. unfold named_type. rewrite H. reflexivity. Qed.
Lemma tok_ne x : In x (prelude_types ++ ["R"; "E"]) -> String.eqb (te_type_name te) x = false.
Proof. intro H. apply String.eqb_neq. intros E. apply Htok. rewrite E. exact H. Qed.
Lemma nt_token ps : incl ps ["R"; "E"] -> named_type M S ps (te_type_name te) [] = Some TT.
Proof.
  intro H. unfold named_type. replace (existsb (String.eqb (te_type_name te)) ps) with false.
  - rewrite none_outer by (left; reflexivity). rewrite !tok_ne by (cbn; tauto). reflexivity.
  - symmetry. destruct (existsb (String.eqb (te_type_name te)) ps) eqn:E; [|reflexivity]. exfalso. apply existsb_exists in E. destruct E as (x & Hx & E).
    apply String.eqb_eq in E. apply Htok. rewrite E. apply in_or_app. right. apply H. exact Hx.
Qed.
Lemma text_user t : text_type M [] t = user_type t.
Proof. unfold text_type, user_type. cbn [existsb]. rewrite !undeclared_outer by (cbn; tauto). rewrite !Bool.andb_true_r. reflexivity. Qed.
Lemma text_param t : mentions "E" t = false -> text_type M ["E"] t = user_type t.
Proof.
  intro H. unfold text_type. cbn [existsb]. rewrite H. destruct (String.eqb_spec t "E") as [->|_]; [discriminate H|]. cbn [orb].
  unfold user_type. rewrite !undeclared_outer by (cbn; tauto). rewrite !Bool.andb_true_r. reflexivity.
Qed.
Lemma all_texts tys : all_some (map (resolve M S []) (map XtText tys)) = Some (map user_type tys).
Proof. induction tys as [|t tys IH]; [reflexivity|]. cbn [map all_some resolve]. rewrite IH, text_user. reflexivity. Qed.
Lemma resolve_tuple tys : resolve M S [] (s_tuple tys) = Some (parts_type tys).
Proof.
  unfold s_tuple, parts_type. destruct tys as [|t [|u tys]]; [reflexivity|cbn [resolve]; rewrite text_user; reflexivity|].
  cbn [resolve]. rewrite all_texts. reflexivity.
Qed.
Ltac names := repeat first [rewrite nt_option by reflexivity | rewrite nt_result by reflexivity | rewrite nt_vec by reflexivity | rewrite nt_u32 by reflexivity
  | rewrite nt_usize by reflexivity | rewrite nt_lr_action by reflexivity | rewrite nt_sar by reflexivity | rewrite nt_error by reflexivity
  | rewrite nt_param by reflexivity | rewrite nt_token by (intros ? [<-|[<-|[]]] || intros ? [<-|[]] || intros ? []; cbn; tauto)
  | rewrite undeclared_outer by (cbn; tauto)].
Ltac res := cbn [resolve map all_some fst s_parse_generic s_parse s_token_value s_token_terminal_idx s_action s_method fs_generics fs_params fs_ret
  s_input s_outcome s_token s_result s_value_stack option_map]; repeat (names; cbn [all_some option_map]).

Lemma sig_parse_generic : sig_type M S (s_parse_generic te)
  [TIter (result_ty TT (TParam "E")); TFn [SAR] (TParam "R"); TInt U32; TInt Usize] (result_ty (TParam "R") ERR).
Proof. split; res; reflexivity. Qed.
Lemma sig_parse pr : mentions "E" (pr_return_ty pr) = false -> sig_type M S (s_parse te pr) [TIter (result_ty TT (TParam "E"))] (result_ty (user_type (pr_return_ty pr)) ERR).
Proof. intro H. split; res; rewrite ?(text_param _ H); names; reflexivity. Qed.
Lemma sig_token_value : sig_type M S (s_token_value te) [TT] SAR.
Proof. split; res; reflexivity. Qed.
Lemma sig_token_terminal_idx : sig_type M S (s_token_terminal_idx te) [TRef TT] (TInt Usize).
Proof. split; res; reflexivity. Qed.
Lemma sig_action : sig_type M S s_action [TMut (TVec SAR)] unit_ty.
Proof. split; res; reflexivity. Qed.
Lemma sig_method tys : sig_type M S (s_method tys) [SAR] (parts_type tys).
Proof. split; [res; reflexivity|]. cbn [s_method fs_generics fs_ret map]. apply resolve_tuple. Qed.

(** Functions without type parameters have one instance. *)
Lemma subst_nil t : subst [] t = t.
Proof.
  revert t. fix IH 1. intros [w| |ts|t n|t|en args|t|t|args r|t|x|t|t]; cbn [subst assoc_get]; try reflexivity.
  - f_equal. induction ts as [|t ts IHt]; cbn; [reflexivity|]. rewrite IH, IHt. reflexivity.
  - rewrite IH. reflexivity.
  - rewrite IH. reflexivity.
  - f_equal. induction args as [|t ts IHt]; cbn; [reflexivity|]. rewrite IH, IHt. reflexivity.
  - rewrite IH. reflexivity.
  - rewrite IH. reflexivity.
  - rewrite IH. f_equal. induction args as [|t ts IHt]; cbn; [reflexivity|]. rewrite IH, IHt. reflexivity.
  - rewrite IH. reflexivity.
Qed.
Lemma plain_instance sc s ts r : fs_generics s = [] -> sig_type M S s ts r -> sig_instance M S U sc s ts r.
Proof.
  intros Hg Hs. exists [], ts, r. rewrite Hg. split; [exact Hs|]. split; [reflexivity|]. split; [constructor|]. rewrite subst_nil.
  split; [|reflexivity]. clear. induction ts as [|t ts IH]; cbn; [reflexivity|]. rewrite subst_nil, <- IH. reflexivity.
Qed.

(** ** Signatures *)
Lemma fn_sigs_nodup : NoDup (map fst (fn_sigs te g)).
Proof.
  unfold fn_sigs. rewrite !map_app, map_map. cbn [map fst]. rewrite map_id. pose proof Hv as H. unfold value_items in H. cbn [app] in H.
  apply NoDup_cons_iff in H. destruct H as (_ & H). apply NoDup_cons_iff in H. destruct H as (_ & H). apply NoDup_cons_iff in H. destruct H as (H1 & H).
  apply NoDup_cons_iff in H. destruct H as (H2 & H). cbn [app].
  assert (Hsub : forall x, In x (fn_names g ++ ["parse_generic"]) -> In x (fn_names g ++ ["SEMANTIC_ACTIONS"; "EXPECTED_TERMINALS"; "TERMINAL_STRS"; "parse_generic"] ++ map pr_name (gp_parsers gp))).
  { intros x Hx. apply in_app_or in Hx. apply in_or_app. destruct Hx as [Hx|[<-|[]]]; [left; exact Hx|right; cbn; tauto]. }
  constructor; [|constructor].
  - intros [E|H']; [apply H1; left; exact E|]. apply H1. right. apply Hsub. exact H'.
  - intro H'. apply H2. apply Hsub. exact H'.
  - apply NoDup_app_intro; [apply fn_names_nodup|constructor; [intros []|constructor]|]. intros x Hx [<-|[]]. eapply (NoDup_app_disj _ _ H); [exact Hx|cbn; tauto].
Qed.
Lemma sg_fn_In x s : In (x, s) (fn_sigs te g) -> sg_fn S x = Some s.
Proof. intro H. cbn [sg_fn emit_sigs]. unfold the_one. rewrite (declared_as_In _ fn_sigs_nodup _ _ H). reflexivity. Qed.
Lemma sg_idx : sg_fn S (token_terminal_idx_name te) = Some (s_token_terminal_idx te).
Proof. apply sg_fn_In. left; reflexivity. Qed.
Lemma sg_value : sg_fn S "token_value" = Some (s_token_value te).
Proof. apply sg_fn_In. right; left; reflexivity. Qed.
Lemma sg_generic : sg_fn S "parse_generic" = Some (s_parse_generic te).
Proof. apply sg_fn_In. apply in_or_app. right. apply in_or_app. right. left; reflexivity. Qed.
Lemma sg_action x : In x (fn_names g) -> sg_fn S x = Some s_action.
Proof. intro H. apply sg_fn_In. apply in_or_app. right. apply in_or_app. left. apply in_map_iff. eauto. Qed.

Lemma other_sigs q : In q own_types -> flat_map (fun pr => if String.eqb (pr_name pr) q then [("parse", s_parse te pr)] else []) (gp_parsers gp) = [].
Proof.
  intro Hq. pose proof (parser_name_not_own gp Ht) as H. revert H. generalize (gp_parsers gp). intro l. induction l as [|pr l IH]; intro H; cbn; [reflexivity|].
  destruct (String.eqb_spec (pr_name pr) q) as [E|_]; [exfalso; eapply H; [left; reflexivity|rewrite E; exact Hq]|]. apply IH. intros pr' H'. apply H. right; auto.
Qed.
Lemma result_sigs_names : map fst (result_sigs te g) = map fst (result_methods te g).
Proof.
  unfold result_sigs, result_methods. rewrite !map_app, !map_map. f_equal. unfold enumerate. generalize (te_conversions te) as l. intro l.
  generalize (seq_length (List.length l) 0). generalize (seq 0 (List.length l)). intro is. revert l.
  induction is as [|i is IH]; intros [|c l] H; cbn in *; try discriminate; auto. f_equal. apply IH. injection H as H; exact H.
Qed.
Lemma sg_result x s : In (x, s) (result_sigs te g) -> sg_assoc S "SemanticActionResult" x = Some s.
Proof.
  intro H. cbn [sg_assoc emit_sigs]. unfold the_one, assoc_sigs. rewrite String.eqb_refl, other_sigs by (cbn; tauto). rewrite app_nil_r.
  rewrite (declared_as_In (result_sigs te g) (eq_ind_r (@NoDup string) (result_methods_nodup te g) result_sigs_names) _ _ H). reflexivity.
Qed.
Lemma sg_token i c : nth_error (te_conversions te) i = Some c -> sg_assoc S "SemanticActionResult" (token_method_name i) = Some (s_method (pattern_types (cv_to c))).
Proof. intro H. apply sg_result. apply in_or_app. left. apply in_map_iff. exists (i, c). split; [reflexivity|]. apply enumerate_nth_error. exact H. Qed.
Lemma sg_non_terminal v : v < n_variants g -> sg_assoc S "SemanticActionResult" (non_terminal_method_name v) = Some (s_method (variant_type g v)).
Proof. intro H. apply sg_result. apply in_or_app. right. apply in_map_iff. exists v. split; [reflexivity|]. apply in_seq. split; [apply Nat.le_0_l|exact H]. Qed.
Lemma sg_parse pr : In pr (gp_parsers gp) -> sg_assoc S (pr_name pr) "parse" = Some (s_parse te pr).
Proof.
  intro Hin. cbn [sg_assoc emit_sigs]. unfold assoc_sigs. assert (Hne : String.eqb "SemanticActionResult" (pr_name pr) = false).
  { apply String.eqb_neq. intro E. apply (parser_name_not_own gp Ht pr Hin). rewrite <- E. cbn. auto. }
  rewrite Hne. cbn [app]. assert (E : flat_map (fun pr0 => if String.eqb (pr_name pr0) (pr_name pr) then [("parse", s_parse te pr0)] else []) (gp_parsers gp) = [("parse", s_parse te pr)]); [|rewrite E; reflexivity].
  pose proof (parsers_nodup gp Ht) as Hnd. revert Hnd Hin. generalize (gp_parsers gp). intro l. induction l as [|p l IH]; intros Hnd Hin; [contradiction|].
  cbn. inversion Hnd as [|? ? H1 H2]; subst. destruct Hin as [->|Hin].
  - rewrite String.eqb_refl. cbn. f_equal. clear - H1. induction l as [|p l IH]; cbn; [reflexivity|].
    destruct (String.eqb_spec (pr_name p) (pr_name pr)) as [E|_]; [exfalso; apply H1; left; auto|]. apply IH. intro H. apply H1. right; auto.
  - destruct (String.eqb_spec (pr_name p) (pr_name pr)) as [E|_]; [exfalso; apply H1; rewrite E; apply in_map; auto|]. cbn. auto.
Qed.

(** ** Fields *)
Lemma gen_option : enum_generics M S "Option" = ["T"]. Proof. unfold enum_generics. outer. reflexivity. Qed.
Lemma gen_result : enum_generics M S "Result" = ["T"; "E"]. Proof. unfold enum_generics. outer. reflexivity. Qed.
Lemma gen_lr_action : enum_generics M S "LRAction" = []. Proof. unfold enum_generics. rewrite undeclared_own by (cbn; tauto). reflexivity. Qed.
Lemma gen_error : enum_generics M S "ParseError" = ["E"]. Proof. unfold enum_generics. rewrite undeclared_own by (cbn; tauto). reflexivity. Qed.
Lemma gen_sar : enum_generics M S "SemanticActionResult" = []. Proof. unfold enum_generics. rewrite undeclared_own by (cbn; tauto). reflexivity. Qed.
Lemma ft_option t : field_type M S "Option" [t] "T" = t. Proof. unfold field_type. rewrite gen_option. reflexivity. Qed.
Lemma ft_ok t e : field_type M S "Result" [t; e] "T" = t. Proof. unfold field_type. rewrite gen_result. reflexivity. Qed.
Lemma ft_err t e : field_type M S "Result" [t; e] "E" = e. Proof. unfold field_type. rewrite gen_result. reflexivity. Qed.
Lemma ft_lexer e : field_type M S "ParseError" [e] "E" = e. Proof. unfold field_type. rewrite gen_error. reflexivity. Qed.
Lemma ft_str e : field_type M S "ParseError" [e] "&'static str" = TStr.
Proof. unfold field_type. rewrite gen_error. unfold text_type. rewrite undeclared_outer by (cbn; tauto). reflexivity. Qed.
Lemma ft_u32 : field_type M S "LRAction" [] "u32" = TInt U32.
Proof. unfold field_type. rewrite gen_lr_action. rewrite text_user. reflexivity. Qed.
Lemma ft_u16 : field_type M S "LRAction" [] "u16" = TInt U16.
Proof. unfold field_type. rewrite gen_lr_action. rewrite text_user. reflexivity. Qed.
Lemma ft_sar t : field_type M S "SemanticActionResult" [] t = user_type t.
Proof. unfold field_type. rewrite gen_sar, text_user. apply subst_nil. Qed.

(** ** Statics *)
Notation typed := (typed M S U).
Definition top : scope := {| sc_self := ""; sc_generics := []; sc_ret := unit_ty |}.
Lemma typed_none sc l G t : assoc_get "None" G = None -> typed sc l G (XId "None") (option_ty t).
Proof. intro H. apply (t_unit_ctor M S U sc l G "" "None" (XId "None") "Option"); [left; auto|apply (ctor_none te g gp Hl Hp)|rewrite gen_option; reflexivity]. Qed.
Lemma typed_some_fn sc l G t : assoc_get "Some" G = None -> typed sc l G (XId "Some") (TFn [t] (option_ty t)).
Proof.
  intro H. pose proof (t_tuple_ctor M S U sc l G "" "Some" (XId "Some") "Option" [t] ["T"]) as Hc. cbn [map] in Hc. rewrite ft_option in Hc.
  apply Hc; [left; auto|apply (ctor_some te g gp Hl Hp)|rewrite gen_option; reflexivity].
Qed.
Lemma typed_ok_fn sc l G t e : assoc_get "Ok" G = None -> typed sc l G (XId "Ok") (TFn [t] (result_ty t e)).
Proof.
  intro H. pose proof (t_tuple_ctor M S U sc l G "" "Ok" (XId "Ok") "Result" [t; e] ["T"]) as Hc. cbn [map] in Hc. rewrite ft_ok in Hc.
  apply Hc; [left; auto|apply (ctor_ok te g gp Hl Hp)|rewrite gen_result; reflexivity].
Qed.
Lemma typed_err_fn sc l G t e : assoc_get "Err" G = None -> typed sc l G (XId "Err") (TFn [e] (result_ty t e)).
Proof.
  intro H. pose proof (t_tuple_ctor M S U sc l G "" "Err" (XId "Err") "Result" [t; e] ["E"]) as Hc. cbn [map] in Hc. rewrite ft_err in Hc.
  apply Hc; [left; auto|apply (ctor_err te g gp Hl Hp)|rewrite gen_result; reflexivity].
Qed.
Lemma typed_lexer_fn sc l G e : typed sc l G (XPath "ParseError" "LexerError") (TFn [e] (TCon "ParseError" [e])).
Proof.
  pose proof (t_tuple_ctor M S U sc l G "ParseError" "LexerError" (XPath "ParseError" "LexerError") "ParseError" [e] ["E"]) as Hc. cbn [map] in Hc. rewrite ft_lexer in Hc.
  apply Hc; [right; split; [discriminate|reflexivity]|apply (ctor_lexer_error te g gp Ht)|rewrite gen_error; reflexivity].
Qed.
Lemma typed_call1 sc l G f e t r : typed sc l G f (TFn [t] r) -> typed sc l G e t -> typed sc l G (XCall f [e]) r.
Proof. intros Hf He. eapply t_call; [exact Hf|constructor; [exact He|constructor]|]. repeat constructor. Qed.
Lemma typed_option {X} sc l (f : X -> expr A) o t : (forall x, o = Some x -> typed sc l [] (f x) t) -> typed sc l [] (e_option f o) (option_ty t).
Proof. intro H. destruct o as [x|]; cbn [e_option]; [|apply typed_none; reflexivity]. eapply typed_call1; [apply typed_some_fn; reflexivity|auto]. Qed.
Lemma typed_table {X} sc (f : X -> expr A) (t : rty) (rows : list (list X)) d : (forall row, In row rows -> List.length row = d) ->
  (forall row x, In row rows -> In x row -> typed sc false [] (f x) t) ->
  typed sc false [] (XArray (map (fun row => XArray (map f row)) rows)) (arrays [List.length rows; d] t).
Proof.
  intros Hd H. cbn [arrays]. rewrite <- (map_length (fun row => XArray (map f row)) rows). apply t_array. apply Forall_forall. intros e He. apply in_map_iff in He.
  destruct He as (row & <- & Hr). rewrite <- (Hd row Hr). rewrite <- (map_length f row). apply t_array. apply Forall_forall. intros e He. apply in_map_iff in He.
  destruct He as (x & <- & Hx). eapply H; eauto.
Qed.
Lemma typed_action_entry sc l row r : In row (gp_action gp) -> In (Some r) row -> typed sc l [] (e_action r) (TCon "LRAction" []).
Proof.
  intros H1 H2. pose proof (ev_action_fit _ _ _ Hev row r H1 H2) as Hf. destruct r as [s|nt n act|]; cbn [e_action].
  - eapply t_struct; [apply (ctor_shift te g gp Ht)|reflexivity|rewrite gen_lr_action; reflexivity|]. cbn [map snd]. rewrite ft_u32. constructor; [apply t_int; exact Hf|constructor].
  - destruct Hf as (F1 & F2 & F3). eapply t_struct; [apply (ctor_reduce te g gp Ht)|reflexivity|rewrite gen_lr_action; reflexivity|]. cbn [map snd]. rewrite ft_u16.
    repeat (constructor; [apply t_int; assumption|]). constructor.
  - apply (t_unit_ctor M S U sc l [] "LRAction" "Accept" _ "LRAction"); [right; split; [discriminate|reflexivity]|apply (ctor_accept te g gp Ht)|rewrite gen_lr_action; reflexivity].
Qed.
Lemma ok_action_array : item_ok M S U (e_action_array gp).
Proof.
  exists (XtName "Option" [XtName "LRAction" []]), (option_ty (TCon "LRAction" [])). split; [reflexivity|]. split; [res; reflexivity|].
  apply typed_table; [exact (ev_action_rows _ _ _ Hev)|]. intros row o Hr Ho. apply typed_option. intros r ->. eapply typed_action_entry; eauto.
Qed.
Lemma ok_goto_array : item_ok M S U (e_goto_array g gp).
Proof.
  exists (XtName "Option" [XtName "u32" []]), (option_ty (TInt U32)). split; [reflexivity|]. split; [res; reflexivity|].
  apply typed_table; [exact (ev_goto_rows _ _ _ Hev)|]. intros row o Hr Ho. apply typed_option. intros r ->. apply t_int. exact (ev_goto_fit _ _ _ Hev row r Hr Ho).
Qed.
Lemma typed_strings sc l d : List.length l = d -> typed sc false [] (XArray (map XStr l)) (arrays [d] TStr).
Proof. intros <-. cbn [arrays]. rewrite <- (map_length (@XStr A) l). apply t_array. apply Forall_forall. intros e He. apply in_map_iff in He. destruct He as (s & <- & _). apply t_str. Qed.
Lemma ok_expected : item_ok M S U (e_expected gp).
Proof. exists XtStr, TStr. split; [reflexivity|]. split; [res; reflexivity|]. apply typed_strings. exact (ev_expected _ _ _ Hev). Qed.
Lemma ok_terminal_strs : item_ok M S U (e_terminal_strs gp).
Proof. exists XtStr, TStr. split; [reflexivity|]. split; [res; reflexivity|]. apply typed_strings. exact (ev_strs _ _ _ Hev). Qed.
Lemma action_declared x : In x (fn_names g) -> exists f, declared_as x (vdefs M) = [DFn f].
Proof.
  intro Hin. apply In_nth_error in Hin. destruct Hin as (k & Hk).
  assert (Hlt : k < List.length (gp_sem_actions gp)) by (rewrite <- Hl; apply nth_error_Some; congruence).
  destruct (nth_error (gp_sem_actions gp) k) as [f|] eqn:Ef; [|apply nth_error_None in Ef; lia]. eexists. exact (v_action te g gp Hl Hv k x f Hk Ef).
Qed.
Lemma ok_semantic_actions : item_ok M S U (e_semantic_actions g).
Proof.
  exists (XtFn [s_value_stack] (XtTup [])), (TFn [TMut (TVec SAR)] unit_ty). split; [reflexivity|]. split; [res; reflexivity|].
  cbn [arrays]. rewrite <- (map_length (@XId A) (fn_names g)). apply t_array. apply Forall_forall. intros e He. apply in_map_iff in He. destruct He as (x & <- & Hx).
  destruct (action_declared x Hx) as (f & Hf). eapply t_fn; [reflexivity|exact Hf|apply sg_action; exact Hx|]. apply plain_instance; [reflexivity|apply sig_action].
Qed.

(** ** Enums *)
Lemma impls_user bounds t : (user_type t = TUser t -> ut_impl U "Debug" t) -> impls M S U bounds "Debug" (user_type t).
Proof.
  unfold user_type. intro H. destruct (String.eqb t "&'static str"); [apply im_str; cbn; tauto|]. destruct (String.eqb t "u16"); [apply im_int; cbn; tauto|].
  destruct (String.eqb t "u32"); [apply im_int; cbn; tauto|]. destruct (String.eqb t "usize"); [apply im_int; cbn; tauto|]. apply im_user. apply H. reflexivity.
Qed.
Lemma derives_std en tr : In tr (sg_derives S en) -> In tr std_traits.
Proof.
  cbn [sg_derives emit_sigs]. destruct (String.eqb en "LRAction"); [cbn; tauto|]. destruct (String.eqb en "ParseError"); [cbn; tauto|].
  destruct (String.eqb en "SemanticActionResult"); cbn; tauto.
Qed.
Ltac nodups := repeat (constructor; [cbn; intuition discriminate|]); constructor.
Lemma ok_lr_action : item_ok M S U e_lr_action.
Proof.
  split; [nodups|]. split; [constructor|]. split; [constructor|]. split.
  { intros x fs [E|[E|[E|[]]]]; inversion E; subst; nodups. }
  split; [intros a []|]. split; [intros p []|]. intros tr x sh t Htr Hx Hty. pose proof (derives_std _ _ Htr) as Hs.
  change (sg_generics S "LRAction") with (@nil string). rewrite text_user.
  destruct Hx as [E|[E|[E|[]]]]; inversion E; subst; cbn in Hty; repeat (destruct Hty as [<-|Hty]; [apply im_int; exact Hs|]); destruct Hty.
Qed.
Lemma ok_parse_error : item_ok M S U e_parse_error.
Proof.
  split; [nodups|]. split; [constructor|]. split; [nodups|]. split.
  { intros x fs [E|[E|[]]]; inversion E; subst; nodups. }
  split; [intros a []|]. split.
  { intros p [<-|[]]. exists "LexerError", (ShTuple ["E"]), "E". split; [left; reflexivity|]. split; [left; reflexivity|reflexivity]. }
  intros tr x sh t Htr Hx Hty. pose proof (derives_std _ _ Htr) as Hs. change (sg_generics S "ParseError") with ["E"]. cbn [map].
  destruct Hx as [E|[E|[]]]; inversion E; subst; cbn in Hty.
  - destruct Hty as [<-|[]]. apply (im_param M S U _ tr "E" [tr]); [reflexivity|left; reflexivity].
  - assert (Ht2 : text_type M ["E"] "&'static str" = TStr) by (rewrite text_param by reflexivity; reflexivity).
    destruct Hty as [<-|[<-|[]]]; rewrite Ht2; apply im_str; exact Hs.
Qed.
Lemma ok_result_type : NoDup (te_lifetimes te) ->
  (forall a, In a (te_lifetimes te) -> exists x tys t, In (x, tys) (result_enum te g) /\ In t tys /\ mentions ("'" ++ a) t = true) ->
  (forall x tys t, In (x, tys) (result_enum te g) -> In t tys -> user_type t = TUser t -> ut_impl U "Debug" t) -> item_ok M S U (e_result_type te g).
Proof.
  intros Hnd Hlife Hdeb. assert (Hmap : forall x sh, In (x, sh) (map (fun '(x, tys) => (x, ShTuple tys)) (result_enum te g)) -> exists tys, sh = ShTuple tys /\ In (x, tys) (result_enum te g)).
  { intros x sh H. apply in_map_iff in H. destruct H as ([y tys] & E & H). inversion E; subst. eauto. }
  split.
  { rewrite map_map. erewrite map_ext; [apply (result_enum_nodup te g)|]. intros [x tys]. reflexivity. }
  split; [exact Hnd|]. split; [constructor|]. split.
  { intros x fs H. apply Hmap in H. destruct H as (tys & E & _). discriminate E. }
  split.
  { intros a Ha. destruct (Hlife a Ha) as (x & tys & t & H1 & H2 & H3). exists x, (ShTuple tys), t. split; [|auto]. apply in_map_iff. exists (x, tys). auto. }
  split; [intros p []|]. intros tr x sh t Htr Hx Hty. apply Hmap in Hx. destruct Hx as (tys & -> & Hx). cbn [sg_derives emit_sigs] in Htr. cbn in Htr. destruct Htr as [<-|[]].
  change (sg_generics S "SemanticActionResult") with (@nil string). rewrite text_user. apply impls_user. eapply Hdeb; eauto.
Qed.

(** ** Methods of [SemanticActionResult] *)
Lemma assoc_get_app {X} x (l l' : list (string * X)) : assoc_get x (l ++ l') = match assoc_get x l with Some v => Some v | None => assoc_get x l' end.
Proof. induction l as [|[y v] l IH]; cbn [app assoc_get]; [reflexivity|]. destruct (String.eqb x y); auto. Qed.
Lemma assoc_get_In {X} x (v : X) l : NoDup (map fst l) -> In (x, v) l -> assoc_get x l = Some v.
Proof.
  induction l as [|[y w] l IH]; intros Hnd Hin; [contradiction|]. inversion Hnd as [|? ? H1 H2]; subst. cbn [assoc_get]. destruct Hin as [E|Hin].
  - inversion E; subst. rewrite String.eqb_refl. reflexivity.
  - destruct (String.eqb_spec x y) as [->|_]; [|auto]. exfalso. apply H1. apply (in_map fst) in Hin. exact Hin.
Qed.
Lemma assoc_get_rev {X} x (v : X) l l' : NoDup (map fst l) -> In (x, v) l -> assoc_get x (rev l ++ l') = Some v.
Proof.
  intros Hnd Hin. rewrite assoc_get_app. rewrite (assoc_get_In x v); [reflexivity| |apply in_rev in Hin; exact Hin]. rewrite map_rev. apply NoDup_rev. exact Hnd.
Qed.
Lemma bounds_nil : bounds_ok M [].
Proof. split; [constructor|]. intros x trs tr []. Qed.
Lemma fn_ok_one self s x t r body : bounds_ok M (fs_generics s) -> sig_type M S s [t] r -> is_constant M x = false ->
  typed {| sc_self := self; sc_generics := fs_generics s; sc_ret := r |} false [(x, t)] body r -> fn_ok M S U self s {| fd_params := [x]; fd_body := body |}.
Proof.
  intros Hb Hs Hx Hty. split; [exact Hb|]. exists [t], r. split; [exact Hs|]. split; [reflexivity|]. split; [nodups|]. split; [constructor; [exact Hx|constructor]|]. exact Hty.
Qed.
Lemma binds_typed self b xs ts : List.length xs = List.length ts -> Forall (fun x => is_constant M x = false) xs ->
  pats_typed M S U self b (map PBind xs) ts (combine xs (map (by_mode b) ts)).
Proof.
  revert ts. induction xs as [|x xs IH]; intros [|t ts] Hlen Hc; try discriminate; cbn [map combine]; [constructor|]. inversion Hc; subst.
  change ((x, by_mode b t) :: combine xs (map (by_mode b) ts)) with ([(x, by_mode b t)] ++ combine xs (map (by_mode b) ts)). constructor; [constructor; assumption|].
  apply IH; [injection Hlen as E; exact E|assumption].
Qed.
Lemma ids_typed sc l G xs ts : List.length xs = List.length ts -> (forall x t, In (x, t) (combine xs ts) -> assoc_get x G = Some t) -> Forall2 (typed sc l G) (map XId xs) ts.
Proof.
  revert ts. induction xs as [|x xs IH]; intros [|t ts] Hlen H; try discriminate; cbn [map]; constructor.
  - apply t_var. apply H. left; reflexivity.
  - apply IH; [injection Hlen as E; exact E|]. intros y u Hy. apply H. right; exact Hy.
Qed.
Lemma ok_token_method i c : nth_error (te_conversions te) i = Some c ->
  fn_ok M S U "SemanticActionResult" (s_method (pattern_types (cv_to c))) (snd (e_token_method i c)).
Proof.
  intro Hc. unfold e_token_method. cbn [snd]. eapply fn_ok_one; [apply bounds_nil|apply sig_method|apply (ev_locals _ _ _ Hev); cbn; tauto|].
  set (fields := map field_ident (seq 0 (List.length (pattern_types (cv_to c))))).
  assert (Hfl : List.length fields = List.length (map user_type (pattern_types (cv_to c)))) by (unfold fields; rewrite !map_length, seq_length; reflexivity).
  assert (Hnd : NoDup fields).
  { unfold fields. apply FinFun.Injective_map_NoDup; [|apply seq_NoDup]. intros a b E. apply field_ident_inj. exact E. }
  assert (Hcomb : map fst (combine fields (map user_type (pattern_types (cv_to c)))) = fields) by (apply map_fst_combine; exact Hfl).
  eapply t_match; [apply t_var; reflexivity| |].
  - constructor; [|constructor; [|constructor]].
    + exists (combine fields (map user_type (pattern_types (cv_to c)))). cbn [fst snd]. split; [|split].
      * eapply pt_tuple; [apply (ctor_result te g gp Ht); [reflexivity|reflexivity|apply (token_variant_declared te g i c Hc)]|rewrite gen_sar; reflexivity|].
        replace (map (field_type M S "SemanticActionResult" []) (pattern_types (cv_to c))) with (map user_type (pattern_types (cv_to c))).
        2: { apply map_ext. intro t. symmetry. apply ft_sar. }
        rewrite <- (map_id (map user_type (pattern_types (cv_to c)))) at 2. apply binds_typed; [exact Hfl|]. apply Forall_forall. intros x Hx. apply in_map_iff in Hx.
        destruct Hx as (k & <- & Hk). apply (ev_parts _ _ _ Hev c); [eapply nth_error_In; eauto|]. apply in_seq in Hk. destruct Hk as [_ Hk]. exact Hk.
      * rewrite Hcomb. exact Hnd.
      * assert (Hids : forall l, Forall2 (typed {| sc_self := "SemanticActionResult"; sc_generics := []; sc_ret := parts_type (pattern_types (cv_to c)) |} l
           (rev (combine fields (map user_type (pattern_types (cv_to c)))) ++ [("self", SAR)])) (map XId fields) (map user_type (pattern_types (cv_to c)))).
        { intro l. assert (Hin : forall x t, In (x, t) (combine fields (map user_type (pattern_types (cv_to c)))) ->
            assoc_get x (rev (combine fields (map user_type (pattern_types (cv_to c)))) ++ [("self", SAR)]) = Some t).
          { intros x t Hx. apply assoc_get_rev; [rewrite Hcomb; exact Hnd|exact Hx]. }
          apply ids_typed; assumption. }
        specialize (Hids false). unfold e_tuple, parts_type. clearbody fields. clear - Hids Hfl.
        destruct fields as [|x [|x2 fields]]; destruct (pattern_types (cv_to c)) as [|t [|t2 ts]]; try discriminate; cbn [map] in *.
        -- apply t_tuple; [exact Hids|discriminate].
        -- inversion Hids; subst; assumption.
        -- apply t_tuple; [exact Hids|discriminate].
    + exists []. cbn [fst snd]. split; [constructor|]. split; [constructor|]. apply t_unreachable.
  - cbn [map fst]. eapply ex_all; [right; left; reflexivity|exact Logic.I].
Qed.
Lemma variant_single v : v < n_variants g -> exists t, variant_type g v = [t] /\ declared_as (non_terminal_variant_name v) (result_enum te g) = [[t]].
Proof.
  intro Hlt. assert (H : exists i N, get_non_terminal g i = Some N /\ variant_of (variant_names g) i = Some v).
  { unfold n_variants, variant_of, variant_names in *. destruct (fold_left variant_step (g_nts g) ([], [], 0)) as [[names tys] k] eqn:E. cbn in *.
    destruct (variants_inv _ _ _ _ E) as [L1 L2 L3 L4 L5]. destruct (L5 v Hlt) as (i & Hi).
    assert (Hil : i < List.length (g_nts g)) by (rewrite <- L1; apply nth_error_Some; congruence).
    destruct (nth_error (g_nts g) i) as [N|] eqn:En; [|apply nth_error_None in En; exfalso; clear - Hil En; lia]. exists i, N. auto. }
  destruct H as (i & N & HN & Hvi). exists (nt_return_ty N). split; [eapply variant_type_of; eauto|]. apply (nt_variant_declared te g i N v HN Hvi).
Qed.
Lemma ok_non_terminal_method v : v < n_variants g -> fn_ok M S U "SemanticActionResult" (s_method (variant_type g v)) (snd (e_non_terminal_method v)).
Proof.
  intro Hlt. destruct (variant_single v Hlt) as (t & -> & Hd). unfold e_non_terminal_method. cbn [snd].
  eapply fn_ok_one; [apply bounds_nil|apply sig_method|apply (ev_locals _ _ _ Hev); cbn; tauto|].
  eapply t_match; [apply t_var; reflexivity| |].
  - constructor; [|constructor; [|constructor]].
    + exists [("f", user_type t)]. cbn [fst snd]. split; [|split].
      * eapply pt_tuple; [apply (ctor_result te g gp Ht); [reflexivity|reflexivity|exact Hd]|rewrite gen_sar; reflexivity|].
        cbn [map]. rewrite ft_sar. apply (binds_typed "SemanticActionResult" false ["f"] [user_type t]); [reflexivity|]. constructor; [|constructor]. apply (ev_locals _ _ _ Hev); cbn; tauto.
      * nodups.
      * apply t_var. reflexivity.
    + exists []. cbn [fst snd]. split; [constructor|]. split; [constructor|]. apply t_unreachable.
  - cbn [map fst]. eapply ex_all; [right; left; reflexivity|exact Logic.I].
Qed.
Lemma ok_result_impl : item_ok M S U (e_result_impl te g).
Proof.
  change (e_result_impl te g) with (IImpl "SemanticActionResult" (result_fns (A := A) te g)). split; [eexists; apply (t_result te g gp Ht)|]. split.
  { rewrite result_fns_names. apply result_methods_nodup. }
  apply Forall_app. split; apply Forall_forall; intros [x f] Hin; apply in_map_iff in Hin.
  - destruct Hin as ([i c] & E & Hin). apply enumerate_nth_error in Hin. inversion E; subst. exists (s_method (pattern_types (cv_to c))). cbn [fst snd].
    split; [apply sg_token; exact Hin|]. apply (ok_token_method i c Hin).
  - destruct Hin as (v & E & Hin). inversion E; subst. apply in_seq in Hin. destruct Hin as [_ Hin]. exists (s_method (variant_type g v)). cbn [fst snd].
    split; [apply sg_non_terminal; exact Hin|]. apply (ok_non_terminal_method v Hin).
Qed.

(** ** Token patterns *)
Lemma ignore_rest p : pattern_ignore p = RPRest -> p = PatDotDot.
Proof. destruct p; cbn; congruence. Qed.
Lemma ignore_typed : (forall p t, pattern_of U p t -> forall b, rpat_typed M U b (pattern_ignore p) t []) /\
  (forall ps ts, patterns_of U ps ts -> forall b, rpats_typed M U b (map pattern_ignore ps) ts []) /\
  (forall fs fts, fields_of U fs fts -> forall b, rfields_typed M U b (map (fun '(f, q) => (f, pattern_ignore q)) fs) fts []).
Proof.
  apply patterns_mutind.
  - intros t b. apply rt_wild.
  - intros t b. apply rt_wild.
  - intros c t H b. apply rt_path. exact H.
  - intros l t H b. apply rt_lit. exact H.
  - intros c ps ts t H _ IH b. cbn [pattern_ignore]. eapply rt_tuple_struct; eauto.
  - intros ps ts _ IH b. cbn [pattern_ignore]. apply rt_tuple. apply IH.
  - intros c fs dots fts t H Hnd Hincl _ IH b. cbn [pattern_ignore].
    assert (E : map fst (map (fun '(f, q) => (f, pattern_ignore q)) fs) = map fst fs) by (rewrite map_map; apply map_ext; intros [f q]; reflexivity).
    eapply rt_struct; [exact H|rewrite E; exact Hnd|rewrite E; exact Hincl|apply IH].
  - intros p t _ _ IH b. apply rt_ref. apply IH.
  - intro b. apply rts_nil.
  - intros p ps t ts _ IH1 _ IH2 b. cbn [map]. change (@nil (string * rty)) with (@nil (string * rty) ++ []). apply rts_cons; [apply IH1|apply IH2].
  - intros ps ts us Hno _ IH b. cbn [map pattern_ignore]. apply rts_rest; [|apply IH]. intro Hin. apply in_map_iff in Hin. destruct Hin as (p & E & Hp0). apply ignore_rest in E. subst. auto.
  - intros fts b. apply rf_nil.
  - intros f p fs fts t H _ IH1 _ IH2 b. cbn [map]. change (@nil (string * rty)) with (@nil (string * rty) ++ []). eapply rf_cons; [exact H|apply IH1|apply IH2].
Qed.
Lemma erase_ignore p : erase (pattern_ignore p) = pattern_ignore p.
Proof.
  induction p as [path ps H|path fs dots H|ps H|path| | |l|t] using pattern_ind'; cbn; auto.
  - f_equal. rewrite map_map. apply map_ext_in. rewrite Forall_forall in H. exact H.
  - f_equal. rewrite map_map. apply map_ext_in. intros [f q] Hin. rewrite Forall_forall in H. f_equal. exact (H _ Hin).
  - f_equal. rewrite map_map. apply map_ext_in. rewrite Forall_forall in H. exact H.
Qed.

Definition free_idents (n : nat) : Prop := forall k, k < n -> is_constant M (field_ident k) = false.
Definition part_vars (from : nat) (tys : list ty) : list (string * rty) := combine (idents from (List.length tys)) (map user_type tys).
Lemma part_vars_app from t1 t2 : part_vars from (t1 ++ t2) = part_vars from t1 ++ part_vars (from + List.length t1) t2.
Proof.
  unfold part_vars. rewrite app_length, idents_app, map_app. revert from. induction t1 as [|t t1 IH]; intro from; cbn [List.length app map].
  - rewrite Nat.add_0_r. reflexivity.
  - change (idents from (Datatypes.S (List.length t1))) with (field_ident from :: idents (Datatypes.S from) (List.length t1)). cbn [app combine]. f_equal.
    rewrite <- Nat.add_succ_comm. apply IH.
Qed.
Lemma no_vars : (forall b r t vs, rpat_typed M U b r t vs -> vs = [] -> forall b', rpat_typed M U b' r t []) /\
  (forall b rs ts vs, rpats_typed M U b rs ts vs -> vs = [] -> forall b', rpats_typed M U b' rs ts []) /\
  (forall b fs fts vs, rfields_typed M U b fs fts vs -> vs = [] -> forall b', rfields_typed M U b' fs fts []).
Proof.
  apply rpats_mutind; try (intros; constructor; eauto; fail).
  - discriminate.
  - intros. eapply rt_tuple_struct; eauto.
  - intros b c fs dots fts t vs H1 H2 H3 _ IH E b'. eapply rt_struct; eauto.
  - intros b r rs t ts vs ws _ IH1 _ IH2 E b'. apply app_eq_nil in E. destruct E as [E1 E2]. change (@nil (string * rty)) with (@nil (string * rty) ++ []). apply rts_cons; auto.
  - intros b f r fs fts t vs ws H _ IH1 _ IH2 E b'. apply app_eq_nil in E. destruct E as [E1 E2]. change (@nil (string * rty)) with (@nil (string * rty) ++ []). eapply rf_cons; eauto.
Qed.
Lemma gen_typed : (forall p t, pattern_of U p t -> no_single_tuple p = true -> forall ids, free_idents (List.length ids + List.length (pattern_types p)) ->
    exists r, gen_pattern p ids = (r, ids ++ idents (List.length ids) (List.length (pattern_types p))) /\
      rpat_typed M U false r t (part_vars (List.length ids) (pattern_types p)) /\ erase r = pattern_ignore p) /\
  (forall ps ts, patterns_of U ps ts -> forallb no_single_tuple ps = true -> forall ids, free_idents (List.length ids + List.length (flat_map pattern_types ps)) ->
    exists rs, gen_list gen_pattern ps ids = (rs, ids ++ idents (List.length ids) (List.length (flat_map pattern_types ps))) /\
      rpats_typed M U false rs ts (part_vars (List.length ids) (flat_map pattern_types ps)) /\ map erase rs = map pattern_ignore ps) /\
  (forall fs fts, fields_of U fs fts -> forallb (fun '(_, q) => no_single_tuple q) fs = true -> forall ids,
    let tys := flat_map (fun '(_, q) => pattern_types q) fs in free_idents (List.length ids + List.length tys) ->
    exists rs, gen_fields gen_pattern fs ids = (rs, ids ++ idents (List.length ids) (List.length tys)) /\
      rfields_typed M U false rs fts (part_vars (List.length ids) tys) /\
      map (fun '(f, r) => (f, erase r)) rs = map (fun '(f, q) => (f, pattern_ignore q)) fs).
Proof.
  apply patterns_mutind.
  - intros t _ ids Hf. exists (RPIdent (field_ident (List.length ids))). split; [reflexivity|]. split; [|reflexivity].
    apply (rt_ident M U false). apply Hf. cbn. lia.
  - intros t _ ids _. exists RPWild. split; [cbn; rewrite app_nil_r; reflexivity|]. split; [apply rt_wild|reflexivity].
  - intros c t H _ ids _. exists (RPPath c). split; [cbn; rewrite app_nil_r; reflexivity|]. split; [apply rt_path; exact H|reflexivity].
  - intros l t H _ ids _. exists (RPLit l). split; [cbn; rewrite app_nil_r; reflexivity|]. split; [apply rt_lit; exact H|reflexivity].
  - intros c ps ts t H _ IH Hs ids Hf. cbn [no_single_tuple] in Hs. destruct (IH Hs ids Hf) as (rs & E1 & E2 & E3). exists (RPTupleStruct c rs).
    cbn [gen_pattern]. rewrite E1. split; [reflexivity|]. split; [eapply rt_tuple_struct; eauto|]. cbn. rewrite E3. reflexivity.
  - intros ps ts _ IH Hs ids Hf. assert (Hs' : forallb no_single_tuple ps = true).
    { destruct ps as [|q [|q' ps]]; auto. cbn in Hs. destruct q; try discriminate. reflexivity. }
    destruct (IH Hs' ids Hf) as (rs & E1 & E2 & E3). exists (RPTuple rs). cbn [gen_pattern]. rewrite E1.
    assert (Ht2 : tuple_no_trailing_comma rs = RPTuple rs).
    { destruct rs as [|r [|r' rs]]; auto; [|cbn; destruct r; reflexivity]. destruct ps as [|q [|q' ps]]; try discriminate E3. cbn in Hs. destruct q; try discriminate.
      cbn in E3. destruct r; try discriminate E3. reflexivity. }
    rewrite Ht2. split; [reflexivity|]. split; [apply rt_tuple; exact E2|]. cbn. rewrite E3. reflexivity.
  - intros c fs dots fts t H Hnd Hincl _ IH Hs ids Hf. cbn [no_single_tuple] in Hs. destruct (IH Hs ids Hf) as (rs & E1 & E2 & E3). exists (RPStruct c rs dots).
    cbn [gen_pattern]. rewrite E1. split; [reflexivity|]. split; [|cbn; rewrite E3; reflexivity].
    assert (E : map fst rs = map fst fs).
    { apply (f_equal (map fst)) in E3. rewrite !map_map in E3. transitivity (map (fun x => fst (let '(f, r) := x in (f, erase r))) rs); [apply map_ext; intros [f r]; reflexivity|].
      rewrite E3. apply map_ext. intros [f q]; reflexivity. }
    eapply rt_struct; [exact H|rewrite E; exact Hnd|rewrite E; exact Hincl|exact E2].
  - intros p t Hty _ IH Hs ids Hf. destruct (IH Hs ids Hf) as (r & E1 & E2 & E3). exists r. split; [exact E1|]. split; [|exact E3].
    rewrite Hty in *. apply rt_ref. apply (proj1 no_vars _ _ _ _ E2). reflexivity.
  - intros _ ids _. exists []. split; [cbn; rewrite app_nil_r; reflexivity|]. split; [apply rts_nil|reflexivity].
  - intros p ps t ts _ IH1 _ IH2 Hs ids Hf. cbn [forallb] in Hs. apply andb_prop in Hs. destruct Hs as [S1 S2]. cbn [flat_map] in *. rewrite app_length in *.
    destruct (IH1 S1 ids) as (r & E1 & E2 & E3); [intros k Hk; apply Hf; lia|].
    destruct (IH2 S2 (ids ++ idents (List.length ids) (List.length (pattern_types p)))) as (rs & F1 & F2 & F3); [intros k Hk; apply Hf; rewrite app_length, idents_length in Hk; lia|].
    rewrite app_length, idents_length in *. exists (r :: rs). cbn [gen_list]. rewrite E1, F1. split; [rewrite idents_app, <- app_assoc; reflexivity|].
    split; [rewrite part_vars_app; apply rts_cons; assumption|cbn [map]; rewrite E3, F3; reflexivity].
  - intros ps ts us Hno _ IH Hs ids Hf. cbn [forallb no_single_tuple andb] in Hs. cbn [flat_map pattern_types app] in *. destruct (IH Hs ids Hf) as (rs & E1 & E2 & E3).
    exists (RPRest :: rs). cbn [gen_list gen_pattern]. rewrite E1. split; [reflexivity|]. split; [|cbn [map erase pattern_ignore]; rewrite E3; reflexivity].
    apply rts_rest; [|exact E2]. intro Hin. apply (in_map erase) in Hin. rewrite E3 in Hin. apply in_map_iff in Hin. destruct Hin as (p & E & Hp0). apply ignore_rest in E. subst. auto.
  - intros fts _ ids tys _. exists []. split; [cbn; rewrite app_nil_r; reflexivity|]. split; [apply rf_nil|reflexivity].
  - intros f p fs fts t H _ IH1 _ IH2 Hs ids tys Hf. cbn [forallb] in Hs. apply andb_prop in Hs. destruct Hs as [S1 S2]. subst tys. cbn [flat_map] in *. rewrite app_length in *.
    destruct (IH1 S1 ids) as (r & E1 & E2 & E3); [intros k Hk; apply Hf; lia|].
    destruct (IH2 S2 (ids ++ idents (List.length ids) (List.length (pattern_types p)))) as (rs & F1 & F2 & F3); [intros k Hk; apply Hf; rewrite app_length, idents_length in Hk; lia|].
    rewrite app_length, idents_length in *. exists ((f, r) :: rs). cbn [gen_fields]. rewrite E1, F1. split; [rewrite idents_app, <- app_assoc; reflexivity|].
    split; [rewrite part_vars_app; eapply rf_cons; eassumption|cbn [map]; rewrite E3, F3; reflexivity].
Qed.

(** ** Token functions *)
Lemma map_enumerate {X Y} (f : X -> Y) (l : list X) : map (fun '(_, c) => f c) (enumerate l) = map f l.
Proof.
  unfold enumerate. generalize (seq_length (List.length l) 0). generalize (seq 0 (List.length l)). intro is. revert l.
  induction is as [|i is IH]; intros [|c l] H; cbn in *; try discriminate; auto. f_equal. apply IH. injection H as H; exact H.
Qed.
Lemma ok_token_terminal_idx : te_conversions te <> [] ->
  (forall c, In c (te_conversions te) -> pattern_of U (cv_to c) TT) ->
  ut_covers U (map (fun c => pattern_ignore (cv_to c)) (te_conversions te)) TT -> item_ok M S U (e_token_terminal_idx te).
Proof.
  intros Hne Hpat Hcov. exists (s_token_terminal_idx te). split; [apply sg_idx|].
  eapply fn_ok_one; [apply bounds_nil|apply sig_token_terminal_idx|apply (ev_locals _ _ _ Hev); cbn; tauto|].
  eapply t_match; [apply t_var; reflexivity| |].
  - apply Forall_forall. intros a Ha. apply in_map_iff in Ha. destruct Ha as ([i c] & <- & Hin). apply enumerate_nth_error in Hin. exists []. cbn [fst snd].
    split; [|split; [constructor|apply t_int; reflexivity]]. apply pt_user. apply rt_ref. apply ignore_typed. apply Hpat. eapply nth_error_In; eauto.
  - replace (map fst _) with (map PUser (map (fun c => pattern_ignore (cv_to c)) (te_conversions te))).
    + apply ex_ref; [destruct (te_conversions te); [congruence|discriminate]|]. apply ex_user. rewrite map_map. erewrite map_ext; [exact Hcov|]. intro c. apply erase_ignore.
    + rewrite map_map, <- (map_enumerate (fun c => PUser (pattern_ignore (cv_to c)))), map_map. apply map_ext. intros [i c]. reflexivity.
Qed.
Lemma part_vars_names from tys : map fst (part_vars from tys) = idents from (List.length tys).
Proof. unfold part_vars. apply map_fst_combine. rewrite idents_length, map_length. reflexivity. Qed.
Lemma ok_token_value : (forall c, In c (te_conversions te) -> no_single_tuple (cv_to c) = true) ->
  (forall c, In c (te_conversions te) -> pattern_of U (cv_to c) TT) ->
  ut_covers U (map (fun c => pattern_ignore (cv_to c)) (te_conversions te)) TT -> item_ok M S U (e_token_value te).
Proof.
  intros Hns Hpat Hcov. exists (s_token_value te). split; [apply sg_value|].
  assert (Hgen : forall c, In c (te_conversions te) -> exists r, generate_pattern_syn_with_idents (cv_to c) = (r, idents 0 (List.length (pattern_types (cv_to c)))) /\
    rpat_typed M U false r TT (part_vars 0 (pattern_types (cv_to c))) /\ erase r = pattern_ignore (cv_to c)).
  { intros c Hc. destruct (proj1 gen_typed (cv_to c) TT (Hpat c Hc) (Hns c Hc) []) as (r & E1 & E2 & E3).
    - intros k Hk. apply (ev_parts _ _ _ Hev c k Hc). exact Hk.
    - exists r. auto. }
  eapply fn_ok_one; [apply bounds_nil|apply sig_token_value|apply (ev_locals _ _ _ Hev); cbn; tauto|].
  eapply t_match; [apply t_var; reflexivity| |].
  - apply Forall_forall. intros a Ha. apply in_map_iff in Ha. destruct Ha as ([i c] & <- & Hin). apply enumerate_nth_error in Hin.
    destruct (Hgen c (nth_error_In _ _ Hin)) as (r & E1 & E2 & E3). rewrite E1. exists (part_vars 0 (pattern_types (cv_to c))). cbn [fst snd].
    split; [apply pt_user; exact E2|]. split; [rewrite part_vars_names; apply idents_NoDup|].
    eapply t_call with (ts := map (field_type M S "SemanticActionResult" []) (pattern_types (cv_to c))) (us := map user_type (pattern_types (cv_to c))).
    + apply (t_tuple_ctor M S U _ _ _ "SemanticActionResult" (token_variant_name i) _ "SemanticActionResult"); [right; split; [discriminate|reflexivity]| |rewrite gen_sar; reflexivity].
      apply (ctor_result te g gp Ht); [reflexivity|reflexivity|apply (token_variant_declared te g i c Hin)].
    + apply ids_typed; [rewrite idents_length, map_length; reflexivity|]. intros x t Hx. apply assoc_get_rev; [rewrite part_vars_names; apply idents_NoDup|exact Hx].
    + replace (map (field_type M S "SemanticActionResult" []) (pattern_types (cv_to c))) with (map user_type (pattern_types (cv_to c))).
      * generalize (map user_type (pattern_types (cv_to c))). intro l. induction l; constructor; [constructor|assumption].
      * apply map_ext. intro t. symmetry. apply ft_sar.
  - replace (map fst _) with (map PUser (map (fun c => fst (generate_pattern_syn_with_idents (cv_to c))) (te_conversions te))).
    + apply ex_user. rewrite map_map. erewrite map_ext_in; [exact Hcov|]. intros c Hc. destruct (Hgen c Hc) as (r & E1 & E2 & E3). rewrite E1. exact E3.
    + rewrite map_map, <- (map_enumerate (fun c => PUser (fst (generate_pattern_syn_with_idents (cv_to c))))), map_map. apply map_ext. intros [i c].
      destruct (generate_pattern_syn_with_idents (cv_to c)) as [r xs]. reflexivity.
Qed.

(** ** Action functions *)

(** What a method of [SemanticActionResult] extracts *)
Definition method_type (e : extract_method) (tys : list ty) : Prop :=
  match e with
  | ExToken i => exists c, nth_error (te_conversions te) i = Some c /\ pattern_types (cv_to c) = tys
  | ExNonTerminal v => v < n_variants g /\ variant_type g v = tys
  end.
Lemma typed_method sc l G r e tys : typed sc l G r SAR -> method_type e tys -> typed sc l G (XMethod r (method_name e) []) (parts_type tys).
Proof.
  intros Hr He. assert (Hd : exists f, declared_as (method_name e) (assoc_fns M "SemanticActionResult") = [f] /\ sg_assoc S "SemanticActionResult" (method_name e) = Some (s_method tys)).
  { rewrite (a_result te g gp Ht). destruct e as [v|i]; cbn [method_name method_type] in *.
    - destruct He as (Hlt & <-). eexists. split; [apply (m_non_terminal te g v Hlt)|apply sg_non_terminal; exact Hlt].
    - destruct He as (c & Hc & <-). eexists. split; [apply (m_token te g i c Hc)|apply sg_token; exact Hc]. }
  destruct Hd as (f & Hd & Hs). eapply t_method; [exact Hr|exact Hd|exact Hs|apply plain_instance; [reflexivity|apply sig_method]|reflexivity|constructor|constructor].
Qed.
Inductive pops_vars : list pop_stmt -> list (string * rty) -> Prop :=
| pv_nil : pops_vars [] []
| pv_ignore : forall pops vs, pops_vars pops vs -> pops_vars (PopIgnore :: pops) vs
| pv_bind : forall m x e pops tys vs, method_type e tys -> is_constant M x = false -> x <> "value_stack" -> pops_vars pops vs ->
    pops_vars (PopBind m x e :: pops) ((x, parts_type tys) :: vs).
Lemma typed_body sc l v t a pops vs : pops_vars pops vs -> declared_as (non_terminal_variant_name v) (result_enum te g) = [[t]] -> forall G,
  assoc_get "value_stack" G = Some (TMut (TVec SAR)) ->
  typed sc l (rev vs ++ G) (match a with EUser a => XUser a | EVar x => XId x end) (user_type t) -> typed sc l G (e_body pops v a) unit_ty.
Proof.
  intros H Hd. induction H as [|pops vs H IH|m x e pops tys vs He Hx Hne H IH]; intros G HG Ha; cbn [e_body].
  - eapply t_push; [apply t_var; exact HG|right; reflexivity|]. eapply typed_call1; [|exact Ha].
    pose proof (t_tuple_ctor M S U sc l G "SemanticActionResult" (non_terminal_variant_name v) (XPath "SemanticActionResult" (non_terminal_variant_name v)) "SemanticActionResult" [] [t]) as Hc.
    cbn [map] in Hc. rewrite ft_sar in Hc. apply Hc; [right; split; [discriminate|reflexivity]|apply (ctor_result te g gp Ht); [reflexivity|reflexivity|exact Hd]|rewrite gen_sar; reflexivity].
  - eapply t_seq; [eapply t_pop; [apply t_var; exact HG|right; reflexivity]|]. apply IH; assumption.
  - eapply t_let; [exact Hx|eapply typed_method; [|exact He]|].
    + eapply t_unwrap. eapply t_pop; [apply t_var; exact HG|right; reflexivity].
    + apply IH.
      * cbn [assoc_get]. destruct (String.eqb_spec "value_stack" x) as [E|_]; [congruence|exact HG].
      * cbn [rev] in Ha. rewrite <- app_assoc in Ha. exact Ha.
Qed.
Lemma pops_vars_names pops vs : pops_vars pops vs -> Forall (fun xt => fst xt <> "value_stack") vs.
Proof. induction 1; [constructor|assumption|constructor; assumption]. Qed.
Lemma visible_all vs t : Forall (fun xt : string * rty => fst xt <> "value_stack") vs -> visible_types (rev vs ++ [("value_stack", t)]) = rev vs.
Proof.
  intro H. unfold visible_types. rewrite filter_app. cbn [filter]. change (String.eqb "value_stack" "value_stack") with true. cbn [negb]. rewrite app_nil_r.
  apply Forall_rev in H. induction H as [|[x u] l Hx Hl2 IH]; [reflexivity|]. cbn [filter]. cbn [fst] in Hx. destruct (String.eqb_spec x "value_stack") as [E|_]; [congruence|].
  cbn [negb]. rewrite IH. reflexivity.
Qed.
Lemma ok_action_fn name f vs t : In name (fn_names g) -> pops_vars (sf_pops f) vs ->
  declared_as (non_terminal_variant_name (sf_variant f)) (result_enum te g) = [[t]] ->
  match sf_action f with EUser a => ut_action U a (rev vs) (user_type t) | EVar x => assoc_get x (rev vs) = Some (user_type t) end ->
  item_ok M S U (e_action_fn (name, f)).
Proof.
  intros Hn Hpv Hd Ha. exists s_action. split; [apply sg_action; exact Hn|]. cbn [fst snd].
  eapply fn_ok_one; [apply bounds_nil|apply sig_action|apply (ev_locals _ _ _ Hev); cbn; tauto|].
  eapply typed_body; [exact Hpv|exact Hd|reflexivity|]. destruct (sf_action f) as [a|x].
  - apply t_user. rewrite visible_all by (eapply pops_vars_names; eauto). exact Ha.
  - apply t_var. rewrite assoc_get_app, Ha. reflexivity.
Qed.

(** ** [parse_generic] *)
Ltac local := apply (ev_locals _ _ _ Hev); cbn; tauto.
Ltac one_binding := repeat constructor; cbn; intuition discriminate.
Lemma typed_static sc l G x d e t : assoc_get x G = None -> declared_as x (vdefs M) = [DStatic d e] -> (exists u, sg_static S x = Some u /\ resolve M S [] u = Some t) ->
  typed sc l G (XId x) (arrays d t).
Proof. intros H1 H2 (u & H3 & H4). eapply t_static; eauto. Qed.
Lemma typed_actions sc l G : assoc_get "ACTION" G = None -> typed sc l G (XId "ACTION") (arrays [List.length (gp_action gp); gp_n_terminals gp + 1] (option_ty (TCon "LRAction" []))).
Proof.
  intro H. eapply typed_static; [exact H|apply (v_static_action te g gp Hl Hv)|]. exists (XtName "Option" [XtName "LRAction" []]). split; [reflexivity|res; reflexivity].
Qed.
Lemma typed_gotos sc l G : assoc_get "GOTO" G = None -> typed sc l G (XId "GOTO") (arrays [List.length (gp_goto gp); List.length (g_nts g)] (option_ty (TInt U32))).
Proof. intro H. eapply typed_static; [exact H|apply (v_static_goto te g gp Hl Hv)|]. exists (XtName "Option" [XtName "u32" []]). split; [reflexivity|res; reflexivity]. Qed.
Lemma typed_sem_actions sc l G : assoc_get "SEMANTIC_ACTIONS" G = None -> typed sc l G (XId "SEMANTIC_ACTIONS") (arrays [List.length (fn_names g)] (TFn [TMut (TVec SAR)] unit_ty)).
Proof. intro H. eapply typed_static; [exact H|apply (v_semantic te g gp Hl Hv)|]. exists (XtFn [s_value_stack] (XtTup [])). split; [reflexivity|res; reflexivity]. Qed.
Lemma typed_expected sc l G : assoc_get "EXPECTED_TERMINALS" G = None -> typed sc l G (XId "EXPECTED_TERMINALS") (arrays [List.length (gp_action gp)] TStr).
Proof. intro H. eapply typed_static; [exact H|apply (v_expected te g gp Hl Hv)|]. exists XtStr. split; [reflexivity|res; reflexivity]. Qed.
Lemma typed_strs sc l G : assoc_get "TERMINAL_STRS" G = None -> typed sc l G (XId "TERMINAL_STRS") (arrays [gp_n_terminals gp + 1] TStr).
Proof. intro H. eapply typed_static; [exact H|apply (v_strs te g gp Hl Hv)|]. exists XtStr. split; [reflexivity|res; reflexivity]. Qed.
Lemma copy_int b w : impls M S U b "Copy" (TInt w). Proof. apply im_int; cbn; tauto. Qed.
Lemma copy_option b t : impls M S U b "Copy" t -> impls M S U b "Copy" (option_ty t).
Proof. intro H. apply im_prelude; [cbn; tauto|apply undeclared_outer; cbn; tauto|cbn; tauto|constructor; [exact H|constructor]]. Qed.
Lemma copy_action b : impls M S U b "Copy" (TCon "LRAction" []).
Proof. apply im_derived; [apply undeclared_own; cbn; tauto|cbn; tauto|constructor]. Qed.
Lemma copy_arr b t n : impls M S U b "Copy" t -> impls M S U b "Copy" (TArr t n).
Proof. intro H. apply im_arr; [cbn; tauto|exact H]. Qed.

(** Patterns of the prelude's enums *)
Lemma pat_none self b t : pat_typed M S U self b (PUnit "" "None") (option_ty t) [].
Proof. apply pt_unit. apply (ctor_none te g gp Hl Hp). Qed.
Lemma pat_some self b p t vs : pat_typed M S U self b p t vs -> pat_typed M S U self b (PTuple "" "Some" [p]) (option_ty t) vs.
Proof.
  intro H. eapply pt_tuple; [apply (ctor_some te g gp Hl Hp)|rewrite gen_option; reflexivity|]. cbn [map]. rewrite ft_option. rewrite <- (app_nil_r vs). constructor; [exact H|constructor].
Qed.
Lemma pat_ok self b p t e vs : pat_typed M S U self b p t vs -> pat_typed M S U self b (PTuple "" "Ok" [p]) (result_ty t e) vs.
Proof.
  intro H. eapply pt_tuple; [apply (ctor_ok te g gp Hl Hp)|rewrite gen_result; reflexivity|]. cbn [map]. rewrite ft_ok. rewrite <- (app_nil_r vs). constructor; [exact H|constructor].
Qed.
Lemma pat_err self b p t e vs : pat_typed M S U self b p e vs -> pat_typed M S U self b (PTuple "" "Err" [p]) (result_ty t e) vs.
Proof.
  intro H. eapply pt_tuple; [apply (ctor_err te g gp Hl Hp)|rewrite gen_result; reflexivity|]. cbn [map]. rewrite ft_err. rewrite <- (app_nil_r vs). constructor; [exact H|constructor].
Qed.
Lemma ex_option ps t q q' : In (PUnit q "None") ps -> (forall p, In p q' -> exists r, In (PTuple r "Some" [p]) ps) -> exhaustive M S U q' t -> exhaustive M S U ps (option_ty t).
Proof.
  intros H1 H2 H3. apply ex_enum; [right; cbn; tauto|unfold variants_of; rewrite undeclared_outer by (cbn; tauto); discriminate|]. intros x sh Hx. unfold variants_of in Hx. rewrite undeclared_outer in Hx by (cbn; tauto). cbn in Hx.
  destruct Hx as [E|[E|[]]]; inversion E; subst.
  - eapply cv_unit; eauto.
  - eapply cv_tuple1; [exact H2|]. rewrite ft_option. exact H3.
Qed.
Lemma ex_result ps t e x y : In (PTuple "" "Ok" [PBind x]) ps -> In (PTuple "" "Err" [PBind y]) ps -> exhaustive M S U ps (result_ty t e).
Proof.
  intros H1 H2. apply ex_enum; [right; cbn; tauto|unfold variants_of; rewrite undeclared_outer by (cbn; tauto); discriminate|]. intros z sh Hz. unfold variants_of in Hz. rewrite undeclared_outer in Hz by (cbn; tauto). cbn in Hz.
  destruct Hz as [E|[E|[]]]; inversion E; subst.
  - apply (cv_tuple1 M S U ps [PBind x]); [intros p [<-|[]]; eauto|]. eapply ex_all; [left; reflexivity|exact Logic.I].
  - apply (cv_tuple1 M S U ps [PBind y]); [intros p [<-|[]]; eauto|]. eapply ex_all; [left; reflexivity|exact Logic.I].
Qed.

Section Generic.
Let gs : list (string * list string) := [("R", []); ("E", ["Clone"])].
Let sc : scope := {| sc_self := ""; sc_generics := gs; sc_ret := result_ty (TParam "R") ERR |}.
Notation G0 := [("action_idx", TInt Usize); ("init_state", TInt U32); ("extract_value", TFn [SAR] (TParam "R")); ("input", TIter (result_ty TT (TParam "E")))].
Notation G1 := (("token", option_ty (result_ty TT (TParam "E"))) :: ("value_stack", TVec SAR) :: ("state_stack", TVec (TInt U32)) :: G0).
Notation G2 := (("terminal_idx", TInt Usize) :: ("state", TInt Usize) :: G1).
Ltac var := apply t_var; reflexivity.
Lemma typed_top l G : assoc_get "state_stack" G = Some (TVec (TInt U32)) -> typed sc l G e_top (TInt Usize).
Proof.
  intro H. eapply t_as. eapply t_deref; [|apply (copy_int _ U32)]. apply t_unwrap. eapply t_last; [apply t_var; exact H|left; reflexivity].
Qed.
Lemma typed_terminal : typed sc true (("state", TInt Usize) :: G1) (e_terminal te gp) (TInt Usize).
Proof.
  eapply t_match with (t := TRef (option_ty (result_ty TT (TParam "E")))); [apply t_ref; var| |].
  - constructor; [|constructor; [|constructor; [|constructor]]].
    + exists []. cbn [fst snd]. split; [apply pt_ref; [exact Logic.I|apply pat_none]|]. split; [constructor|]. apply t_int. reflexivity.
    + exists [("err", TRef (TParam "E"))]. cbn [fst snd]. split; [apply pt_ref; [exact Logic.I|apply pat_some; apply pat_err; apply (pt_bind M S U); local]|].
      split; [one_binding|]. apply t_return. eapply typed_call1; [apply typed_err_fn; reflexivity|]. eapply typed_call1; [apply typed_lexer_fn|].
      apply t_clone; [var|]. apply (im_param M S U _ _ "E" ["Clone"]); [reflexivity|cbn; tauto].
    + exists [("token", TRef TT)]. cbn [fst snd]. split; [apply pt_ref; [exact Logic.I|apply pat_some; apply pat_ok; apply (pt_bind M S U); local]|].
      split; [one_binding|]. eapply t_call with (ts := [TRef TT]) (us := [TRef (TRef TT)]).
      * eapply t_fn; [|apply (v_idx te g gp Hl Hv)|apply sg_idx|apply plain_instance; [reflexivity|apply sig_token_terminal_idx]].
        cbn [rev app assoc_get]. rewrite !(idx_local te) by (cbn; tauto). reflexivity.
      * constructor; [apply t_ref; var|constructor].
      * constructor; [apply co_deref|constructor].
  - cbn [map fst]. apply ex_ref; [discriminate|]. eapply (ex_option _ _ "" [PTuple "" "Err" [PBind "err"]; PTuple "" "Ok" [PBind "token"]]).
    + left; reflexivity.
    + intros p [<-|[<-|[]]]; exists ""; cbn; tauto.
    + eapply ex_result; cbn; [right; left; reflexivity|left; reflexivity].
Qed.
Lemma typed_error : typed sc true G2 e_error unit_ty.
Proof.
  eapply t_let; [local|eapply t_index; [apply typed_strs; reflexivity|var|apply im_str; cbn; tauto]|].
  eapply t_let; [local|eapply t_index; [apply typed_expected; reflexivity|var|apply im_str; cbn; tauto]|].
  apply t_return. eapply typed_call1; [apply typed_err_fn; reflexivity|].
  eapply t_struct; [apply (ctor_parser_error te g gp Ht)|reflexivity|rewrite gen_error; reflexivity|]. cbn [map snd]. rewrite ft_str.
  constructor; [var|]. constructor; [var|]. constructor.
Qed.
Lemma typed_shift : typed sc true (("next_state", TInt U32) :: G2) e_shift unit_ty.
Proof.
  eapply t_seq; [eapply t_push; [var|left; reflexivity|var]|]. eapply t_let; [local| |].
  - eapply t_call; [apply t_replace|constructor; [apply t_mut; reflexivity|constructor; [|constructor]]|].
    + apply t_next. var.
    + repeat constructor.
  - eapply t_if_let; [var|apply pat_some; apply pat_ok; apply (pt_bind M S U); local|one_binding|].
    eapply t_push; [var|left; reflexivity|]. eapply typed_call1; [|var].
    eapply t_fn; [reflexivity|apply (v_value te g gp Hl Hv)|apply sg_value|apply plain_instance; [reflexivity|apply sig_token_value]].
Qed.
Lemma typed_run l G i : assoc_get "SEMANTIC_ACTIONS" G = None -> assoc_get "value_stack" G = Some (TVec SAR) -> typed sc l G i (TInt Usize) ->
  typed sc l G (XCall (XIndex (XId "SEMANTIC_ACTIONS") i) [XMutRef "value_stack"]) unit_ty.
Proof.
  intros H1 H2 H3. eapply typed_call1; [|apply t_mut; exact H2]. eapply t_index; [apply typed_sem_actions; exact H1|exact H3|]. apply im_fn; cbn; tauto.
Qed.
Lemma typed_reduce : typed sc true (("semantic_action_idx", TInt U16) :: ("n_symbols", TInt U16) :: ("non_terminal_idx", TInt U16) :: G2) e_reduce unit_ty.
Proof.
  eapply t_seq; [apply typed_run; [reflexivity|reflexivity|]; eapply t_as; var|].
  eapply t_seq; [eapply t_for; [var|]; apply t_unwrap; eapply t_pop; [var|left; reflexivity]|].
  eapply t_let; [local|apply typed_top; reflexivity|].
  eapply t_match with (t := option_ty (TInt U32)).
  - eapply t_index; [eapply t_index; [apply typed_gotos; reflexivity|var|]|eapply t_as; var|].
    + apply copy_arr. apply copy_option. apply copy_int.
    + apply copy_option. apply copy_int.
  - constructor; [|constructor; [|constructor]].
    + exists []. cbn [fst snd]. split; [apply pat_none|]. split; [constructor|apply t_panic].
    + exists [("next_state", TInt U32)]. cbn [fst snd]. split; [apply pat_some; apply (pt_bind M S U _ false); local|]. split; [one_binding|].
      eapply t_push; [var|left; reflexivity|var].
  - cbn [map fst]. eapply (ex_option _ _ "" [PBind "next_state"]); [left; reflexivity|intros p [<-|[]]; exists ""; cbn; tauto|]. eapply ex_all; [left; reflexivity|exact Logic.I].
Qed.
Lemma typed_loop_body : typed sc true G1 (e_loop_body te gp) unit_ty.
Proof.
  eapply t_let; [local|apply typed_top; reflexivity|]. eapply t_let; [local|apply typed_terminal|].
  eapply t_match with (t := option_ty (TCon "LRAction" [])).
  - eapply t_index; [eapply t_index; [apply typed_actions; reflexivity|var|]|var|].
    + apply copy_arr. apply copy_option. apply copy_action.
    + apply copy_option. apply copy_action.
  - constructor; [|constructor; [|constructor; [|constructor; [|constructor]]]].
    + exists []. cbn [fst snd]. split; [apply pat_none|]. split; [constructor|apply typed_error].
    + exists [("next_state", TInt U32)]. cbn [fst snd]. split; [apply pat_some|split; [one_binding|apply typed_shift]].
      pose proof (pt_fields M S U "" false "LRAction" "Shift" "LRAction" [] [("next_state", "u32")] (ctor_shift te g gp Ht "")) as Hf. cbn [map fst by_mode] in Hf. rewrite ft_u32, gen_lr_action in Hf.
      apply Hf; [reflexivity|]. constructor; [local|constructor].
    + exists [("non_terminal_idx", TInt U16); ("n_symbols", TInt U16); ("semantic_action_idx", TInt U16)]. cbn [fst snd]. split; [apply pat_some|split; [nodups|apply typed_reduce]].
      pose proof (pt_fields M S U "" false "LRAction" "Reduce" "LRAction" [] _ (ctor_reduce te g gp Ht "")) as Hf. cbn [map fst by_mode] in Hf. rewrite ft_u16, gen_lr_action in Hf.
      apply Hf; [reflexivity|]. repeat (constructor; [local|]). constructor.
    + exists []. cbn [fst snd]. split; [apply pat_some; apply pt_unit; apply (ctor_accept te g gp Ht)|]. split; [constructor|apply t_break].
  - cbn [map fst].
    eapply (ex_option _ _ "" [PFields "LRAction" "Shift" ["next_state"]; PFields "LRAction" "Reduce" ["non_terminal_idx"; "n_symbols"; "semantic_action_idx"]; PUnit "LRAction" "Accept"]).
    + left; reflexivity.
    + intros p [<-|[<-|[<-|[]]]]; exists ""; cbn; tauto.
    + apply ex_enum; [left; apply undeclared_own; cbn; tauto|unfold variants_of; rewrite undeclared_own by (cbn; tauto); rewrite (t_action te g gp Ht); discriminate|]. intros x sh Hx. unfold variants_of in Hx. rewrite undeclared_own in Hx by (cbn; tauto).
      rewrite (t_action te g gp Ht) in Hx. cbn [List.concat app] in Hx. destruct Hx as [E|[E|[E|[]]]]; inversion E; subst.
      * eapply cv_fields. left; reflexivity.
      * eapply cv_fields. right; left; reflexivity.
      * eapply cv_unit. right; right; left; reflexivity.
Qed.
Lemma typed_after : typed sc false G1 e_after_loop (result_ty (TParam "R") ERR).
Proof.
  eapply t_seq; [apply typed_run; [reflexivity|reflexivity|var]|]. eapply typed_call1; [apply typed_ok_fn; reflexivity|].
  eapply typed_call1; [var|]. apply t_unwrap. eapply t_pop; [var|left; reflexivity].
Qed.
Lemma bounds_clone gs' : NoDup (map fst gs') -> (forall x trs tr, In (x, trs) gs' -> In tr trs -> tr = "Clone") -> bounds_ok M gs'.
Proof. intros H1 H2. split; [exact H1|]. intros x trs tr Hx Htr. rewrite (H2 x trs tr Hx Htr). apply undeclared_outer. cbn; tauto. Qed.
Lemma ok_parse_generic : item_ok M S U (e_parse_generic te gp).
Proof.
  exists (s_parse_generic te). split; [apply sg_generic|]. split.
  { apply bounds_clone; [cbn; nodups|]. intros x trs tr [E|[E|[]]] Htr; inversion E; subst; cbn in Htr; intuition. }
  eexists _, _. split; [apply sig_parse_generic|]. split; [reflexivity|]. split; [cbn; nodups|]. split.
  { cbn [fd_params]. repeat (constructor; [local|]). constructor. }
  cbn [fd_params fd_body rev combine app]. change (fs_generics (s_parse_generic te)) with gs. fold sc.
  eapply t_let; [local|apply t_vec; constructor; [var|constructor]|].
  eapply t_let; [local|apply t_vec with (t := SAR); constructor|].
  eapply t_let; [local|apply t_next; var|].
  eapply t_seq; [apply t_loop; apply typed_loop_body|apply typed_after].
Qed.
End Generic.

(** ** Entry points *)
Lemma ok_parser pr i : In pr (gp_parsers gp) -> mentions "E" (pr_return_ty pr) = false ->
  declared_as (non_terminal_variant_name (pr_extract_variant pr)) (result_enum te g) = [[pr_return_ty pr]] -> In i (e_parser pr) -> item_ok M S U i.
Proof.
  intros Hpr HE Hd [<-|[<-|[]]]; [exact Logic.I|]. destruct (ev_parsers _ _ _ Hev pr Hpr) as (Hfit & Hlt & _). split; [|split].
  - exists []. apply (tdef_In te g gp Ht). rewrite emit_tdefs. apply in_or_app. right. apply in_map_iff. exists pr. auto.
  - cbn; nodups.
  - constructor; [|constructor]. exists (s_parse te pr). cbn [fst snd]. split; [apply sg_parse; exact Hpr|].
    destruct (variant_single (pr_extract_variant pr) Hlt) as (t & Hvt & Hd'). rewrite Hd in Hd'. injection Hd' as <-.
    eapply fn_ok_one; [|apply sig_parse; exact HE|apply (ev_locals _ _ _ Hev); cbn; tauto|].
    { apply bounds_clone; [cbn; nodups|]. intros x trs tr [E|[]] Htr; inversion E; subst; cbn in Htr; intuition. }
    eapply t_call with (ts := [TIter (result_ty TT (TParam "E")); TFn [SAR] (user_type (pr_return_ty pr)); TInt U32; TInt Usize]).
    + eapply t_fn; [reflexivity|apply (v_generic te g gp Hl Hv)|apply sg_generic|].
      exists [("R", user_type (pr_return_ty pr)); ("E", TParam "E")]. eexists _, _. split; [apply sig_parse_generic|]. split; [reflexivity|]. split.
      * constructor; [constructor|]. constructor; [|constructor]. constructor; [|constructor]. apply (im_param M S U _ _ "E" ["Clone"]); [reflexivity|cbn; tauto].
      * split; reflexivity.
    + constructor; [apply t_var; reflexivity|]. constructor; [|constructor; [apply t_int; exact Hfit|constructor; [apply t_int; reflexivity|constructor]]].
      eapply (t_assoc M S U _ _ _ "SemanticActionResult"); [discriminate|discriminate| | | |].
      * change (self_or _ "SemanticActionResult") with "SemanticActionResult". rewrite (a_result te g gp Ht). apply (m_non_terminal te g _ Hlt).
      * change (self_or _ "SemanticActionResult") with "SemanticActionResult". eexists. split; [apply (t_result te g gp Ht)|]. rewrite variants_map, declared_none; [reflexivity|].
        intro Hin. eapply (method_no_variant te g (non_terminal_method_name (pr_extract_variant pr))); [|exact Hin|reflexivity].
        pose proof (m_non_terminal te g (pr_extract_variant pr) Hlt) as Hm. assert (Hi : In (snd (e_non_terminal_method (A := A) (pr_extract_variant pr))) (declared_as (non_terminal_method_name (pr_extract_variant pr)) (result_fns te g))) by (rewrite Hm; left; reflexivity).
        apply declared_In in Hi. apply (in_map fst) in Hi. exact Hi.
      * change (self_or _ "SemanticActionResult") with "SemanticActionResult". apply sg_non_terminal. exact Hlt.
      * rewrite Hvt. apply plain_instance; [reflexivity|]. apply (sig_method [pr_return_ty pr]).
    + repeat constructor.
Qed.
End Typed.
