(** * EmitNeeds: what it takes for the emitted module to be well-typed *)
From Coq Require Import NArith Ascii.
From Verif Require Import NamesProofs PropertiesHygiene EmitModule EmitRun EmitBinds.
From Verif Require Export EmitTyped.
Local Open Scope string_scope. Local Open Scope list_scope.

Section Needs.
Context {A : Type}.
Variables (te : token_enum) (g : grammar (lexpr A)) (gp : generated (lexpr A)).
Variable U : user_types A.
Hypothesis Hev : resolvable te g gp.
Hypothesis Hout : forall x, In x (te_type_name te :: prelude_types) -> ~ In x (type_items gp).
Hypothesis Htok : ~ In (te_type_name te) (prelude_types ++ ["R"; "E"]).
Notation M := (emit te g gp).
Notation S := (emit_sigs te g gp).
Notation TT := (TUser (te_type_name te)).
Notation SAR := (TCon "SemanticActionResult" []).
Notation ERR := (TCon "ParseError" [TParam "E"]).
Notation typed := (typed M S U).
Let Hl := ev_len _ _ _ Hev. Let Hv := ev_values _ _ _ Hev. Let Ht := ev_types _ _ _ Hev. Let Hp := ev_prelude _ _ _ Hev.

Lemma user_not_ref t u : user_type t <> TRef u.
Proof. unfold user_type. repeat (destruct (String.eqb _ _); [discriminate|]). discriminate. Qed.
Lemma user_not_con t en args : user_type t <> TCon en args.
Proof. unfold user_type. repeat (destruct (String.eqb _ _); [discriminate|]). discriminate. Qed.
Lemma coerces_user u t : coerces u (user_type t) -> u = user_type t.
Proof. intro H. inversion H as [|t' E1 E2]; subst; [reflexivity|]. exfalso. eapply user_not_ref. symmetry. exact E2. Qed.
Lemma coerces_all us tys : Forall2 coerces us (map user_type tys) -> us = map user_type tys.
Proof.
  revert us. induction tys as [|t tys IH]; intros us H; inversion H as [|u ? us' ? H1 H2]; subst; [reflexivity|]. cbn. apply coerces_user in H1. rewrite (IH us' H2), H1. reflexivity.
Qed.
Ltac no_ctor := match goal with D : (_ = "" /\ _) \/ (_ <> "" /\ _) |- _ =>
  let E := fresh "E" in let F := fresh "F" in destruct D as [(_ & E & F)|(_ & E)]; try discriminate E; try (injection E; intros; subst); try congruence end.
Lemma var_inv sc l G x t t' : assoc_get x G = Some t -> typed sc l G (XId x) t' -> t' = t.
Proof. intros Hx H. inversion H; subst; try congruence; no_ctor. Qed.
Lemma ctor_inv sc l G q x t tys : self_or (sc_self sc) q = "SemanticActionResult" -> String.eqb q "" = false -> q <> "::std::mem" -> declared_as x (result_enum te g) = [tys] ->
  typed sc l G (XPath q x) t -> t = TFn (map user_type tys) SAR.
Proof.
  intros Hq Hq0 Hqm Hd H. pose proof (ctor_result te g gp Ht (sc_self sc) q x tys Hq Hq0 Hd) as Hc. inversion H; subst; try congruence.
  - match goal with E : exists vs, _ /\ declared_as _ vs = [] |- _ => destruct E as (vs & E1 & E2) end. rewrite Hq, (t_result te g gp Ht) in E1. injection E1 as <-. rewrite variants_map, Hd in E2. discriminate E2.
  - no_ctor.
  - no_ctor. match goal with E : ctor_of _ _ _ _ = Some (en, _) |- _ => rewrite Hc in E; injection E as <- <- end.
    match goal with E : List.length args = _ |- _ => rewrite (gen_sar te g gp Hev) in E; destruct args; [|discriminate E] end. f_equal. apply map_ext. apply (ft_sar te g gp Hev Hout).
Qed.

(** ** Action functions *)
Lemma instance_inv sc s ts r : fs_generics s = [] -> sig_instance M S U sc s ts r -> sig_type M S s ts r.
Proof.
  intros Hg (th & ps & q & H & Hf & _ & -> & ->). rewrite Hg in Hf. destruct th; [|discriminate Hf]. rewrite subst_nil.
  replace (map (subst []) ps) with ps; [exact H|]. symmetry. erewrite map_ext; [apply map_id|]. apply subst_nil.
Qed.
Lemma sig_fun s ts r ts' r' : sig_type M S s ts r -> sig_type M S s ts' r' -> ts = ts' /\ r = r'.
Proof. intros [H1 H2] [H3 H4]. split; congruence. Qed.
Lemma method_inv sc l G r e tys t : method_type te g e tys -> (forall t, typed sc l G r t -> t = SAR) -> typed sc l G (XMethod r (method_name e) []) t -> t = parts_type tys.
Proof.
  intros He Hr H. assert (Hd : exists f, declared_as (method_name e) (assoc_fns M "SemanticActionResult") = [f] /\ sg_assoc S "SemanticActionResult" (method_name e) = Some (s_method tys)).
  { rewrite (a_result te g gp Ht). destruct e as [v|i]; cbn [method_name method_type] in *.
    - destruct He as (Hlt & <-). eexists. split; [apply (m_non_terminal te g v Hlt)|apply (sg_non_terminal te g gp Hev); exact Hlt].
    - destruct He as (c & Hc & <-). eexists. split; [apply (m_token te g i c Hc)|apply (sg_token te g gp Hev); exact Hc]. }
  destruct Hd as (f & Hd & Hs). inversion H; subst; try (no_ctor; fail); try (match goal with E : typed sc l G r _ |- _ => apply Hr in E; try (unfold vec_of in *; intuition congruence); try discriminate E end).
  match goal with E : TCon en args = SAR |- _ => injection E as -> -> end. rewrite Hs in *. match goal with E : Some (s_method _) = Some s |- _ => injection E as <- end.
  match goal with E : sig_instance _ _ _ _ _ _ _ |- _ => apply instance_inv in E; [|reflexivity]; eapply sig_fun in E; [|apply (sig_method te g gp Hev Hout tys)] end. intuition.
Qed.
Lemma pop_inv sc l G t : assoc_get "value_stack" G = Some (TMut (TVec SAR)) -> typed sc l G (XMethod (XId "value_stack") "pop" []) t -> t = option_ty SAR.
Proof.
  intros HG H. inversion H; subst; try (no_ctor; fail); match goal with E : typed sc l G (XId _) _ |- _ => apply (var_inv _ _ _ _ _ _ HG) in E; subst; try discriminate end.
  match goal with E : vec_of _ _ |- _ => destruct E as [E|E]; [discriminate E|injection E as <-] end. reflexivity.
Qed.
Lemma assoc_option : assoc_fns M "Option" = [].
Proof.
  rewrite (emit_assoc te g gp). cbn [String.eqb]. assert (Hn : forall pr, In pr (gp_parsers gp) -> pr_name pr <> "Option").
  { intros pr Hpr E. apply (Hout "Option"); [cbn; tauto|]. unfold type_items. apply in_or_app. right. rewrite <- E. apply in_map. exact Hpr. }
  change (String.eqb "SemanticActionResult" "Option") with false. cbn [app]. induction (gp_parsers gp) as [|pr l IH]; [reflexivity|]. cbn [flat_map].
  destruct (String.eqb_spec (pr_name pr) "Option") as [E|_]; [exfalso; exact (Hn pr (or_introl eq_refl) E)|]. apply IH. intros q Hq. apply Hn. right. exact Hq.
Qed.
Lemma unwrap_inv sc l G t : assoc_get "value_stack" G = Some (TMut (TVec SAR)) -> typed sc l G (XMethod (XMethod (XId "value_stack") "pop" []) "unwrap" []) t -> t = SAR.
Proof.
  intros HG H. inversion H; subst; try (no_ctor; fail).
  - match goal with E : typed sc l G (XMethod _ "pop" _) _ |- _ => apply (pop_inv _ _ _ _ HG) in E; injection E as <- end. reflexivity.
  - match goal with E : typed sc l G (XMethod _ "pop" _) _ |- _ => apply (pop_inv _ _ _ _ HG) in E; injection E as -> -> end. exfalso.
    match goal with E : declared_as "unwrap" (assoc_fns M "Option") = _ |- _ => rewrite assoc_option in E; discriminate E end.
Qed.
Lemma body_inv sc l v t a pops vs : pops_vars te g gp pops vs -> declared_as (non_terminal_variant_name v) (result_enum te g) = [[t]] -> forall G r,
  assoc_get "value_stack" G = Some (TMut (TVec SAR)) -> typed sc l G (e_body pops v (EUser a)) r -> ut_action U a (visible_types (rev vs ++ G)) (user_type t).
Proof.
  intros H Hd. induction H as [|pops vs H IH|m x e pops tys vs He Hx Hne H IH]; intros G r HG Hty; cbn [e_body] in Hty.
  - inversion Hty; subst; try (no_ctor; fail); match goal with E : typed sc l G (XId _) _ |- _ => apply (var_inv _ _ _ _ _ _ HG) in E; subst; try discriminate end.
    match goal with E : vec_of _ _ |- _ => destruct E as [E|E]; [discriminate E|injection E as <-] end.
    match goal with E : typed sc l G (XCall _ _) _ |- _ => inversion E; subst; try (no_ctor; fail) end.
    match goal with E : typed sc l G (XPath _ _) _ |- _ => apply (ctor_inv sc l G "SemanticActionResult" _ _ [t]) in E; [injection E as ->|reflexivity|reflexivity|discriminate|exact Hd] end.
    match goal with E : Forall2 coerces _ _ |- _ => apply (coerces_all _ [t]) in E; subst us end.
    match goal with E : Forall2 (typed sc l G) _ _ |- _ => inversion E; subst end.
    match goal with E : typed sc l G (XUser _) _ |- _ => inversion E; subst; try (no_ctor; fail); assumption end.
  - inversion Hty; subst; try (no_ctor; fail). eapply IH; eauto.
  - inversion Hty; subst; try (no_ctor; fail). match goal with E : typed sc l G (XMethod _ _ _) _ |- _ => eapply method_inv in E; [|exact He|intro; apply unwrap_inv; exact HG] end. subst.
    cbn [rev]. rewrite <- app_assoc. cbn [app]. eapply IH; [|eassumption]. cbn [assoc_get]. destruct (String.eqb_spec "value_stack" x) as [E|_]; [congruence|exact HG].
Qed.
Lemma action_inv name f vs t a : In name (fn_names g) -> pops_vars te g gp (sf_pops f) vs -> declared_as (non_terminal_variant_name (sf_variant f)) (result_enum te g) = [[t]] ->
  sf_action f = EUser a -> item_ok M S U (e_action_fn (name, f)) -> ut_action U a (rev vs) (user_type t).
Proof.
  intros Hn Hpv Hd Ha (s & Hs & _ & ts & r & Hsig & _ & _ & _ & Hb). rewrite (sg_action te g gp Hev) in Hs by exact Hn. injection Hs as <-.
  destruct (sig_fun _ _ _ _ _ Hsig (sig_action te g gp Hev Hout)) as [-> ->]. cbn [fst snd fd_params fd_body rev combine app] in Hb. rewrite Ha in Hb.
  eapply body_inv in Hb; [|exact Hpv|exact Hd|reflexivity]. rewrite visible_all in Hb by (eapply pops_vars_names; eauto). exact Hb.
Qed.

(** ** Types *)
Lemma result_inv : item_ok M S U (e_result_type te g) -> NoDup (te_lifetimes te) /\
  (forall a, In a (te_lifetimes te) -> exists x tys t, In (x, tys) (result_enum te g) /\ In t tys /\ mentions ("'" ++ a) t = true) /\
  (forall x tys t, In (x, tys) (result_enum te g) -> In t tys -> user_type t = TUser t -> ut_impl U "Debug" t).
Proof.
  intros (_ & H1 & _ & _ & H2 & _ & H3). split; [exact H1|]. split.
  - intros a Ha. destruct (H2 a Ha) as (x & sh & t & Hx & Htt & Hm). apply in_map_iff in Hx. destruct Hx as ([y tys] & E & Hx). injection E as -> <-. exists x, tys, t. auto.
  - intros x tys t Hx Htt Hu. specialize (H3 "Debug" x (ShTuple tys) t). change (sg_generics S "SemanticActionResult") with (@nil string) in H3.
    rewrite (text_user te g gp Hout), Hu in H3. assert (Hi : impls M S U (map (fun p : string => (p, ["Debug"])) []) "Debug" (TUser t)).
    { apply H3; [left; reflexivity| |exact Htt]. apply in_map_iff. exists (x, tys). auto. }
    inversion Hi; assumption.
Qed.
(** ** Entry points *)
Lemma parser_inv pr : In pr (gp_parsers gp) -> declared_as (non_terminal_variant_name (pr_extract_variant pr)) (result_enum te g) = [[pr_return_ty pr]] ->
  (forall i, In i (e_parser pr) -> item_ok M S U i) -> mentions "E" (pr_return_ty pr) = false.
Proof.
  intros Hpr Hd Hi. destruct (ev_parsers _ _ _ Hev pr Hpr) as (_ & Hlt & _). destruct (variant_single te g (pr_extract_variant pr) Hlt) as (t & Hvt & Hd'). rewrite Hd in Hd'. injection Hd' as <-.
  destruct (Hi _ (or_intror (or_introl eq_refl))) as (_ & _ & Hf). apply Forall_inv in Hf. cbn [fst snd] in Hf. destruct Hf as (s & Hs & _ & ts & r & Hsig & _ & _ & _ & Hb).
  rewrite (sg_parse te g gp Hev) in Hs by exact Hpr. injection Hs as <-. cbn [fd_params fd_body] in Hb. set (sc := {| sc_self := _ |}) in Hb.
  assert (Hr : exists e, r = result_ty (text_type M ["E"] (pr_return_ty pr)) e).
  { destruct Hsig as [_ Hr]. unfold s_parse, s_outcome in Hr. cbn [fs_ret fs_generics map fst resolve all_some] in Hr.
    rewrite (nt_param te g gp ["E"] "E" eq_refl), (nt_error te g gp Hev ["E"]), (nt_result te g gp Hout ["E"]) in Hr by reflexivity. injection Hr as <-. eauto. }
  destruct Hr as (e & ->). inversion Hb; subst; try (no_ctor; fail).
  assert (Hfn : exists a b, ts0 = [TIter (result_ty TT b); TFn [SAR] a; TInt U32; TInt Usize] /\ result_ty (text_type M ["E"] (pr_return_ty pr)) e = result_ty a (TCon "ParseError" [b])).
  { match goal with E : typed _ _ _ (XId "parse_generic") _ |- _ => inversion E; subst end.
    - match goal with E : assoc_get "parse_generic" _ = Some _ |- _ => destruct ts as [|? [|? ?]]; cbn in E; discriminate E end.
    - match goal with E : declared_as "parse_generic" _ = [DStatic _ _] |- _ => rewrite (v_generic te g gp Hl Hv) in E; discriminate E end.
    - match goal with E : sg_fn S "parse_generic" = Some _ |- _ => rewrite (sg_generic te g gp Hev) in E; injection E as <- end.
      match goal with E : sig_instance _ _ _ _ _ _ _ |- _ => destruct E as (th & ps & q & E1 & E2 & _ & E4 & E5) end.
      destruct (sig_fun _ _ _ _ _ E1 (sig_parse_generic te g gp Hev Hout Htok)) as [-> ->]. cbn in E2. destruct th as [|[x1 a] [|[x2 b] [|? ?]]]; try discriminate E2. injection E2 as -> ->.
      exists a, b. split; [exact E4|exact E5].
    - match goal with D : (_ = "" /\ _) \/ _ |- _ => destruct D as [(-> & E0 & _)|(_ & E0)]; [|discriminate E0]; injection E0; intros; subst end.
      match goal with E : ctor_of _ _ _ _ = Some _ |- _ => unfold ctor_of in E; cbn [String.eqb] in E; rewrite (v_generic te g gp Hl Hv) in E; discriminate E end. }
  destruct Hfn as (a & b & -> & E). injection E as <- _. set (tt := text_type M ["E"] (pr_return_ty pr)) in *.
  match goal with E : Forall2 (typed _ _ _) _ us |- _ => inversion E as [|? ? ? ? _ E2]; subst; inversion E2 as [|? u2 ? ? E3 _]; subst end.
  match goal with E : Forall2 coerces _ _ |- _ => inversion E as [|? ? ? ? _ F2]; subst; inversion F2 as [|? ? ? ? F3 _]; subst end.
  assert (Hu : u2 = TFn [SAR] tt) by (inversion F3; reflexivity). subst u2.
  assert (Hm : declared_as (non_terminal_method_name (pr_extract_variant pr)) (result_enum te g) = []).
  { apply declared_none. intro Hin. eapply (method_no_variant te g (non_terminal_method_name (pr_extract_variant pr))); [|exact Hin|reflexivity].
    pose proof (m_non_terminal te g (pr_extract_variant pr) Hlt) as Hm. assert (Hj : In (snd (e_non_terminal_method (A := A) (pr_extract_variant pr))) (declared_as (non_terminal_method_name (pr_extract_variant pr)) (result_fns te g))) by (rewrite Hm; left; reflexivity).
    apply declared_In in Hj. apply (in_map fst) in Hj. exact Hj. }
  assert (Ha : tt = user_type (pr_return_ty pr)).
  { inversion E3; subst.
    - change (self_or _ "SemanticActionResult") with "SemanticActionResult" in *.
      match goal with E : sg_assoc S _ _ = Some _ |- _ => rewrite (sg_non_terminal te g gp Hev) in E by exact Hlt; injection E as <- end.
      match goal with E : sig_instance _ _ _ _ _ _ _ |- _ => apply instance_inv in E; [|reflexivity]; rewrite Hvt in E; eapply sig_fun in E; [|apply (sig_method te g gp Hev Hout [pr_return_ty pr])]; destruct E as [_ E]; symmetry; exact E end.
    - no_ctor. match goal with E : ctor_of _ _ _ _ = Some _ |- _ => unfold ctor_of in E; change (self_or _ "SemanticActionResult") with "SemanticActionResult" in E;
        cbn [String.eqb] in E; rewrite (t_result te g gp Ht), variants_map, Hm in E; discriminate E end. }
  unfold tt, text_type in Ha. cbn [existsb] in Ha. rewrite !Bool.orb_false_r in Ha. unfold user_type in Ha.
  destruct (mentions "E" (pr_return_ty pr)); [|reflexivity]. exfalso. clear - Ha. destruct (String.eqb (pr_return_ty pr) "E"); repeat (destruct (String.eqb _ _); [discriminate Ha|]); discriminate Ha.
Qed.

(** ** Token patterns *)
Lemma gen_list_length ps : forall ids rs i, gen_list gen_pattern ps ids = (rs, i) -> List.length rs = List.length ps.
Proof.
  induction ps as [|p ps IH]; intros ids rs i H; cbn [gen_list] in H; [injection H as <- _; reflexivity|].
  destruct (gen_pattern p ids) as [r i1]. destruct (gen_list gen_pattern ps i1) as [rs1 i2] eqn:E. injection H as <- _. cbn. f_equal. eapply IH; eauto.
Qed.
Lemma tuple_plain ps ids rs i : no_single_tuple (PatTuple ps) = true -> gen_list gen_pattern ps ids = (rs, i) -> tuple_no_trailing_comma rs = RPTuple rs /\ forallb no_single_tuple ps = true.
Proof.
  intros Hs H. pose proof (gen_list_length _ _ _ _ H) as Hlen. destruct ps as [|q [|q' ps]].
  - destruct rs; [|discriminate Hlen]. split; reflexivity.
  - cbn in Hs. destruct q; try discriminate Hs. cbn in H. injection H as <- _. split; reflexivity.
  - destruct rs as [|r [|r' rs]]; try discriminate Hlen. split; [cbn; destruct r; reflexivity|exact Hs].
Qed.
Definition all_refs (vs : list (string * rty)) : Prop := Forall (fun xt => exists u, snd xt = TRef u) vs.
Lemma gen_back :
  (forall b r t vs, rpat_typed M U b r t vs -> forall p ids i, gen_pattern p ids = (r, i) -> no_single_tuple p = true ->
    i = ids ++ map fst vs /\ List.length vs = List.length (pattern_types p) /\ (b = true -> all_refs vs) /\ (map snd vs = map user_type (pattern_types p) -> pattern_of U p t)) /\
  (forall b rs ts vs, rpats_typed M U b rs ts vs -> forall ps ids i, gen_list gen_pattern ps ids = (rs, i) -> forallb no_single_tuple ps = true ->
    i = ids ++ map fst vs /\ List.length vs = List.length (flat_map pattern_types ps) /\ (b = true -> all_refs vs) /\ (map snd vs = map user_type (flat_map pattern_types ps) -> patterns_of U ps ts)) /\
  (forall b rs fts vs, rfields_typed M U b rs fts vs -> forall fs ids i, gen_fields gen_pattern fs ids = (rs, i) -> forallb (fun '(_, q) => no_single_tuple q) fs = true ->
    i = ids ++ map fst vs /\ List.length vs = List.length (flat_map (fun '(_, q) => pattern_types q) fs) /\ (b = true -> all_refs vs) /\
    (map snd vs = map user_type (flat_map (fun '(_, q) => pattern_types q) fs) -> fields_of U fs fts)).
Proof.
  assert (Hinv : forall p ids r i, gen_pattern p ids = (r, i) -> no_single_tuple p = true ->
    match r with
    | RPWild => p = PatUnderscore /\ i = ids
    | RPIdent x => exists t, p = PatChoose t /\ i = ids ++ [x]
    | RPParen _ => False
    | RPPath c => p = PatPath c /\ i = ids
    | RPLit l => p = PatLit l /\ i = ids
    | RPRest => p = PatDotDot /\ i = ids
    | RPTupleStruct c rs => exists ps, p = PatEnum c ps /\ gen_list gen_pattern ps ids = (rs, i) /\ forallb no_single_tuple ps = true
    | RPTuple rs => exists ps, p = PatTuple ps /\ gen_list gen_pattern ps ids = (rs, i) /\ forallb no_single_tuple ps = true
    | RPStruct c rs dots => exists fs, p = PatStruct c fs dots /\ gen_fields gen_pattern fs ids = (rs, i) /\ forallb (fun '(_, q) => no_single_tuple q) fs = true
    end).
  { intros p ids r i H Hs. destruct p as [c ps|c fs dots|ps|c| | |lt|t]; cbn [gen_pattern] in H.
    - destruct (gen_list gen_pattern ps ids) as [rs j] eqn:E. injection H as <- <-. exists ps. auto.
    - destruct (gen_fields gen_pattern fs ids) as [rs j] eqn:E. injection H as <- <-. exists fs. auto.
    - destruct (gen_list gen_pattern ps ids) as [rs j] eqn:E. destruct (tuple_plain ps ids rs j Hs E) as [E1 E2]. rewrite E1 in H. injection H as <- <-. exists ps. auto.
    - injection H as <- <-. auto.
    - injection H as <- <-. auto.
    - injection H as <- <-. auto.
    - injection H as <- <-. auto.
    - injection H as <- <-. eauto. }
  apply rpats_mutind.
  - intros b t p ids i Hg Hs. apply Hinv in Hg; [|exact Hs]. destruct Hg as (-> & ->). split; [symmetry; apply app_nil_r|]. split; [reflexivity|]. split; [constructor|]. intros _. apply po_wild.
  - intros b x t Hx p ids i Hg Hs. apply Hinv in Hg; [|exact Hs]. destruct Hg as (ty & -> & ->). split; [reflexivity|]. split; [reflexivity|]. split.
    + intros ->. constructor; [|constructor]. cbn. eauto.
    + cbn. intro E. injection E as E. destruct b; cbn in E; [exfalso; eapply user_not_ref; symmetry; exact E|]. rewrite E. apply po_choose.
  - intros b r t vs _ _ p ids i Hg Hs. apply Hinv in Hg; [|exact Hs]. destruct Hg.
  - intros b c t Hc p ids i Hg Hs. apply Hinv in Hg; [|exact Hs]. destruct Hg as (-> & ->). split; [symmetry; apply app_nil_r|]. split; [reflexivity|]. split; [constructor|]. intros _. apply po_path. exact Hc.
  - intros b lt t Hc p ids i Hg Hs. apply Hinv in Hg; [|exact Hs]. destruct Hg as (-> & ->). split; [symmetry; apply app_nil_r|]. split; [reflexivity|]. split; [constructor|]. intros _. apply po_lit. exact Hc.
  - intros b c rs ts t vs Hc _ IH p ids i Hg Hs. apply Hinv in Hg; [|exact Hs]. destruct Hg as (ps & -> & Hg & Hs'). destruct (IH ps ids i Hg Hs') as (I0 & I1 & I2 & I3).
    split; [exact I0|]. split; [exact I1|]. split; [exact I2|]. intro E. eapply po_enum; [exact Hc|apply I3; exact E].
  - intros b rs ts vs _ IH p ids i Hg Hs. apply Hinv in Hg; [|exact Hs]. destruct Hg as (ps & -> & Hg & Hs'). destruct (IH ps ids i Hg Hs') as (I0 & I1 & I2 & I3).
    split; [exact I0|]. split; [exact I1|]. split; [exact I2|]. intro E. apply po_tuple. apply I3; exact E.
  - intros b c rs dots fts t vs Hc Hnd Hincl _ IH p ids i Hg Hs. apply Hinv in Hg; [|exact Hs]. destruct Hg as (fs & -> & Hg & Hs'). destruct (IH fs ids i Hg Hs') as (I0 & I1 & I2 & I3).
    assert (En : map fst rs = map fst fs).
    { clear - Hg. revert ids rs i Hg. induction fs as [|[f q] fs IH]; intros ids rs i H; cbn [gen_fields] in H; [injection H as <- _; reflexivity|].
      destruct (gen_pattern q ids) as [r i1]. destruct (gen_fields gen_pattern fs i1) as [rs1 i2] eqn:E. injection H as <- _. cbn. f_equal. eapply IH; eauto. }
    rewrite En in *. split; [exact I0|]. split; [exact I1|]. split; [exact I2|]. intro E. eapply po_struct; [exact Hc|exact Hnd|exact Hincl|apply I3; exact E].
  - intros b r t vs _ IH p ids i Hg Hs. destruct (IH p ids i Hg Hs) as (I0 & I1 & I2 & I3). split; [exact I0|]. split; [exact I1|]. split; [intros _; apply I2; reflexivity|]. intro E.
    specialize (I2 eq_refl). apply po_ref; [|apply I3; exact E]. destruct (pattern_types p) as [|ty tys]; [reflexivity|]. exfalso. destruct vs as [|[x u] vs]; [discriminate E|].
    inversion I2 as [|? ? (u' & Hu) _]; subst. cbn in Hu, E. injection E as E _. rewrite Hu in E. eapply user_not_ref. symmetry. exact E.
  - intros b ps ids i Hg Hs. pose proof (gen_list_length _ _ _ _ Hg) as Hn. destruct ps; [|discriminate Hn]. injection Hg as <-. split; [symmetry; apply app_nil_r|]. split; [reflexivity|]. split; [constructor|]. intros _. apply pos_nil.
  - intros b r rs t ts vs ws _ IH1 _ IH2 ps ids i Hg Hs. destruct ps as [|p ps]; cbn [gen_list] in Hg; [discriminate Hg|].
    destruct (gen_pattern p ids) as [r1 i1] eqn:E1. destruct (gen_list gen_pattern ps i1) as [rs1 i2] eqn:E2. injection Hg as -> -> <-.
    cbn [forallb] in Hs. apply andb_prop in Hs. destruct Hs as [S1 S2]. destruct (IH1 p ids i1 E1 S1) as (I0 & I1 & I2 & I3). destruct (IH2 ps i1 i2 E2 S2) as (J0 & J1 & J2 & J3).
    cbn [flat_map]. split; [rewrite J0, I0, map_app, <- app_assoc; reflexivity|]. split; [rewrite !app_length; congruence|]. split; [intro Hb; apply Forall_app; split; [apply I2|apply J2]; exact Hb|]. rewrite !map_app. intro E.
    assert (Hsp : map snd vs = map user_type (pattern_types p) /\ map snd ws = map user_type (flat_map pattern_types ps)) by (apply RunProofs.app_inj_length; [exact E|rewrite !map_length; exact I1]).
    destruct Hsp as [X1 X2]. apply pos_cons; auto.
  - intros b rs ts us vs Hno _ IH ps ids i Hg Hs. destruct ps as [|p ps]; cbn [gen_list] in Hg; [discriminate Hg|].
    destruct (gen_pattern p ids) as [r1 i1] eqn:E1. destruct (gen_list gen_pattern ps i1) as [rs1 i2] eqn:E2. injection Hg as -> -> <-.
    cbn [forallb] in Hs. apply andb_prop in Hs. destruct Hs as [S1 S2]. apply Hinv in E1; [|exact S1]. destruct E1 as (-> & ->). destruct (IH ps _ i2 E2 S2) as (J0 & J1 & J2 & J3).
    cbn [flat_map pattern_types app]. split; [exact J0|]. split; [exact J1|]. split; [exact J2|]. intro E. apply pos_rest; [|apply J3; exact E]. intro Hin. apply Hno. clear - Hin E2.
    revert ids rs i2 E2. induction ps as [|q ps IH]; [destruct Hin|]. intros i1 rs i2 H. cbn [gen_list] in H. destruct (gen_pattern q i1) as [r j1] eqn:F1.
    destruct (gen_list gen_pattern ps j1) as [rs1 j2] eqn:F2. injection H as <- _. destruct Hin as [->|Hin]; [cbn in F1; injection F1 as <- _; left; reflexivity|right; eapply IH; eauto].
  - intros b fts fs ids i Hg Hs. destruct fs as [|[f q] fs]; cbn [gen_fields] in Hg; [|destruct (gen_pattern q ids) as [r i1]; destruct (gen_fields gen_pattern fs i1); discriminate Hg].
    injection Hg as <-. split; [symmetry; apply app_nil_r|]. split; [reflexivity|]. split; [constructor|]. intros _. apply pf_nil.
  - intros b f r rs fts t vs ws Hf _ IH1 _ IH2 fs ids i Hg Hs. destruct fs as [|[f' p] fs]; cbn [gen_fields] in Hg; [discriminate Hg|].
    destruct (gen_pattern p ids) as [r1 i1] eqn:E1. destruct (gen_fields gen_pattern fs i1) as [rs1 i2] eqn:E2. injection Hg as -> -> -> <-.
    cbn [forallb] in Hs. apply andb_prop in Hs. destruct Hs as [S1 S2]. destruct (IH1 p ids i1 E1 S1) as (I0 & I1 & I2 & I3). destruct (IH2 fs i1 i2 E2 S2) as (J0 & J1 & J2 & J3).
    cbn [flat_map]. split; [rewrite J0, I0, map_app, <- app_assoc; reflexivity|]. split; [rewrite !app_length; congruence|]. split; [intro Hb; apply Forall_app; split; [apply I2|apply J2]; exact Hb|]. rewrite !map_app. intro E.
    assert (Hsp : map snd vs = map user_type (pattern_types p) /\ map snd ws = map user_type (flat_map (fun '(_, q) => pattern_types q) fs)) by (apply RunProofs.app_inj_length; [exact E|rewrite !map_length; exact I1]).
    destruct Hsp as [X1 X2]. eapply pf_cons; eauto.
Qed.

Lemma match_inv sc l G e arms u : typed sc l G (XMatch e arms) u -> exists t, typed sc l G e t /\
  Forall (fun a => exists vs, pat_typed M S U (sc_self sc) false (fst a) t vs /\ NoDup (map fst vs) /\ typed sc l (rev vs ++ G) (snd a) u) arms /\ exhaustive M S U (map fst arms) t.
Proof. intro H. inversion H; subst; try (no_ctor; fail). eauto. Qed.
Lemma ids_inv sc l G xs us : Forall2 (typed sc l G) (map XId xs) us -> (forall x, In x xs -> assoc_get x G <> None) -> map (fun x => assoc_get x G) xs = map Some us.
Proof.
  revert us. induction xs as [|x xs IH]; intros us H Hx; inversion H as [|? u ? us' H1 H2]; subst; [reflexivity|]. cbn [map]. f_equal.
  - destruct (assoc_get x G) as [t|] eqn:E; [|exfalso; apply (Hx x); [left; reflexivity|exact E]]. apply (var_inv _ _ _ _ _ _ E) in H1. congruence.
  - apply IH; [exact H2|]. intros y Hy. apply Hx. right. exact Hy.
Qed.
Lemma token_value_inv : (forall c, In c (te_conversions te) -> no_single_tuple (cv_to c) = true) -> item_ok M S U (e_token_value te) ->
  (forall c, In c (te_conversions te) -> pattern_of U (cv_to c) TT) /\ ut_covers U (map (fun c => pattern_ignore (cv_to c)) (te_conversions te)) TT.
Proof.
  intros Hns (s & Hs & _ & ts & r & Hsig & _ & _ & _ & Hb). rewrite (sg_value te g gp Hev) in Hs. injection Hs as <-.
  destruct (sig_fun _ _ _ _ _ Hsig (sig_token_value te g gp Hev Hout Htok)) as [-> ->]. cbn [fd_params fd_body rev combine app] in Hb. set (sc := {| sc_self := _ |}) in Hb.
  apply match_inv in Hb. destruct Hb as (t & Ht' & Harms & Hex). assert (Et : t = TT) by (eapply var_inv in Ht'; [exact Ht'|reflexivity]). subst t. clear Ht'.
  assert (Hpat : forall c, In c (te_conversions te) -> pattern_of U (cv_to c) TT).
  { intros c Hc. apply In_nth_error in Hc. destruct Hc as (k & Hk). pose proof (Hns c (nth_error_In _ _ Hk)) as Hsingle.
    rewrite Forall_forall in Harms. destruct (generate_pattern_syn_with_idents (cv_to c)) as [r xs] eqn:Eg.
    destruct (Harms (PUser r, XCall (XPath "SemanticActionResult" (token_variant_name k)) (map XId xs))) as (vs & Hpt & Hnd & Hbody).
    { apply in_map_iff. exists (k, c). rewrite Eg. split; [reflexivity|]. apply enumerate_nth_error. exact Hk. }
    cbn [fst snd] in *. assert (Hr : rpat_typed M U false r TT vs) by (inversion Hpt; assumption).
    destruct (proj1 gen_back _ _ _ _ Hr (cv_to c) [] xs Eg Hsingle) as (I0 & I1 & _ & I3). cbn in I0. apply I3.
    inversion Hbody; subst; try (no_ctor; fail).
    match goal with E : typed _ _ _ (XPath _ _) _ |- _ => apply (ctor_inv _ _ _ "SemanticActionResult" _ _ (pattern_types (cv_to c))) in E;
      [injection E as ->|reflexivity|reflexivity|discriminate|apply (token_variant_declared te g k c Hk)] end.
    match goal with E : Forall2 coerces _ _ |- _ => apply coerces_all in E; subst us end.
    match goal with E : Forall2 _ (map XId _) _ |- _ => apply ids_inv in E; [rename E into Hids|] end.
    - assert (Hg : forall x t, In (x, t) vs -> assoc_get x (rev vs ++ [("token", TT)]) = Some t) by (intros x t; apply (assoc_get_rev x t vs _ Hnd)).
      clear - Hids Hg I1. revert Hids Hg I1. generalize (rev vs ++ [("token", TT)]). intro G. generalize (pattern_types (cv_to c)). intro tys. revert tys.
      induction vs as [|[x t] vs IH]; intros [|ty tys] H Hg Hn; try discriminate Hn; [reflexivity|]. cbn in *. injection H as E H. injection Hn as Hn.
      rewrite (Hg x t (or_introl eq_refl)) in E. injection E as E. f_equal; [exact E|]. apply IH; auto.
    - intros x Hx. apply in_map_iff in Hx. destruct Hx as ([y t] & <- & Hx). cbn. rewrite (assoc_get_rev y t vs _ Hnd Hx). discriminate. }
  split; [exact Hpat|].
  assert (Hgen : forall c, In c (te_conversions te) -> erase (fst (generate_pattern_syn_with_idents (cv_to c))) = pattern_ignore (cv_to c)).
  { intros c Hc. destruct (proj1 (gen_typed te g gp U Hev) (cv_to c) TT (Hpat c Hc) (Hns c Hc) []) as (r & E1 & _ & E3).
    - intros k Hk. apply (ev_parts _ _ _ Hev c k Hc). exact Hk.
    - unfold generate_pattern_syn_with_idents. rewrite E1. exact E3. }
  replace (map fst _) with (map (@PUser) (map (fun c => fst (generate_pattern_syn_with_idents (cv_to c))) (te_conversions te))) in Hex.
  - inversion Hex as [? ? p Hin Hp'| |rs t Hc Er|]; subst.
    + apply in_map_iff in Hin. destruct Hin as (r & <- & _). destruct Hp'.
    + assert (rs = map (fun c => fst (generate_pattern_syn_with_idents (cv_to c))) (te_conversions te)).
      { clear - Er. revert Er. generalize (map (fun c => fst (generate_pattern_syn_with_idents (cv_to c))) (te_conversions te)). induction rs as [|r rs IH]; intros [|r' l] H; try discriminate H; [reflexivity|]. cbn in H. injection H as -> H. f_equal. apply IH. exact H. }
      subst rs. rewrite map_map in Hc. erewrite map_ext_in; [exact Hc|]. intros c Hc'. symmetry. apply Hgen. exact Hc'.
  - rewrite map_map, <- (map_enumerate (fun c => PUser (fst (generate_pattern_syn_with_idents (cv_to c))))), map_map. apply map_ext. intros [i c].
    destruct (generate_pattern_syn_with_idents (cv_to c)) as [r xs]. reflexivity.
Qed.
Lemma token_idx_inv : item_ok M S U (e_token_terminal_idx te) -> te_conversions te <> [].
Proof.
  intros (s & Hs & _ & ts & r & Hsig & _ & _ & _ & Hb) E. rewrite (sg_idx te g gp Hev) in Hs. injection Hs as <-.
  destruct (sig_fun _ _ _ _ _ Hsig (sig_token_terminal_idx te g gp Hout Htok)) as [-> ->]. cbn [fd_params fd_body rev combine app] in Hb.
  apply match_inv in Hb. destruct Hb as (t & Ht' & _ & Hex). assert (Et : t = TRef TT) by (eapply var_inv in Ht'; [exact Ht'|reflexivity]). subst t. rewrite E in Hex. cbn in Hex.
  inversion Hex as [? ? p Hin|? ? Hne| |]; subst; [destruct Hin|congruence].
Qed.
End Needs.
