(** * EmitCompile: which names the emitted module can have if it is well-typed *)
From Coq Require Import NArith Ascii.
From Verif Require Import NamesProofs PropertiesHygiene EmitModule EmitRun EmitBinds.
From Verif Require Export EmitNeeds.
Local Open Scope string_scope. Local Open Scope list_scope.

Section Pats.
Context {A : Type}.
Variables (M : list (item A)) (S : sigs) (U : user_types A).
Variable self : string.
Lemma unit_ctor b q x t vs : pat_typed M S U self b (PUnit q x) t vs -> ctor_of M self q x <> None.
Proof. intro H. remember (PUnit q x) as p eqn:E. revert E. induction H; intro E; try discriminate E; [injection E as -> ->; congruence|auto]. Qed.
Lemma tuple_ctor b q x ps t vs : pat_typed M S U self b (PTuple q x ps) t vs -> ctor_of M self q x <> None /\ exists b' ts, pats_typed M S U self b' ps ts vs.
Proof.
  intro H. remember (PTuple q x ps) as p eqn:E. revert E. induction H; intro E; try discriminate E; [injection E as -> -> ->; split; [congruence|eauto]|auto].
Qed.
Lemma single_pat b p ts vs : pats_typed M S U self b [p] ts vs -> exists t, pat_typed M S U self b p t vs.
Proof. intro H. inversion H as [|? ? ? ? ? ? ? H1 H2]; subst. inversion H2; subst. rewrite app_nil_r. eauto. Qed.
Lemma fields_ctor b q x fs t vs : pat_typed M S U self b (PFields q x fs) t vs -> exists b' en args tys,
  ctor_of M self q x = Some (en, ShFields tys) /\ vs = map (fun '(f, t) => (f, by_mode b' (field_type M S en args t))) tys.
Proof.
  intro H. remember (PFields q x fs) as p eqn:E. revert E. induction H; intro E; try discriminate E; [injection E as -> -> _; eauto 10|auto].
Qed.
End Pats.

Section Names.
Context {A : Type}.
Variables (te : token_enum) (g : grammar (lexpr A)) (gp : generated (lexpr A)).
Variable U : user_types A.
Notation M := (emit te g gp).
Notation S := (emit_sigs te g gp).
Notation typed := (typed M S U).
Ltac inv H := inversion H; subst; try (match goal with D : (_ = "" /\ _) \/ (_ <> "" /\ _) |- _ =>
  let E := fresh "E" in destruct D as [(_ & E & _)|(_ & E)]; discriminate E end).

(** The typed body of [parse_generic] *)
Lemma generic_body : item_ok M S U (e_parse_generic te gp) -> exists sc G tt,
  sc_self sc = "" /\ typed sc true G (e_loop_body te gp) tt.
Proof.
  intros (s & _ & _ & ts & r & _ & _ & _ & _ & H). cbn [fd_body fd_params] in H. set (sc := {| sc_self := _ |}) in H. set (G := rev _) in H. clearbody G.
  inv H. match goal with E : typed _ _ _ (XLet "value_stack" _ _) _ |- _ => inv E end. match goal with E : typed _ _ _ (XLet "token" _ _) _ |- _ => inv E end.
  match goal with E : typed _ _ _ (XSeq _ _) _ |- _ => inv E end. match goal with E : typed _ _ _ (XLoop _) _ |- _ => inv E end.
  do 3 eexists. split; [|eassumption]. reflexivity.
Qed.
Lemma loop_parts sc l G tt : sc_self sc = "" -> typed sc l G (e_loop_body te gp) tt ->
  (forall x, In x ["Some"; "None"; "Ok"; "Err"] -> ctor_of M "" "" x <> None) /\
  exists vs G' u b t, pat_typed M S U "" b (PFields "LRAction" "Reduce" ["non_terminal_idx"; "n_symbols"; "semantic_action_idx"]) t vs /\ typed sc l (rev vs ++ G') e_reduce u.
Proof.
  intros Hself H. unfold e_loop_body in H. inv H. match goal with E : typed _ _ _ (XLet "terminal_idx" _ _) _ |- _ => inv E end.
  match goal with E : typed _ _ _ (e_terminal _ _) _ |- _ => unfold e_terminal in E; inv E end.
  match goal with E : typed _ _ _ (XMatch (XIndex _ _) _) _ |- _ => inv E end. rewrite Hself in *.
  match goal with E : Forall _ [(PUnit _ _, XInt _ _); _; _] |- _ => inversion E as [|? ? (v1 & P1 & _) E']; subst; inversion E' as [|? ? (v2 & P2 & _) E'']; subst; inversion E'' as [|? ? (v3 & P3 & _) _]; subst end.
  cbn [fst] in *. apply unit_ctor in P1. apply tuple_ctor in P2. destruct P2 as (C2 & ? & ? & P2). apply single_pat in P2. destruct P2 as (? & P2). apply tuple_ctor in P2. destruct P2 as (C2' & _).
  apply tuple_ctor in P3. destruct P3 as (_ & ? & ? & P3). apply single_pat in P3. destruct P3 as (? & P3). apply tuple_ctor in P3. destruct P3 as (C3 & _).
  split; [intros z [<-|[<-|[<-|[<-|[]]]]]; assumption|].
  match goal with E : Forall _ [_; _; _; (_, XBreak)] |- _ => inversion E as [|? ? _ F']; subst; inversion F' as [|? ? _ F'']; subst; inversion F'' as [|? ? (w & Q & _ & B) _]; subst end.
  cbn [fst snd] in *. apply tuple_ctor in Q. destruct Q as (_ & ? & ? & Q). apply single_pat in Q. destruct Q as (? & Q). eauto 10.
Qed.
Lemma generic_names : item_ok M S U (e_parse_generic te gp) -> List.length (fn_names g) = List.length (gp_sem_actions gp) ->
  forall x, In x ["Some"; "None"; "Ok"; "Err"] -> ~ In x (value_items te g gp).
Proof.
  intros H Hl x Hx Hin. destruct (generic_body H) as (sc & G & tt & Hs & Hb). destruct (loop_parts _ _ _ _ Hs Hb) as [Hc _]. specialize (Hc x Hx). apply Hc.
  unfold ctor_of. cbn [String.eqb]. destruct (declared_as x (vdefs M)) as [|d ds] eqn:E; [|reflexivity]. exfalso. apply declared_nil in E. apply E. rewrite (emit_values te g gp Hl). exact Hin.
Qed.

(** ** Names of types *)
Hypothesis Hev : resolvable te g gp.
Let Hl := ev_len _ _ _ Hev. Let Hv := ev_values _ _ _ Hev. Let Ht := ev_types _ _ _ Hev.
Hypothesis Hall : forall i, In i M -> item_ok M S U i.
Lemma entry_type x : In x prelude_types -> In x (type_items gp) -> (exists pr, In pr (gp_parsers gp) /\ pr_name pr = x) /\ declared_as x (tdefs M) = [[]].
Proof.
  intros Hx Hin. unfold type_items in Hin. apply in_app_or in Hin. destruct Hin as [Hin|Hin]; [exfalso; cbn in Hx, Hin; intuition (subst; discriminate)|].
  apply in_map_iff in Hin. destruct Hin as (pr & <- & Hpr). split; [eauto|]. apply (tdef_In te g gp Ht). rewrite emit_tdefs. apply in_or_app. right. apply in_map_iff. exists pr. auto.
Qed.
Lemma hidden x : declared_as x (tdefs M) = [[]] -> undeclared M x = false.
Proof. intro H. unfold undeclared. rewrite H. reflexivity. Qed.
Lemma applied_hidden ps x args : declared_as x (tdefs M) = [[]] -> In x prelude_types -> existsb (String.eqb x) ps = false -> args <> [] -> named_type M S ps x args = None.
Proof.
  intros H Hx Hp Ha. unfold named_type. rewrite Hp, H. destruct args as [|a args]; [congruence|]. cbn [List.length sg_generics emit_sigs].
  destruct (String.eqb_spec x "ParseError") as [->|_]; [exfalso; cbn in Hx; intuition discriminate|reflexivity].
Qed.
Lemma plain_hidden ps x : declared_as x (tdefs M) = [[]] -> In x prelude_types -> existsb (String.eqb x) ps = false -> named_type M S ps x [] = Some (TCon x []).
Proof.
  intros H Hx Hp. unfold named_type. rewrite Hp, H. cbn [List.length sg_generics emit_sigs].
  destruct (String.eqb_spec x "ParseError") as [->|_]; [exfalso; cbn in Hx; intuition discriminate|reflexivity].
Qed.
Lemma static_type x d e u : In (IStatic x d e) M -> sg_static S x = Some u -> exists t, resolve M S [] u = Some t.
Proof. intros Hin Hu. destruct (Hall _ Hin) as (u' & t & H1 & H2 & _). assert (u' = u) by congruence. subst u'. eauto. Qed.
Ltac in_emit := unfold emit; rewrite !in_app_iff; cbn; tauto.
Lemma generic_type : exists s ts r, s = s_parse_generic te /\ bounds_ok M (fs_generics s) /\ sig_type M S s ts r.
Proof.
  assert (Hin : In (e_parse_generic te gp) M) by in_emit. destruct (Hall _ Hin) as (s & Hs & H1 & ts & r & H2 & _). rewrite (sg_generic te g gp Hev) in Hs. injection Hs as <-. eauto 10.
Qed.
Lemma not_option : declared_as "Option" (tdefs M) <> [[]].
Proof.
  intro H. destruct (static_type "GOTO" [List.length (gp_goto gp); List.length (g_nts g)] (match e_goto_array g gp with IStatic _ _ e => e | _ => XUnitE end) (XtName "Option" [XtName "u32" []])) as (t & Ht'); [in_emit|reflexivity|].
  cbn [resolve map all_some] in Ht'. destruct (named_type M S [] "u32" []) as [u|]; [|discriminate]. rewrite (applied_hidden [] "Option" [u] H) in Ht'; [discriminate|cbn; tauto|reflexivity|discriminate].
Qed.
Lemma not_vec : declared_as "Vec" (tdefs M) <> [[]].
Proof.
  intro H. destruct (static_type "SEMANTIC_ACTIONS" [List.length (fn_names g)] (XArray (map XId (fn_names g))) (XtFn [s_value_stack] (XtTup []))) as (t & Ht'); [in_emit|reflexivity|].
  cbn [resolve map all_some s_value_stack s_result] in Ht'. destruct (named_type M S [] "SemanticActionResult" []) as [u|]; [|discriminate Ht'].
  rewrite (applied_hidden [] "Vec" [u] H) in Ht'; [discriminate|cbn; tauto|reflexivity|discriminate].
Qed.
Lemma not_str : declared_as "str" (tdefs M) <> [[]].
Proof.
  intro H. destruct (static_type "EXPECTED_TERMINALS" [List.length (gp_action gp)] (XArray (map XStr (gp_expected gp))) XtStr) as (t & Ht'); [in_emit|reflexivity|].
  cbn [resolve] in Ht'. rewrite (hidden "str" H) in Ht'. discriminate.
Qed.
Lemma not_result : declared_as "Result" (tdefs M) <> [[]].
Proof.
  intro H. destruct generic_type as (s & ts & r & -> & _ & _ & Hr). cbn [s_parse_generic fs_ret fs_generics map fst s_outcome resolve all_some] in Hr.
  destruct (named_type M S ["R"; "E"] "E" []) as [t1|]; [|destruct (named_type M S ["R"; "E"] "R" []); discriminate Hr]. destruct (named_type M S ["R"; "E"] "ParseError" [t1]) as [t2|]; [|destruct (named_type M S ["R"; "E"] "R" []); discriminate Hr].
  destruct (named_type M S ["R"; "E"] "R" []) as [t3|]; [|discriminate Hr]. rewrite (applied_hidden ["R"; "E"] "Result" [t3; t2] H) in Hr; [discriminate|cbn; tauto|reflexivity|discriminate].
Qed.
Lemma not_iterator : declared_as "Iterator" (tdefs M) <> [[]].
Proof.
  intro H. destruct generic_type as (s & ts & r & -> & _ & Hr & _). cbn [s_parse_generic fs_params map all_some] in Hr. unfold s_input in Hr at 1. cbn [resolve] in Hr. rewrite (hidden "Iterator" H) in Hr. discriminate.
Qed.
Lemma not_clone : declared_as "Clone" (tdefs M) <> [[]].
Proof.
  intro H. destruct generic_type as (s & ts & r & -> & [_ Hb] & _). specialize (Hb "E" ["Clone"] "Clone"). rewrite (hidden "Clone" H) in Hb. cbn in Hb. discriminate Hb; tauto.
Qed.
Lemma not_u16 : declared_as "u16" (tdefs M) <> [[]].
Proof.
  intro H. destruct (generic_body (Hall (e_parse_generic te gp) ltac:(in_emit))) as (sc & G & tt & Hs & Hb). destruct (loop_parts _ _ _ _ Hs Hb) as (_ & vs & G' & u & b & t & Hp & Hr).
  apply fields_ctor in Hp. destruct Hp as (b' & en & args & tys & Hc & ->). rewrite (ctor_reduce te g gp Ht) in Hc. injection Hc as <- <-. cbn [map] in Hr.
  unfold e_reduce in Hr. inv Hr. match goal with E : typed _ _ _ (XCall (XIndex _ _) _) _ |- _ => inv E end. match goal with E : typed _ _ _ (XIndex _ _) _ |- _ => inv E end.
  match goal with E : typed _ _ _ (XAsUsize _) _ |- _ => inv E end. match goal with E : typed _ _ _ (XId "semantic_action_idx") (TInt _) |- _ => eapply var_inv in E; [|reflexivity] end.
  unfold field_type in *. rewrite (gen_lr_action te g gp Hev) in *. unfold text_type in *. cbn [existsb] in *. rewrite (hidden "u16" H) in *. destruct b'; discriminate.
Qed.
Lemma not_int x pr : In pr (gp_parsers gp) -> In x ["u32"; "usize"] -> declared_as x (tdefs M) <> [[]].
Proof.
  intros Hpr Hx H. assert (Hin : exists f, In (IImpl (pr_name pr) [("parse", f)]) M /\ In (IImpl (pr_name pr) [("parse", f)]) (e_parser pr)).
  { eexists. split; [|right; left; reflexivity]. unfold emit. rewrite !in_app_iff. right. right. right. apply in_flat_map. exists pr. split; [exact Hpr|]. right. left. reflexivity. }
  destruct Hin as (f & Hin & Hf). destruct Hf as [Hf|[Hf|[]]]; [discriminate|]. injection Hf as <-. destruct (Hall _ Hin) as (_ & _ & Hf). apply Forall_inv in Hf. destruct Hf as (s & _ & _ & ts & r & _ & _ & _ & _ & Hb).
  cbn [fst snd fd_params fd_body] in Hb. set (sc := {| sc_self := _ |}) in Hb. set (G := rev _) in Hb. assert (HG : assoc_get "parse_generic" G = None) by (unfold G; destruct ts as [|? [|? ?]]; reflexivity).
  inv Hb. match goal with E : typed _ _ _ (XId "parse_generic") _ |- _ => inversion E; subst end; try congruence.
  - match goal with E : declared_as "parse_generic" _ = [DStatic _ _] |- _ => rewrite (v_generic te g gp Hl Hv) in E; discriminate E end.
  - match goal with E : sg_fn S "parse_generic" = Some _ |- _ => rewrite (sg_generic te g gp Hev) in E; injection E as <- end.
    match goal with E : sig_instance _ _ _ _ _ _ _ |- _ => destruct E as (th & ps & q & E1 & E2 & _ & E4 & E5) end.
    destruct E1 as [E1 _]. cbn [s_parse_generic fs_params fs_generics map fst all_some] in E1.
    destruct (resolve M S ["R"; "E"] (s_input te)) as [p1|]; [|discriminate E1]. destruct (resolve M S ["R"; "E"] (XtFn _ _)) as [p2|]; [|discriminate E1].
    cbn [resolve map all_some] in E1.
    match goal with E : Forall2 (typed _ _ _) _ us |- _ => inversion E as [|? ? ? ? _ A2]; subst; inversion A2 as [|? ? ? ? _ A3]; subst; inversion A3 as [|? u3 ? ? T3 A4]; subst; inversion A4 as [|? u4 ? ? T4 A5]; subst; inversion A5; subst end.
    assert (u3 = TInt U32) by (inv T3; reflexivity). assert (u4 = TInt Usize) by (inv T4; reflexivity). subst u3 u4.
    destruct Hx as [<-|[<-|[]]].
    + rewrite (plain_hidden ["R"; "E"] "u32" H) in E1 by (cbn; tauto || reflexivity). destruct (named_type M S ["R"; "E"] "usize" []) as [p4|]; [|discriminate E1]. injection E1 as <-. cbn [map subst] in *.
      match goal with E : Forall2 coerces _ _ |- _ => inversion E as [|? ? ? ? _ B2]; subst; inversion B2 as [|? ? ? ? _ B3]; subst; inversion B3 as [|? ? ? ? C3 _]; subst end. inversion C3.
    + destruct (named_type M S ["R"; "E"] "u32" []) as [p3|]; [|discriminate E1]. rewrite (plain_hidden ["R"; "E"] "usize" H) in E1 by (cbn; tauto || reflexivity). injection E1 as <-. cbn [map subst] in *.
      match goal with E : Forall2 coerces _ _ |- _ => inversion E as [|? ? ? ? _ B2]; subst; inversion B2 as [|? ? ? ? _ B3]; subst; inversion B3 as [|? ? ? ? _ B4]; subst; inversion B4 as [|? ? ? ? C4 _]; subst end. inversion C4.
  - match goal with D : (_ = "" /\ _) \/ _ |- _ => destruct D as [(-> & E0 & _)|(_ & E0)]; [|discriminate E0]; injection E0; intros; subst end.
    match goal with E : ctor_of _ _ _ _ = Some _ |- _ => unfold ctor_of in E; cbn [String.eqb] in E; rewrite (v_generic te g gp Hl Hv) in E; discriminate E end.
Qed.
Lemma prelude_free x : In x prelude_types -> ~ In x (type_items gp).
Proof.
  intros Hx Hin. destruct (entry_type x Hx Hin) as [(pr & Hpr & _) Hd]. cbn in Hx. destruct Hx as [<-|[<-|[<-|[<-|[<-|[<-|[<-|[<-|[<-|[]]]]]]]]]].
  - exact (not_option Hd).
  - exact (not_result Hd).
  - exact (not_vec Hd).
  - exact (not_iterator Hd).
  - exact (not_clone Hd).
  - exact (not_u16 Hd).
  - exact (not_int "u32" pr Hpr (or_introl eq_refl) Hd).
  - exact (not_int "usize" pr Hpr (or_intror (or_introl eq_refl)) Hd).
  - exact (not_str Hd).
Qed.
End Names.

(** ** [value_stack] *)
Section ValueStack.
Context {A : Type}.
Variables (te : token_enum) (g : grammar (lexpr A)) (gp : generated (lexpr A)).
Variable U : user_types A.
Hypothesis Hev : resolvable te g gp.
Hypothesis Hout : forall x, In x (te_type_name te :: prelude_types) -> ~ In x (type_items gp).
Notation M := (emit te g gp).
Notation S := (emit_sigs te g gp).
Notation SAR := (TCon "SemanticActionResult" []).
Notation typed := (typed M S U).
Ltac inv H := inversion H; subst; try (match goal with D : (_ = "" /\ _) \/ (_ <> "" /\ _) |- _ =>
  let E := fresh "E" in destruct D as [(_ & E & _)|(_ & E)]; discriminate E end).
Lemma parts_not_con tys en args : parts_type tys <> TCon en args.
Proof. destruct tys as [|t [|u tys]]; cbn [parts_type map]; try discriminate. apply user_not_con. Qed.
Lemma parts_not_vec tys t : ~ vec_of (parts_type tys) t.
Proof. intros [H|H]; destruct tys as [|u [|u' tys]]; cbn [parts_type map] in H; try discriminate H; unfold user_type in H; repeat (destruct (String.eqb _ _); [discriminate H|]); discriminate H. Qed.
Lemma hidden_method sc l G tys m es t : m = "push" \/ m = "pop" -> assoc_get "value_stack" G = Some (parts_type tys) -> ~ typed sc l G (XMethod (XId "value_stack") m es) t.
Proof.
  intros Hm HG H. inv H; try (destruct Hm; discriminate); match goal with E : typed sc l G (XId _) _ |- _ => apply (var_inv _ _ _ _ _ _ _ _ _ _ HG) in E; subst end;
    first [eapply parts_not_vec; eassumption|eapply parts_not_con; symmetry; eassumption].
Qed.
Lemma receiver sc l G r m es t : typed sc l G (XMethod r m es) t -> exists t', typed sc l G r t'.
Proof. intro H. inv H; eauto. Qed.
Lemma hidden_body sc l G tys v a pops t : assoc_get "value_stack" G = Some (parts_type tys) -> ~ typed sc l G (e_body pops v a) t.
Proof.
  intros HG H. destruct pops as [|[|m x e] pops]; cbn [e_body] in H.
  - exact (hidden_method _ _ _ _ _ _ _ (or_introl eq_refl) HG H).
  - inv H. eapply hidden_method; [right; reflexivity|exact HG|eassumption].
  - inv H. match goal with E : typed _ _ _ (XMethod _ (method_name e) _) _ |- _ => apply receiver in E; destruct E as (? & E); apply receiver in E; destruct E as (? & E) end.
    eapply hidden_method; [right; reflexivity|exact HG|eassumption].
Qed.
Lemma body_stack sc l v a pops : (forall m x e, In (PopBind m x e) pops -> exists tys, method_type te g e tys) -> forall G r,
  assoc_get "value_stack" G = Some (TMut (TVec SAR)) -> typed sc l G (e_body pops v a) r -> forall m e, ~ In (PopBind m "value_stack" e) pops.
Proof.
  induction pops as [|[|m x e] pops IH]; intros Hm G r HG H m' e' Hin; [destruct Hin| |]; cbn [e_body] in H.
  - destruct Hin as [Hin|Hin]; [discriminate Hin|]. inv H. eapply (IH (fun m x e Hi => Hm m x e (or_intror Hi))); [|eassumption|exact Hin]. exact HG.
  - inv H. destruct (Hm m x e (or_introl eq_refl)) as (tys & He).
    match goal with E : typed sc l G (XMethod _ _ _) _ |- _ => eapply (method_inv te g gp U Hev Hout) in E; [|exact He|intro; apply (unwrap_inv te g gp U Hout); exact HG] end. subst.
    destruct (String.eqb_spec "value_stack" x) as [<-|Hne].
    + eapply hidden_body; [|eassumption]. reflexivity.
    + destruct Hin as [Hin|Hin]; [congruence|]. eapply (IH (fun m x e Hi => Hm m x e (or_intror Hi))); [|eassumption|exact Hin]. cbn [assoc_get]. apply String.eqb_neq in Hne. rewrite Hne. exact HG.
Qed.
Lemma no_value_stack : (forall i, In i M -> item_ok M S U i) -> forall f m x e, In f (gp_sem_actions gp) -> In (PopBind m x e) (sf_pops f) -> x <> "value_stack".
Proof.
  intros Hall f m x e Hf Hin ->. apply In_nth_error in Hf as Hk. destruct Hk as (k & Hk).
  destruct (nth_error (fn_names g) k) as [name|] eqn:En; [|apply nth_error_None in En; rewrite (ev_len _ _ _ Hev) in En; assert (nth_error (gp_sem_actions gp) k <> None) as Hn by congruence; apply nth_error_Some in Hn; lia].
  assert (Hd : In (name, f) (fn_decls g gp)).
  { unfold fn_decls. clear - Hk En. revert k Hk En. generalize (fn_names g) (gp_sem_actions gp). intros l l'. revert l'. induction l as [|y l IH]; intros [|z l'] [|k] H1 H2; try discriminate; cbn in *; [injection H1 as ->; injection H2 as ->; left; reflexivity|right; eauto]. }
  assert (Hi : In (e_action_fn (name, f)) M) by (unfold emit; rewrite !in_app_iff; right; left; apply in_map; exact Hd).
  destruct (Hall _ Hi) as (s & Hs & _ & ts & r & Hsig & _ & _ & _ & Hb). rewrite (sg_action te g gp Hev) in Hs by (eapply nth_error_In; exact En). injection Hs as <-.
  destruct (sig_fun _ _ _ _ _ _ _ _ Hsig (sig_action te g gp Hev Hout)) as [-> ->]. cbn [fst snd fd_params fd_body rev combine app] in Hb.
  eapply body_stack in Hb; [exact (Hb Hin)| |reflexivity]. clear - Hev Hf. intros m x e Hin. pose proof (ev_methods _ _ _ Hev f m x e Hf Hin) as H. destruct e as [v|i]; cbn [method_type].
  - destruct H as [H _]. eauto.
  - destruct H as (c & H). eauto.
Qed.
End ValueStack.
