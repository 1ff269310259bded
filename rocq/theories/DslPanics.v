(** * DslPanics: the DSL parser is total, and panics exactly on the inputs listed in DslSpec.v *)
From Verif Require Export DslRules.
Local Open Scope string_scope.
Local Open Scope list_scope.

Ltac nofail :=
  match goal with
  | H : p_punct _ _ = _ |- _ => first [exfalso; exact (proj1 (p_punct_nofail _ _) H) | exfalso; exact (proj2 (p_punct_nofail _ _) H)]
  | H : p_punct2 _ _ _ = _ |- _ => first [exfalso; exact (proj1 (p_punct2_nofail _ _ _) H) | exfalso; exact (proj2 (p_punct2_nofail _ _ _) H)]
  | H : p_lit _ = _ |- _ => first [exfalso; exact (proj1 (p_lit_nofail _) H) | exfalso; exact (proj2 (p_lit_nofail _) H)]
  | H : p_kw _ _ = _ |- _ => first [exfalso; exact (proj1 (p_kw_nofail _ _) H) | exfalso; exact (proj2 (p_kw_nofail _ _) H)]
  | H : p_group _ _ = _ |- _ => first [exfalso; exact (proj1 (p_group_nofail _ _) H) | exfalso; exact (proj2 (p_group_nofail _ _) H)]
  | H : p_ident _ = _ |- _ => first [exfalso; exact (proj1 (p_ident_nofail _) H) | exfalso; exact (proj2 (p_ident_nofail _) H)]
  | H : p_lifetime _ = _ |- _ => first [exfalso; exact (proj1 (p_lifetime_nofail _) H) | exfalso; exact (proj2 (p_lifetime_nofail _) H)]
  | H : oracle _ _ = _ |- _ => first [exfalso; exact (proj1 (oracle_nofail _ _) H) | exfalso; exact (proj2 (oracle_nofail _ _) H)]
  end.
(** Take one step in [dbind e f = DFuel] or [= DPanic]. *)
Ltac sub H :=
  match type of H with
  | dbind ?e _ = _ => let E := fresh "E" in destruct e eqn:E; cbn [dbind] in H; try discriminate H; try nofail
  end.

Lemma terminated_panic {X} (p : list ttree -> dres X) (P : list ttree -> X -> Prop) (Q : list ttree -> Prop) :
  (forall ts x r, p ts = DOk x r -> exists l, ts = l ++ r /\ P l x) ->
  (forall ts, ts <> [] -> p ts = DPanic -> Q ts) ->
  (forall l x c r, P l x -> comma c -> Q r -> Q (l ++ c ++ r)) ->
  forall fuel ts, p_terminated p fuel ts = DPanic -> Q ts.
Proof.
  intros Hs Hp Hc. induction fuel as [|n IH]; intros ts H; [discriminate|]. cbn [p_terminated] in H.
  destruct ts as [|t ts]; [discriminate|]. sub H.
  - destruct (Hs _ _ _ E) as (l & Hl & HP). destruct rest as [|t' rest]; [discriminate|]. sub H.
    destruct (p_punct_inv _ _ _ _ E0) as (j & Hj). sub H. rewrite Hl, Hj.
    change (TPunct "," j :: rest0) with ([TPunct "," j] ++ rest0). eapply Hc; eauto. exists j; auto.
  - apply Hp; auto. discriminate.
Qed.

Section DslPanics.
Context {A : Type}.
Variable p_type : list ttree -> option (ty * list ttree).
Variable p_expr : list ttree -> option (A * list ttree).
Variable p_path : list ttree -> option (string * list ttree).
Hypothesis Hsyn : syn_parsers p_type p_expr p_path.
Notation is_type := (parses p_type).
Notation is_expr := (parses p_expr).
Notation is_path := (parses p_path).
Notation p_pattern := (p_pattern p_type p_path).
Notation pat_syntax := (pat_syntax is_type is_path).

(** ** Fuel *)
Lemma fields_fuel pat fuel : forall ts, List.length ts < fuel ->
  (forall l, toks_size l <= toks_size ts -> pat l <> DFuel) ->
  (forall l x r, pat l = DOk x r -> List.length r < List.length l /\ toks_size r <= toks_size l) ->
  p_fields pat fuel ts <> DFuel.
Proof.
  induction fuel as [|n IH]; intros ts Hl Hp Hc H; [lia|]. cbn [p_fields] in H.
  destruct ts as [|t ts]; [discriminate|]. destruct (peek_punct2 "." "." (t :: ts)) eqn:Ed.
  - sub H. destruct rest; discriminate H.
  - sub H.
    + unfold p_field in E. inv_do E. apply p_ident_inv in E0. destruct E0 as [H1 _]. inv_do E.
      destruct (p_punct_inv _ _ _ _ E0) as (j & H2). inv_do E. injection E as <- <-. destruct (Hc _ _ _ E1) as [Hc1 Hc2].
      rewrite H1, H2 in *. cbn [List.length] in Hl. rewrite !toks_size_cons in Hp.
      destruct (peek_punct "," rest2).
      * sub H. destruct (p_punct_inv _ _ _ _ E) as (k & Hk). rewrite Hk in *. cbn [List.length] in Hc1. rewrite toks_size_cons in Hc2.
        sub H. apply (IH rest); auto; [lia|]. intros l Hs. apply Hp. lia.
      * destruct rest2 as [|t2 rest2]; [discriminate|]. destruct (peek_punct2 "." "." (t2 :: rest2)); [|discriminate].
        sub H. apply (IH (t2 :: rest2)); auto; [lia|]. intros l Hs. apply Hp. lia.
    + unfold p_field in E. sub E. apply p_ident_inv in E0. destruct E0 as [H1 _]. sub E.
      destruct (p_punct_inv _ _ _ _ E0) as (j & H2). sub E. apply (Hp rest0); auto. rewrite H1, H2, !toks_size_cons. lia.
Qed.

Lemma pattern_fuel fuel : forall ts, toks_size ts < fuel -> p_pattern fuel ts <> DFuel.
Proof.
  induction fuel as [|n IH]; intros ts Hs H; [lia|]. cbn [Dsl.p_pattern] in H.
  assert (Hterm : forall c, toks_size c < n -> p_terminated (p_pattern n) (S (List.length c)) c <> DFuel).
  { intros c Hc. apply terminated_fuel; [lia| |].
    - intros l Hl. apply IH. lia.
    - intros l x r Hx. exact (pattern_consumes _ _ _ Hsyn _ _ _ _ Hx). }
  destruct (peek_punct2 "." "." ts); [sub H|].
  destruct (peek_lit ts); [sub H|].
  destruct (peek_kw "_" ts); [sub H|].
  destruct (peek_group DParen ts).
  { sub H. apply p_group_inv in E. subst ts. rewrite toks_size_cons, group_size in Hs. sub H. exact (Hterm x ltac:(lia) E). }
  destruct (peek_ident ts).
  { sub H. destruct (path_inv _ _ _ Hsyn _ _ _ E) as (l & -> & _ & _). rewrite toks_size_app in Hs.
    destruct (peek_group DParen rest); [|destruct (peek_group DBrace rest); [|discriminate]].
    - sub H. apply p_group_inv in E0. subst rest. rewrite toks_size_cons, group_size in Hs. sub H. exact (Hterm x0 ltac:(lia) E0).
    - sub H. apply p_group_inv in E0. subst rest. rewrite toks_size_cons, group_size in Hs. sub H. revert E0. apply fields_fuel; [lia| |].
      + intros l0 Hl. apply IH. lia.
      + intros l0 y r Hx. exact (pattern_consumes _ _ _ Hsyn _ _ _ _ Hx). }
  destruct (peek_punct "<" ts); [|discriminate].
  sub H. sub H. sub H.
Qed.

Lemma p_repeats_le ts : forall s, List.length (snd (p_repeats s ts)) <= List.length ts.
Proof.
  induction ts as [|[x|c j|sv text|x|d c] ts IH]; intro s; cbn [p_repeats]; auto.
  destruct (Ascii.eqb c "+"); [cbn [List.length]; apply le_S, IH|]. destruct (Ascii.eqb c "*"); [cbn [List.length]; apply le_S, IH|].
  destruct (Ascii.eqb c "?"); [cbn [List.length]; apply le_S, IH|]. auto.
Qed.
(** A symbol never panics, and has enough fuel. *)
Lemma symbol_total fuel : forall ts, p_symbol fuel ts <> DPanic /\ (List.length ts < fuel -> p_symbol fuel ts <> DFuel).
Proof.
  induction fuel as [|n IH]; intros ts; [split; [discriminate|lia]|].
  assert (Hlen : List.length (snd (p_litstr ts)) <= List.length ts).
  { pose proof (p_litstr_inv ts) as H. destruct (p_litstr ts) as [[s|] r]; cbn [snd].
    - destruct H as (text & ->). cbn. lia.
    - destruct H as (jk & _ & ->). rewrite app_length. lia. }
  cbn [p_symbol]. destruct (p_litstr ts) as [[str|] ts1]; cbn [snd] in Hlen.
  { cbn [dbind]. destruct (p_repeats (ASTerminal str) ts1); split; discriminate. }
  destruct (p_ident ts1) as [nm r1| | |] eqn:Ei.
  { cbn [dbind]. destruct (p_repeats (ASNonTerminal nm) r1); split; discriminate. }
  2, 3: nofail.
  split.
  - intro H. sub H; [destruct (p_repeats x rest); discriminate|]. sub E.
    destruct (match p_kw "mut" rest with DOk _ b => (true, b) | _ => (false, rest) end) as [mutable b]. sub E. sub E. sub E; [|eapply (proj1 (IH _)); eauto]. sub E.
  - intros Hl H. sub H; [destruct (p_repeats x rest); discriminate|]. sub E. destruct (p_punct_inv _ _ _ _ E0) as (a & ->). cbn [List.length] in Hlen.
    assert (Hb : List.length (snd (match p_kw "mut" rest with DOk _ b => (true, b) | _ => (false, rest) end)) <= List.length rest).
    { destruct (p_kw "mut" rest) eqn:Ek; auto. apply p_kw_inv in Ek. subst. cbn. lia. }
    destruct (match p_kw "mut" rest with DOk _ b => (true, b) | _ => (false, rest) end) as [mutable b]. cbn [snd] in Hb.
    sub E. apply p_ident_inv in E1. destruct E1 as [-> _]. cbn [List.length] in Hb. sub E.
    destruct (p_punct_inv _ _ _ _ E1) as (a' & ->). cbn [List.length] in Hb. sub E; [|eapply (proj2 (IH _)); eauto; lia]. sub E.
Qed.

Lemma symbols_total fuel : forall ts, p_symbols fuel ts <> DPanic /\ (List.length ts < fuel -> p_symbols fuel ts <> DFuel).
Proof.
  induction fuel as [|n IH]; intros ts; [split; [discriminate|lia]|]. cbn [p_symbols].
  destruct (peek_punct2 "=" ">" ts); [split; discriminate|]. split.
  - intro H. sub H; [|eapply (proj1 (symbol_total _ _)); eauto]. sub H. eapply (proj1 (IH _)); eauto.
  - intros Hl H. sub H; [|exact (proj2 (symbol_total _ _) (Nat.lt_succ_diag_r _) E)].
    destruct (symbol_sound _ _ _ _ E) as (l & -> & Hs). sub H. eapply (proj2 (IH _)); eauto.
    rewrite app_length in Hl. pose proof (sym_ne _ _ Hs). destruct l; [contradiction|]. cbn in Hl. lia.
Qed.
Lemma action_total ts : p_action p_expr ts <> DPanic /\ p_action p_expr ts <> DFuel.
Proof.
  unfold p_action. split; intro H; (sub H; destruct (peek_punct "?" rest); [sub H; sub H|sub H]).
Qed.
Lemma production_total ts : p_production p_expr ts <> DPanic /\ p_production p_expr ts <> DFuel.
Proof.
  unfold p_production. split; intro H.
  - sub H; [|eapply (proj1 (symbols_total _ _)); eauto]. sub H. eapply (proj1 (action_total _)); eauto.
  - sub H; [|exact (proj2 (symbols_total _ _) (Nat.lt_succ_diag_r _) E)]. sub H. eapply (proj2 (action_total _)); eauto.
Qed.
Lemma productions_total fuel : forall ts, p_productions p_expr fuel ts <> DPanic /\ (List.length ts < fuel -> p_productions p_expr fuel ts <> DFuel).
Proof.
  induction fuel as [|n IH]; intros ts; [split; [discriminate|lia]|]. cbn [p_productions].
  destruct ts as [|t ts]; [split; discriminate|]. split.
  - intro H. sub H; [|eapply (proj1 (production_total _)); eauto]. sub H. eapply (proj1 (IH _)); eauto.
  - intros Hl H. sub H; [|eapply (proj2 (production_total _)); eauto].
    destruct (production_sound _ _ _ Hsyn _ _ _ E) as (l & Hts & Hne & _). sub H. eapply (proj2 (IH _)); [|exact E0].
    assert (Hr : List.length (match p_punct "," rest with DOk _ r' => r' | _ => rest end) <= List.length rest).
    { destruct (p_punct "," rest) as [u rr| | |] eqn:Ec; auto. destruct (p_punct_inv _ _ _ _ Ec) as (j & ->). cbn. lia. }
    rewrite Hts, app_length in Hl. destruct l; [contradiction|]. cbn in Hl. lia.
Qed.
Lemma non_terminal_total ts : p_non_terminal p_type p_expr ts <> DPanic /\ p_non_terminal p_type p_expr ts <> DFuel.
Proof.
  unfold p_non_terminal. destruct (match p_kw "pub" ts with DOk _ r => (true, r) | _ => (false, ts) end) as [pub r].
  split; intro H; (sub H; sub H; sub H; sub H; sub H; destruct (peek_group DBrace rest2); sub E3).
  - sub E3; [sub E3|]. eapply (proj1 (productions_total _ _)); eauto.
  - sub E3.
  - eapply (proj1 (production_total _)); eauto.
  - sub E3; [sub E3|]. exact (proj2 (productions_total _ _) (Nat.lt_succ_diag_r _) E5).
  - sub E3.
  - eapply (proj2 (production_total _)); eauto.
Qed.
Lemma lifetimes_total fuel : forall ts, p_lifetimes fuel ts <> DPanic /\ (List.length ts < fuel -> p_lifetimes fuel ts <> DFuel).
Proof.
  induction fuel as [|n IH]; intros ts; [split; [discriminate|lia]|]. cbn [p_lifetimes].
  destruct (peek_punct ">" ts); [split; discriminate|]. split.
  - intro H. sub H. sub H. eapply (proj1 (IH _)); eauto.
  - intros Hl H. sub H. apply p_lifetime_inv in E. subst ts. sub H. eapply (proj2 (IH _)); [|exact E].
    assert (Hr : List.length (match p_punct "," rest with DOk _ r' => r' | _ => rest end) <= List.length rest).
    { destruct (p_punct "," rest) as [u rr| | |] eqn:Ec; auto. destruct (p_punct_inv _ _ _ _ Ec) as (j & ->). cbn. lia. }
    cbn in Hl. lia.
Qed.
Lemma conversion_fuel fuel ts : toks_size ts <= fuel -> p_conversion p_type p_path fuel ts <> DFuel.
Proof.
  intros Hs H. unfold p_conversion in H. pose proof (p_litstr_inv ts) as Hl. destruct (p_litstr ts) as [[s|] r0]; [|discriminate].
  destruct Hl as (text & ->). sub H. destruct (p_punct2_inv _ _ _ _ _ E) as (j & ->). sub H. eapply pattern_fuel; [|exact E0].
  rewrite !toks_size_cons in Hs. cbn [tt_size] in Hs. lia.
Qed.
Lemma conversion_consumes fuel l c r : p_conversion p_type p_path fuel l = DOk c r -> List.length r < List.length l /\ toks_size r <= toks_size l.
Proof.
  intro H. destruct (conversion_sound _ _ _ Hsyn _ _ _ _ H) as (l' & -> & Hc). pose proof (conversion_ne _ _ _ _ Hc) as Hn.
  rewrite app_length, toks_size_app. destruct l'; [contradiction|]. cbn [List.length]. lia.
Qed.
Lemma enum_fuel fuel ts : toks_size ts <= fuel -> p_token_enum p_type p_path fuel ts <> DFuel.
Proof.
  intros Hs H. unfold p_token_enum in H. sub H. apply p_kw_inv in E. subst ts. rewrite toks_size_cons in Hs.
  sub H. apply p_ident_inv in E. destruct E as [-> _]. rewrite toks_size_cons in Hs.
  sub H.
  - assert (Hr : toks_size rest <= toks_size rest0).
    { destruct (peek_punct "<" rest0); [|injection E as _ <-; auto]. inv_do E. destruct (p_punct_inv _ _ _ _ E0) as (j & ->).
      inv_do E. destruct (lifetimes_sound _ _ _ _ E1) as (l & -> & _). inv_do E. destruct (p_punct_inv _ _ _ _ E2) as (k & ->).
      injection E as _ <-. rewrite !toks_size_cons, toks_size_app, !toks_size_cons. lia. }
    sub H. apply p_group_inv in E0. subst rest. rewrite toks_size_cons, group_size in Hr. sub H. revert E0. apply terminated_fuel; [lia| |].
    + intros l Hl. apply conversion_fuel. cbn [tt_size] in Hs. lia.
    + intros l c r Hc. exact (conversion_consumes _ _ _ _ Hc).
  - destruct (peek_punct "<" rest0); [|discriminate]. sub E. sub E; [sub E|]. exact (proj2 (lifetimes_total _ _) (Nat.lt_succ_diag_r _) E1).
Qed.
Lemma items_fuel pf fuel : forall ts, toks_size ts <= pf -> List.length ts < fuel -> p_items p_type p_expr p_path pf fuel ts <> DFuel.
Proof.
  induction fuel as [|n IH]; intros ts Hs Hl H; [lia|]. cbn [p_items] in H. destruct ts as [|t ts]; [discriminate|]. sub H.
  - destruct (item_sound _ _ _ Hsyn _ _ _ _ E) as (l & Hts & Hi). sub H. eapply IH; [| |exact E0].
    + rewrite Hts, toks_size_app in Hs. lia.
    + pose proof (item_ne _ _ _ _ _ _ Hi) as Hn. rewrite Hts, app_length in Hl. destruct l; [contradiction|]. cbn in Hl. lia.
  - unfold p_item in E. destruct (peek_kw "type" (t :: ts)); [|destruct (peek_kw "enum" (t :: ts))].
    + unfold p_typedef in E. sub E. sub E. destruct (String.eqb x0 "State"); [|discriminate]. sub E. sub E. sub E.
    + sub E. eapply enum_fuel; eauto.
    + sub E. eapply (proj2 (non_terminal_total _)); eauto.
Qed.
Theorem parser_total ts : p_parser p_type p_expr p_path ts <> DFuel.
Proof. apply items_fuel; lia. Qed.

(** ** Panics: soundness *)
Notation pat_panics := (pat_panics is_type is_path).
Notation pats_panic := (pats_panic is_type is_path).
Notation fields_panic := (fields_panic is_type is_path).
Notation conversions_panic := (conversions_panic is_type is_path).
Notation syntax_panics := (syntax_panics is_type is_expr is_path).

Lemma pat_first_iff ts : pat_first ts <->
  (peek_punct2 "." "." ts || peek_lit ts || peek_kw "_" ts || peek_group DParen ts || peek_ident ts || peek_punct "<" ts = true)%bool.
Proof.
  split.
  - intros [l r (j & ->)|l sv text r Hl|r|c r|s r Hs|j r].
    + reflexivity.
    + assert (H : peek_lit (l ++ r) = true) by (unfold peek_lit; rewrite (p_lit_literal _ _ _ _ Hl); reflexivity). rewrite H, !orb_true_r. reflexivity.
    + reflexivity.
    + reflexivity.
    + assert (H : peek_ident (TIdent s :: r) = true) by exact Hs. rewrite H, !orb_true_r. reflexivity.
    + rewrite peek_punct_cons, !orb_true_r. reflexivity.
  - intro H. rewrite !orb_true_iff in H. destruct H as [[[[[H|H]|H]|H]|H]|H].
    + destruct (peek_punct2_inv _ _ _ H) as (j & r & ->). change (pat_first ([TPunct "." true; TPunct "." j] ++ r)). apply pf_dots. exists j; auto.
    + unfold peek_lit in H. destruct (p_lit ts) eqn:E; try discriminate. destruct (p_lit_inv _ _ _ E) as (l & -> & Hl). eapply pf_lit; eauto.
    + destruct (peek_kw_inv _ _ H) as (r & ->). apply pf_underscore.
    + destruct (peek_group_inv _ _ H) as (c & r & ->). apply pf_paren.
    + destruct ts as [|[s| | | |] ts]; try discriminate. apply pf_ident. exact H.
    + destruct (peek_punct_inv _ _ H) as (j & r & ->). apply pf_lt.
Qed.

Lemma pattern_sound_before fuel ts p r : p_pattern fuel ts = DOk p r ->
  exists l, ts = l ++ r /\ pat_syntax l p /\ forall q, p = PatPath q -> path_before p_path l q r.
Proof.
  intro H. destruct (pattern_sound _ _ _ Hsyn _ _ _ _ H) as (l & -> & Hp). exists l. split; [reflexivity|]. split; auto.
  intros q ->. destruct fuel as [|n]; [discriminate|]. inversion Hp as [| | | |l' p' Hst Hpa| | |]; subst.
  cbn [Dsl.p_pattern] in H. destruct (path_start_peeks l r Hst) as (H1 & H2 & H3 & H4 & H5). rewrite H1, H2, H3, H4, H5 in H.
  inv_do H. apply oracle_inv in E. destruct (peek_group DParen rest) eqn:E6; [inv_do H; inv_do H; discriminate H|].
  destruct (peek_group DBrace rest) eqn:E7; [inv_do H; inv_do H; destruct x1; discriminate H|]. injection H as <- <-. split; auto.
  intros d c r' ->. destruct d; auto; discriminate.
Qed.
Lemma fields_panic_sound pat : (forall ts p r, pat ts = DOk p r -> exists l, ts = l ++ r /\ pat_syntax l p /\ forall q, p = PatPath q -> path_before p_path l q r) ->
  (forall ts, pat ts = DPanic -> pat_panics (path_before p_path) ts) ->
  forall fuel ts, p_fields pat fuel ts = DPanic -> fields_panic (path_before p_path) ts.
Proof.
  intros Hs Hp. induction fuel as [|n IH]; intros ts H; [discriminate|]. cbn [p_fields] in H.
  destruct ts as [|t ts]; [discriminate|]. destruct (peek_punct2 "." "." (t :: ts)) eqn:Ed.
  - sub H. destruct (p_punct2_inv _ _ _ _ _ E) as (j & Hj). destruct rest as [|t' rest]; [discriminate|].
    rewrite Hj. change (fields_panic (path_before p_path) ([TPunct "." true; TPunct "." j] ++ t' :: rest)). apply fp_after_dots; [exists j; auto|discriminate].
  - sub H.
    + unfold p_field in E. inv_do E. apply p_ident_inv in E0. destruct E0 as [H1 Hi]. inv_do E.
      destruct (p_punct_inv _ _ _ _ E0) as (j & H2). inv_do E. injection E as <- <-. destruct (Hs _ _ _ E1) as (l & H3 & Hl & Hbef).
      destruct (peek_punct "," rest2) eqn:Ec.
      * sub H. destruct (p_punct_inv _ _ _ _ E) as (k & Hk). sub H. apply IH in E2. rewrite H1, H2, H3, Hk.
        change (l ++ TPunct "," k :: rest) with (l ++ [TPunct "," k] ++ rest). eapply fp_later; eauto. exists k; auto.
      * destruct rest2 as [|t2 rest2]; [discriminate|]. destruct (peek_punct2 "." "." (t2 :: rest2)) eqn:Ed2.
        -- destruct (peek_punct2_inv _ _ _ Ed2) as (k & r' & Hk). rewrite Hk in *. sub H. destruct n as [|n]; [discriminate|].
           cbn in E. destruct r' as [|t3 r']; [discriminate|]. rewrite H1, H2, H3.
           change (l ++ TPunct "." true :: TPunct "." k :: t3 :: r') with (l ++ [TPunct "." true; TPunct "." k] ++ t3 :: r').
           eapply fp_dots_later; eauto; [exists k; auto|discriminate].
        -- rewrite H1, H2, H3. eapply fp_comma; eauto; [discriminate|]. intros c r' Hc. split; intros (k & ->).
           ++ rewrite Hc in Ec. cbn in Ec. discriminate.
           ++ rewrite Hc in Ed2. cbn in Ed2. discriminate.
    + unfold p_field in E. sub E. apply p_ident_inv in E0. destruct E0 as [H1 Hi]. sub E.
      destruct (p_punct_inv _ _ _ _ E0) as (j & H2). sub E. rewrite H1, H2. apply fp_in; auto.
Qed.

Lemma pattern_panic_sound fuel : forall ts, p_pattern fuel ts = DPanic -> pat_panics (path_before p_path) ts.
Proof.
  induction fuel as [|n IH]; intros ts H; [discriminate|]. cbn [Dsl.p_pattern] in H.
  assert (Hterm : forall f c, p_terminated (p_pattern n) f c = DPanic -> pats_panic (path_before p_path) c).
  { apply (terminated_panic (p_pattern n) pat_syntax (pats_panic (path_before p_path))).
    - intros ts0 x r Hx. exact (pattern_sound _ _ _ Hsyn _ _ _ _ Hx).
    - intros ts0 Hne Hx. apply lp_here; auto.
    - intros. eapply lp_later; eauto. }
  destruct (peek_punct2 "." "." ts) eqn:E1; [sub H|].
  destruct (peek_lit ts) eqn:E2; [sub H|].
  destruct (peek_kw "_" ts) eqn:E3; [sub H|].
  destruct (peek_group DParen ts) eqn:E4.
  { sub H. apply p_group_inv in E. subst ts. sub H. apply pp_tuple. eapply Hterm; eauto. }
  destruct (peek_ident ts) eqn:E5.
  { sub H. destruct (path_inv _ _ _ Hsyn _ _ _ E) as (l & Hl & Hne & Hp).
    assert (Hst : path_start l).
    { destruct l as [|[s| | | |] l]; try contradiction; subst ts; cbn in E5; try discriminate. constructor; auto. }
    subst ts. destruct (peek_group DParen rest); [|destruct (peek_group DBrace rest); [|discriminate]].
    - sub H. apply p_group_inv in E0. subst rest. sub H. eapply pp_enum; eauto.
    - sub H. apply p_group_inv in E0. subst rest. sub H. eapply pp_struct; eauto. eapply fields_panic_sound; eauto.
      intros ts0 x1 r1 Hx. exact (pattern_sound_before _ _ _ _ Hx). }
  destruct (peek_punct "<" ts) eqn:E6.
  { sub H. sub H. sub H. }
  apply pp_start. rewrite pat_first_iff, E1, E2, E3, E4, E5, E6. discriminate.
Qed.

Lemma conversion_panic_sound fuel ts : p_conversion p_type p_path fuel ts = DPanic -> conversions_panic (path_before p_path) ts.
Proof.
  unfold p_conversion. intro H. pose proof (p_litstr_inv ts) as Hl. destruct (p_litstr ts) as [[s|] r0]; [|discriminate].
  destruct Hl as (text & ->). sub H. destruct (p_punct2_inv _ _ _ _ _ E) as (j & ->). sub H.
  change (conversions_panic (path_before p_path) (TLit (Some s) text :: [TPunct "=" true; TPunct ">" j] ++ rest)).
  apply cp_here; [exists j; auto|]. eapply pattern_panic_sound; eauto.
Qed.
Theorem parser_panic_sound ts : p_parser p_type p_expr p_path ts = DPanic -> syntax_panics (expr_before p_expr) (path_before p_path) ts.
Proof.
  unfold p_parser. generalize (S (toks_size ts)) as pf, (S (List.length ts)) as fuel. intros pf fuel. revert ts.
  induction fuel as [|n IH]; intros ts H; [discriminate|]. cbn [p_items] in H. destruct ts as [|t ts]; [discriminate|]. sub H.
  - destruct (item_sound _ _ _ Hsyn _ _ _ _ E) as (l & -> & Hi). sub H. eapply sp_later; eauto.
  - unfold p_item in E. destruct (peek_kw "type" (t :: ts)) eqn:E1; [|destruct (peek_kw "enum" (t :: ts)) eqn:E2].
    + unfold p_typedef in E. sub E. apply p_kw_inv in E0. rewrite E0. sub E. apply p_ident_inv in E2. destruct E2 as [-> Hx].
      destruct (String.eqb x0 "State") eqn:Es; [sub E; sub E; sub E|]. apply String.eqb_neq in Es. apply sp_type_name; auto.
    + sub E. unfold p_token_enum in E0. sub E0. apply p_kw_inv in E3. rewrite E3. sub E0. apply p_ident_inv in E4. destruct E4 as [-> Hn].
      sub E0.
      * sub E0. apply p_group_inv in E5. subst rest. sub E0.
        assert (Hc : conversions_panic (path_before p_path) x2).
        { revert E5. apply (terminated_panic _ (conversion_syntax is_type is_path)).
          - intros ts0 c r Hc. exact (conversion_sound _ _ _ Hsyn _ _ _ _ Hc).
          - intros ts0 _ Hp. eapply conversion_panic_sound; eauto.
          - intros. eapply cp_later; eauto. }
        destruct (peek_punct "<" rest0).
        -- inv_do E4. destruct (p_punct_inv _ _ _ _ E6) as (j & ->). inv_do E4. destruct (lifetimes_sound _ _ _ _ E7) as (l & -> & Hls & _).
           inv_do E4. destruct (p_punct_inv _ _ _ _ E8) as (k & ->). injection E4 as _ ->. eapply sp_enum_lifetimes; eauto.
        -- injection E4 as _ ->. apply sp_enum_plain; auto.
      * destruct (peek_punct "<" rest0); [|discriminate]. sub E4. sub E4; [sub E4|]. exfalso. eapply (proj1 (lifetimes_total _ _)); eauto.
    + sub E. exfalso. eapply (proj1 (non_terminal_total _)); eauto.
Qed.

(** ** Panics: completeness *)
Scheme pat_panics_mind := Induction for DslSpec.pat_panics Sort Prop
  with pats_panic_mind := Induction for DslSpec.pats_panic Sort Prop
  with fields_panic_mind := Induction for DslSpec.fields_panic Sort Prop.
Combined Scheme panics_mind from pat_panics_mind, pats_panic_mind, fields_panic_mind.

Lemma comma_follow j r : path_ends p_path (TPunct "," j :: r).
Proof. eapply pat_follow_punct; eauto. cbn; auto. Qed.
Lemma dot_follow j r : path_ends p_path (TPunct "." j :: r).
Proof. eapply pat_follow_punct; eauto. cbn; auto. Qed.

Lemma panics_complete :
  (forall ts, pat_panics (path_before p_path) ts -> forall fuel, toks_size ts < fuel -> p_pattern fuel ts = DPanic) /\
  (forall ts, pats_panic (path_before p_path) ts -> forall n fuel, toks_size ts < n -> List.length ts < fuel -> p_terminated (p_pattern n) fuel ts = DPanic) /\
  (forall ts, fields_panic (path_before p_path) ts -> forall n fuel, toks_size ts < n -> List.length ts < fuel -> p_fields (p_pattern n) fuel ts = DPanic).
Proof.
  apply (panics_mind is_type is_path (path_before p_path)
    (fun ts _ => forall fuel, toks_size ts < fuel -> p_pattern fuel ts = DPanic)
    (fun ts _ => forall n fuel, toks_size ts < n -> List.length ts < fuel -> p_terminated (p_pattern n) fuel ts = DPanic)
    (fun ts _ => forall n fuel, toks_size ts < n -> List.length ts < fuel -> p_fields (p_pattern n) fuel ts = DPanic)).
  - intros ts Hn [|n] Hf; [lia|]. rewrite pat_first_iff in Hn. cbn [Dsl.p_pattern].
    destruct (peek_punct2 "." "." ts); [destruct Hn; reflexivity|]. destruct (peek_lit ts); [destruct Hn; reflexivity|].
    destruct (peek_kw "_" ts); [destruct Hn; reflexivity|]. destruct (peek_group DParen ts); [destruct Hn; reflexivity|].
    destruct (peek_ident ts); [destruct Hn; reflexivity|]. destruct (peek_punct "<" ts); [destruct Hn; reflexivity|]. reflexivity.
  - intros c r _ IH [|n] Hf; [lia|]. rewrite toks_size_cons, group_size in Hf. cbn [Dsl.p_pattern peek_punct2 peek_kw].
    change (peek_lit (TGroup DParen c :: r)) with false. rewrite peek_group_cons, p_group_cons. cbn [dbind].
    rewrite IH by lia. reflexivity.
  - intros l p c r Hst Hp _ IH [|n] Hf; [lia|]. rewrite toks_size_app, toks_size_cons, group_size in Hf.
    destruct (path_start_peeks l (TGroup DParen c :: r) Hst) as (H1 & H2 & H3 & H4 & H5).
    cbn [Dsl.p_pattern]. rewrite H1, H2, H3, H4, H5. unfold oracle.
    assert (Hfo : path_follow (TGroup DParen c :: r)) by (right; right; do 3 eexists; split; [reflexivity|discriminate]).
    rewrite (sp_path_stops _ _ _ Hsyn _ Hfo _ _ Hp). cbn [dbind]. rewrite peek_group_cons, p_group_cons. cbn [dbind]. rewrite IH by lia. reflexivity.
  - intros l p c r Hst Hp _ IH [|n] Hf; [lia|]. rewrite toks_size_app, toks_size_cons, group_size in Hf.
    destruct (path_start_peeks l (TGroup DBrace c :: r) Hst) as (H1 & H2 & H3 & H4 & H5).
    cbn [Dsl.p_pattern]. rewrite H1, H2, H3, H4, H5. unfold oracle.
    assert (Hfo : path_follow (TGroup DBrace c :: r)) by (right; right; do 3 eexists; split; [reflexivity|discriminate]).
    rewrite (sp_path_stops _ _ _ Hsyn _ Hfo _ _ Hp). cbn [dbind]. change (peek_group DParen (TGroup DBrace c :: r)) with false. cbn iota.
    rewrite peek_group_cons, p_group_cons. cbn [dbind]. rewrite IH by lia. reflexivity.
  - intros ts Hne _ IH n [|f] Hn Hf; [lia|]. cbn [p_terminated]. destruct ts as [|t ts]; [contradiction|]. rewrite IH by lia. reflexivity.
  - intros l p c r Hp (j & ->) _ IH n [|f] Hn Hf; [lia|]. cbn [app] in *. rewrite toks_size_app, toks_size_cons in Hn.
    pose proof (pat_ne _ _ _ _ Hp) as Hne. rewrite app_length in Hf. cbn [List.length] in Hf.
    assert (Hc : p_pattern n (l ++ TPunct "," j :: r) = DOk p (TPunct "," j :: r))
      by (apply (pattern_complete _ _ _ Hsyn _ _ _ _ Hp); [lia|apply comma_follow]).
    cbn [p_terminated]. destruct (l ++ TPunct "," j :: r) as [|t0 l0] eqn:E0; [destruct l; discriminate|]. rewrite Hc. cbn [dbind].
    rewrite p_punct_cons. cbn [dbind]. rewrite IH by lia. reflexivity.
  - intros d r (j & ->) Hr n [|f] Hn Hf; [lia|]. cbn [p_fields app]. destruct r; [contradiction|]. reflexivity.
  - intros f j r Hf _ IH n [|fu] Hn Hl; [lia|]. cbn [p_fields peek_punct2]. unfold p_field. rewrite p_ident_cons by auto. cbn [dbind].
    rewrite p_punct_cons. cbn [dbind]. rewrite !toks_size_cons in Hn. rewrite IH by lia. reflexivity.
  - intros f j l p r Hf Hp Hne Hgap Hno n [|fu] Hn Hl; [lia|]. cbn [p_fields peek_punct2]. unfold p_field.
    rewrite p_ident_cons by auto. cbn [dbind]. rewrite p_punct_cons. cbn [dbind]. rewrite !toks_size_cons, toks_size_app in Hn.
    rewrite (pattern_complete_before _ _ _ Hsyn _ _ _ r Hp) by (first [exact Hgap | lia]). cbn [dbind].
    destruct (peek_punct "," r) eqn:Ec.
    { destruct (peek_punct_inv _ _ Ec) as (k & r' & ->). destruct (proj1 (Hno [TPunct "," k] r' eq_refl)). exists k; auto. }
    destruct (peek_punct2 "." "." r) eqn:Ed.
    { destruct (peek_punct2_inv _ _ _ Ed) as (k & r' & ->). destruct (proj2 (Hno [TPunct "." true; TPunct "." k] r' eq_refl)). exists k; auto. }
    destruct r; [contradiction|]. reflexivity.
  - intros f j l p c r Hf Hp (k & ->) _ IH n [|fu] Hn Hl; [lia|]. cbn [app] in *. cbn [p_fields peek_punct2]. unfold p_field.
    rewrite p_ident_cons by auto. cbn [dbind]. rewrite p_punct_cons. cbn [dbind]. rewrite !toks_size_cons, toks_size_app, toks_size_cons in Hn.
    cbn [List.length] in Hl. rewrite app_length in Hl. cbn [List.length] in Hl.
    rewrite (pattern_complete _ _ _ Hsyn _ _ _ (TPunct "," k :: r) Hp) by (try apply comma_follow; lia). cbn [dbind].
    rewrite peek_punct_cons, p_punct_cons. cbn [dbind]. rewrite IH by lia. reflexivity.
  - intros f j l p d r Hf Hp (k & ->) Hr n [|fu] Hn Hl; [lia|]. cbn [app] in *. cbn [p_fields peek_punct2]. unfold p_field.
    rewrite p_ident_cons by auto. cbn [dbind]. rewrite p_punct_cons. cbn [dbind]. rewrite !toks_size_cons, toks_size_app, toks_size_cons in Hn.
    cbn [List.length] in Hl. rewrite app_length in Hl. cbn [List.length] in Hl.
    rewrite (pattern_complete _ _ _ Hsyn _ _ _ (TPunct "." true :: TPunct "." k :: r) Hp) by (try apply dot_follow; lia). cbn [dbind].
    destruct fu as [|fu]; [lia|]. destruct r; [contradiction|]. reflexivity.
Qed.

Lemma conversions_panic_complete ts : conversions_panic (path_before p_path) ts -> forall n fuel, toks_size ts < n -> List.length ts < fuel ->
  p_terminated (p_conversion p_type p_path n) fuel ts = DPanic.
Proof.
  intro H. induction H as [s text arrow r (j & ->) Hp|l cv c r Hc (j & ->) Hr IH]; intros n [|f] Hn Hf; try lia; cbn [app] in *.
  - cbn [p_terminated]. unfold p_conversion. rewrite p_litstr_string, p_arrow_cons. cbn [dbind]. rewrite !toks_size_cons in Hn.
    rewrite (proj1 panics_complete _ Hp) by lia. reflexivity.
  - rewrite toks_size_app, toks_size_cons in Hn. rewrite app_length in Hf. cbn [List.length] in Hf.
    pose proof (conversion_ne _ _ _ _ Hc) as Hne.
    assert (Hcc : p_conversion p_type p_path n (l ++ TPunct "," j :: r) = DOk cv (TPunct "," j :: r))
      by (apply (conversion_complete _ _ _ Hsyn); [auto|lia|apply comma_follow]).
    cbn [p_terminated]. destruct (l ++ TPunct "," j :: r) as [|t0 l0] eqn:E0; [destruct l; discriminate|]. rewrite Hcc. cbn [dbind].
    rewrite p_punct_cons. cbn [dbind]. rewrite IH by lia. reflexivity.
Qed.

Theorem parser_panic_complete ts : syntax_panics (expr_before p_expr) (path_before p_path) ts -> p_parser p_type p_expr p_path ts = DPanic.
Proof.
  intro H. unfold p_parser. assert (Hg : forall pf fuel, toks_size ts < pf -> List.length ts < fuel -> p_items p_type p_expr p_path pf fuel ts = DPanic);
    [|apply Hg; lia].
  induction H as [x r Hx Hne|n c r Hn Hc|n j l ls k c r Hn Hls Hc|l i r Hi Hr IH]; intros pf [|f] Hp Hf; try lia; cbn [p_items].
  - unfold p_item. change (peek_kw "type" (TIdent "type" :: TIdent x :: r)) with true. cbn iota. unfold p_typedef.
    change (p_kw "type" (TIdent "type" :: TIdent x :: r)) with (@DOk unit tt (TIdent x :: r)). cbn [dbind]. rewrite p_ident_cons by auto. cbn [dbind].
    apply String.eqb_neq in Hne. rewrite Hne. reflexivity.
  - unfold p_item. change (peek_kw "type" (TIdent "enum" :: TIdent n :: TGroup DBrace c :: r)) with false.
    change (peek_kw "enum" (TIdent "enum" :: TIdent n :: TGroup DBrace c :: r)) with true. cbn iota. unfold p_token_enum.
    change (p_kw "enum" (TIdent "enum" :: TIdent n :: TGroup DBrace c :: r)) with (@DOk unit tt (TIdent n :: TGroup DBrace c :: r)). cbn [dbind].
    rewrite p_ident_cons by auto. cbn [dbind peek_punct]. rewrite p_group_cons. cbn [dbind]. rewrite !toks_size_cons, group_size in Hp.
    rewrite (conversions_panic_complete _ Hc) by lia. reflexivity.
  - unfold p_item. set (tl := l ++ TPunct ">" k :: TGroup DBrace c :: r) in *.
    change (peek_kw "type" (TIdent "enum" :: TIdent n :: TPunct "<" j :: tl)) with false.
    change (peek_kw "enum" (TIdent "enum" :: TIdent n :: TPunct "<" j :: tl)) with true. cbn iota. unfold p_token_enum.
    change (p_kw "enum" (TIdent "enum" :: TIdent n :: TPunct "<" j :: tl)) with (@DOk unit tt (TIdent n :: TPunct "<" j :: tl)). cbn [dbind].
    rewrite p_ident_cons by auto. cbn [dbind]. rewrite peek_punct_cons, p_punct_cons. cbn [dbind].
    rewrite !toks_size_cons in Hp. unfold tl in *. rewrite toks_size_app, !toks_size_cons, group_size in Hp.
    rewrite (lifetimes_complete _ _ Hls) by (rewrite app_length; lia). cbn [dbind]. rewrite p_punct_cons. cbn [dbind]. rewrite p_group_cons. cbn [dbind].
    rewrite (conversions_panic_complete _ Hc) by lia. reflexivity.
  - rewrite toks_size_app in Hp. pose proof (item_ne _ _ _ _ _ _ Hi) as Hn. rewrite app_length in Hf.
    assert (Hc : p_item p_type p_expr p_path pf (l ++ r) = DOk i r) by (apply item_complete; auto; lia).
    destruct (l ++ r) as [|t0 l0] eqn:E0; [destruct l; discriminate|]. rewrite Hc. cbn [dbind].
    rewrite IH; [reflexivity|lia|]. destruct l; [contradiction|]. cbn in Hf. lia.
Qed.
End DslPanics.
