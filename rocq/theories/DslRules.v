(** * DslRules: rules, items and whole inputs: the parser recognises exactly the syntax of DslSpec.v *)
From Verif Require Export DslProofs.
Local Open Scope string_scope.
Local Open Scope list_scope.

Lemma is_ident_not_kw s k : is_ident s = true -> In k rust_keywords -> String.eqb s k = false.
Proof.
  intros H Hk. apply negb_true_iff in H. destruct (String.eqb s k) eqn:E; auto. apply String.eqb_eq in E. subst.
  assert (Hc : existsb (String.eqb k) rust_keywords = true); [|congruence].
  apply existsb_exists. exists k. split; auto. apply String.eqb_refl.
Qed.
Ltac kw := apply is_ident_not_kw; [assumption|cbv; tauto].

(** ** Symbols *)
Lemma p_litstr_string s text r : p_litstr (TLit (Some s) text :: r) = (Some s, r).
Proof. reflexivity. Qed.
Lemma p_litstr_skip jk ts : junk jk -> p_lit ts = DErr -> p_litstr (jk ++ ts) = (None, ts).
Proof.
  intros [|l text Hl] H; unfold p_litstr.
  - cbn [app]. rewrite H. reflexivity.
  - rewrite (p_lit_literal _ _ _ ts Hl). reflexivity.
Qed.
Lemma p_lit_ident s r : is_ident s = true -> p_lit (TIdent s :: r) = DErr.
Proof. intro H. cbn [p_lit]. rewrite !(is_ident_not_kw s) by (auto; cbv; tauto). reflexivity. Qed.
Lemma p_lit_lt j r : p_lit (TPunct "<" j :: r) = DErr.
Proof. destruct r as [|[| | | |] r]; reflexivity. Qed.
Lemma p_litstr_inv ts : match p_litstr ts with
  | (Some s, r) => exists text, ts = TLit (Some s) text :: r
  | (None, r) => exists jk, junk jk /\ ts = jk ++ r
  end.
Proof.
  unfold p_litstr. destruct (p_lit ts) as [[[s|] t] r| | |] eqn:E.
  - destruct (p_lit_inv _ _ _ E) as (l & Hl & Hlit). cbn [fst snd] in Hlit. inversion Hlit; subst. exists t. reflexivity.
  - destruct (p_lit_inv _ _ _ E) as (l & Hl & Hlit). cbn [fst snd] in Hlit. exists l. split; auto. econstructor; eauto.
  - exists []. split; auto; constructor.
  - exists []. split; auto; constructor.
  - exists []. split; auto; constructor.
Qed.

Lemma p_repeats_op s op j r : p_repeats s (TPunct (repeat_char op) j :: r) = p_repeats (ASRepeat op s) r.
Proof. destruct op; reflexivity. Qed.
Lemma p_repeats_sound ts : forall s s' r l, p_repeats s ts = (s', r) -> sym_syntax l s ->
  exists l', sym_syntax l' s' /\ l ++ ts = l' ++ r.
Proof.
  induction ts as [|t ts IH]; intros s s' r l H Hs.
  { injection H as <- <-. eauto. }
  destruct t as [x|c j|sv text|x|d c]; try (injection H as <- <-; eauto).
  cbn [p_repeats] in H.
  assert (Hop : forall op, c = repeat_char op -> p_repeats (ASRepeat op s) ts = (s', r) ->
            exists l', sym_syntax l' s' /\ l ++ TPunct c j :: ts = l' ++ r).
  { intros op -> H1. destruct (IH _ _ _ (l ++ [TPunct (repeat_char op) j]) H1 (sy_repeat _ _ _ _ Hs)) as (l' & Hl' & Heq).
    exists l'. split; auto. rewrite <- Heq, <- app_assoc. reflexivity. }
  destruct (Ascii.eqb c "+") eqn:E1; [apply Ascii.eqb_eq in E1; apply (Hop RPlus); auto|].
  destruct (Ascii.eqb c "*") eqn:E2; [apply Ascii.eqb_eq in E2; apply (Hop RStar); auto|].
  destruct (Ascii.eqb c "?") eqn:E3; [apply Ascii.eqb_eq in E3; apply (Hop RQuestion); auto|].
  injection H as <- <-. eauto.
Qed.

Lemma symbol_sound fuel : forall ts s r, p_symbol fuel ts = DOk s r -> exists l, ts = l ++ r /\ sym_syntax l s.
Proof.
  induction fuel as [|n IH]; intros ts s r H; [discriminate|]. cbn [p_symbol] in H.
  assert (Hfin : forall s0 rest, (let (s1, r1) := p_repeats s0 rest in DOk s1 r1) = DOk s r ->
            forall l, sym_syntax l s0 -> ts = l ++ rest -> exists l, ts = l ++ r /\ sym_syntax l s).
  { intros s0 rest H0 l Hl Hts. destruct (p_repeats s0 rest) as [s1 r1] eqn:Er. injection H0 as <- <-.
    destruct (p_repeats_sound _ _ _ _ _ Er Hl) as (l' & Hl' & He). exists l'. split; auto. congruence. }
  pose proof (p_litstr_inv ts) as Hls. destruct (p_litstr ts) as [[str|] ts1] eqn:Els.
  - cbn [dbind] in H. destruct Hls as (text & Hts). apply (Hfin _ _ H [TLit (Some str) text]); auto. constructor.
  - destruct Hls as (jk & Hjk & Hts). destruct (p_ident ts1) as [nm r1| | |] eqn:Ei.
    + cbn [dbind] in H. apply p_ident_inv in Ei. destruct Ei as [-> Hn].
      apply (Hfin _ _ H (jk ++ [TIdent nm])); [constructor; auto|rewrite <- app_assoc; auto].
    + inv_do H. inv_do E. destruct (p_punct_inv _ _ _ _ E0) as (a & Ha). clear E0.
      assert (Hmut : exists mutable b, rest0 = (if mutable : bool then [TIdent "mut"] else []) ++ b /\
                (match p_kw "mut" rest0 with DOk _ b => (true, b) | _ => (false, rest0) end) = (mutable, b)).
      { destruct (p_kw "mut" rest0) eqn:Ek; [apply p_kw_inv in Ek; exists true, rest1; split; auto|exists false, rest0; split; auto..]. }
      destruct Hmut as (mutable & b & Hb & Hm). rewrite Hm in E. inv_do E. apply p_ident_inv in E0. destruct E0 as [Hr1 Hx].
      inv_do E. destruct (p_punct_inv _ _ _ _ E0) as (cj & Hc). inv_do E. destruct (IH _ _ _ E1) as (l & Hl & Hs).
      inv_do E. destruct (p_punct_inv _ _ _ _ E2) as (dj & Hd). injection E as <- <-.
      eapply (Hfin _ _ H (jk ++ TPunct "<" a :: (if mutable then [TIdent "mut"] else []) ++ TIdent x1 :: TPunct ":" cj :: l ++ [TPunct ">" dj])).
      * constructor; auto.
      * rewrite Hts, Ha, Hb, Hr1, Hc, Hl, Hd. destruct mutable; cbn [app]; rewrite <- !app_assoc; cbn [app]; rewrite <- ?app_assoc; reflexivity.
    + exfalso. eapply (proj2 (p_ident_nofail _)); eauto.
    + exfalso. eapply (proj1 (p_ident_nofail _)); eauto.
Qed.

Lemma p_ident_lt j r : p_ident (TPunct "<" j :: r) = DErr.
Proof. reflexivity. Qed.
Lemma symbol_complete l s : sym_syntax l s -> forall r fuel, List.length l < fuel ->
  p_symbol fuel (l ++ r) = let (s', r') := p_repeats s r in DOk s' r'.
Proof.
  intro H. induction H as [s text|jk s Hj Hs|jk a b c mutable x l s Hj Hx Hs IH|l s op j Hs IH]; intros r fuel Hf;
    (destruct fuel as [|n]; [lia|]).
  - reflexivity.
  - rewrite <- app_assoc. cbn [p_symbol app]. rewrite (p_litstr_skip _ _ Hj (p_lit_ident _ _ Hs)), p_ident_cons by auto. reflexivity.
  - rewrite <- app_assoc. cbn [p_symbol app]. rewrite (p_litstr_skip _ _ Hj (p_lit_lt _ _)), p_ident_lt, p_punct_cons. cbn [dbind].
    assert (Hm : match p_kw "mut" (((if mutable then [TIdent "mut"] else []) ++ TIdent x :: TPunct ":" b :: l ++ [TPunct ">" c]) ++ r) with
                 | DOk _ b => (true, b)
                 | _ => (false, ((if mutable then [TIdent "mut"] else []) ++ TIdent x :: TPunct ":" b :: l ++ [TPunct ">" c]) ++ r) end
                 = (mutable, TIdent x :: TPunct ":" b :: l ++ TPunct ">" c :: r)).
    { assert (Ht : (l ++ [TPunct ">" c]) ++ r = l ++ TPunct ">" c :: r) by (rewrite <- app_assoc; reflexivity).
      destruct mutable; cbn [app p_kw]; [cbn; rewrite Ht; reflexivity|]. rewrite is_ident_not_kw by (auto; cbv; tauto). rewrite Ht. reflexivity. }
    rewrite Hm. rewrite p_ident_cons by auto. cbn [dbind]. rewrite p_punct_cons. cbn [dbind]. rewrite IH.
    + change (p_repeats s (TPunct ">" c :: r)) with (s, TPunct ">" c :: r). cbn [dbind]. rewrite p_punct_cons. reflexivity.
    + rewrite app_length in Hf. cbn [List.length] in Hf. rewrite app_length in Hf. cbn [List.length] in Hf. rewrite app_length in Hf. lia.
  - rewrite <- app_assoc. cbn [app]. rewrite IH by (rewrite app_length in Hf; lia). rewrite p_repeats_op. reflexivity.
Qed.

Lemma literal_head l sv text : literal l sv text -> (exists t l', l = t :: l' /\ match t with TGroup _ _ | TLifetime _ => False | TPunct c _ => c = "-"%char | _ => True end).
Proof. intro H. destruct H; do 2 eexists; split; try reflexivity; exact I. Qed.
(** How a symbol begins *)
Definition sym_first (t : ttree) : Prop :=
  match t with TGroup _ _ | TLifetime _ => False | TPunct c _ => c = "-"%char \/ c = "<"%char | _ => True end.
Lemma junk_head jk t l : junk jk -> sym_first t -> exists t' l', jk ++ t :: l = t' :: l' /\ sym_first t'.
Proof.
  intros [|l0 text Hl] Ht; [do 2 eexists; split; [reflexivity|auto]|].
  destruct (literal_head _ _ _ Hl) as (t' & l' & -> & H). do 2 eexists. split; [reflexivity|]. destruct t'; cbn in *; auto.
Qed.
Lemma sym_head l s : sym_syntax l s -> exists t l', l = t :: l' /\ sym_first t.
Proof.
  intro H. induction H as [s text|jk s Hj Hs|jk a b c mutable x l s Hj Hx Hs IH|l s op j Hs IH].
  - do 2 eexists; split; [reflexivity|exact I].
  - apply junk_head; auto. exact I.
  - apply junk_head; auto. right; reflexivity.
  - destruct IH as (t & l' & -> & Ht). do 2 eexists; split; [reflexivity|auto].
Qed.
Lemma sym_ne l s : sym_syntax l s -> l <> [].
Proof. intro H. destruct (sym_head _ _ H) as (t & l' & -> & _). discriminate. Qed.
Lemma sym_first_arrow t r : sym_first t -> peek_punct2 "=" ">" (t :: r) = false.
Proof. destruct t as [|c [|]| | |]; try reflexivity. intro H. destruct r as [|[|d j| | |] r]; try reflexivity. destruct H; subst; reflexivity. Qed.
Lemma sym_first_repeats s t r : sym_first t -> p_repeats s (t :: r) = (s, t :: r).
Proof. destruct t as [|c j| | |]; try reflexivity. intro H. destruct H; subst; reflexivity. Qed.
Lemma arrow_cons j r : peek_punct2 "=" ">" (TPunct "=" true :: TPunct ">" j :: r) = true.
Proof. reflexivity. Qed.
Lemma p_arrow_cons j r : p_punct2 "=" ">" (TPunct "=" true :: TPunct ">" j :: r) = DOk tt r.
Proof. reflexivity. Qed.

(** ** Symbols of a production *)
Lemma symbols_sound fuel : forall ts ss r, p_symbols fuel ts = DOk ss r -> exists l, ts = l ++ r /\ syms_syntax l ss /\ peek_punct2 "=" ">" r = true.
Proof.
  induction fuel as [|n IH]; intros ts ss r H; [discriminate|]. cbn [p_symbols] in H.
  destruct (peek_punct2 "=" ">" ts) eqn:E0.
  - injection H as <- <-. exists []. repeat split; auto. constructor.
  - inv_do H. destruct (symbol_sound _ _ _ _ E) as (l & Hl & Hs). inv_do H. injection H as <- <-.
    destruct (IH _ _ _ E1) as (l' & Hl' & Hss & Hp). exists (l ++ l'). repeat split; auto; [|constructor; auto].
    rewrite <- app_assoc. congruence.
Qed.
Lemma symbols_complete l ss : syms_syntax l ss -> forall r fuel, peek_punct2 "=" ">" r = true -> List.length l < fuel ->
  p_symbols fuel (l ++ r) = DOk ss r.
Proof.
  intro H. induction H as [|l s l' ss Hs Hss IH]; intros r fuel Hr Hf; (destruct fuel as [|n]; [lia|]); cbn [p_symbols].
  - cbn [app]. rewrite Hr. reflexivity.
  - rewrite <- app_assoc. destruct (sym_head _ _ Hs) as (t & l0 & Hl & Ht).
    assert (Hp : peek_punct2 "=" ">" (l ++ l' ++ r) = false) by (rewrite Hl; apply sym_first_arrow; auto). rewrite Hp.
    rewrite (symbol_complete _ _ Hs) by (rewrite !app_length; lia).
    assert (Hre : p_repeats s (l' ++ r) = (s, l' ++ r)).
    { destruct Hss as [|l2 s2 l2' ss2 Hs2 Hss2].
      - destruct (peek_punct2_inv _ _ _ Hr) as (j & r' & ->). reflexivity.
      - destruct (sym_head _ _ Hs2) as (t2 & l3 & -> & Ht2). rewrite <- app_assoc. cbn [app]. apply sym_first_repeats; auto. }
    rewrite Hre. cbn [dbind]. rewrite IH; auto. rewrite app_length in Hf. pose proof (sym_ne _ _ Hs). destruct l; [contradiction|]. cbn in Hf. lia.
Qed.

Section DslRules.
Context {A : Type}.
Variable p_type : list ttree -> option (ty * list ttree).
Variable p_expr : list ttree -> option (A * list ttree).
Variable p_path : list ttree -> option (string * list ttree).
Hypothesis Hsyn : syn_parsers p_type p_expr p_path.
Notation is_type := (parses p_type).
Notation is_expr := (parses p_expr).
Notation is_path := (parses p_path).

Lemma expr_ne l e : is_expr l e -> l <> [].
Proof. intros H ->. destruct (sp_expr _ _ _ Hsyn _ _ _ H) as (l & Hl & Hn & _). destruct l; [contradiction|discriminate]. Qed.

(** ** Actions, productions *)
Notation is_expr_before r := (fun le e => parses p_expr le e /\ expr_before p_expr le e r).
Lemma action_mono (P Q : list ttree -> A -> Prop) l a : (forall le e, P le e -> Q le e) -> action_syntax P l a -> action_syntax Q l a.
Proof. intros H [arrow l' e Ha He Hq|arrow k l' e Ha He]; constructor; auto. Qed.
Lemma production_mono (P Q : list ttree -> A -> Prop) l p : (forall le e, P le e -> Q le e) -> production_syntax P l p -> production_syntax Q l p.
Proof. intros H [l1 ss l2 a Hss Ha]. constructor; auto. eapply action_mono; eauto. Qed.
Lemma production_whole r l p : production_syntax (is_expr_before r) l p -> production_syntax is_expr l p.
Proof. apply production_mono. tauto. Qed.
Lemma production_stops r l p : stops p_expr r -> production_syntax is_expr l p -> production_syntax (is_expr_before r) l p.
Proof. intro H. apply production_mono. intros le e He. split; auto. apply H; auto. Qed.

Lemma action_sound ts a r : p_action p_expr ts = DOk a r -> exists l, ts = l ++ r /\ action_syntax (is_expr_before r) l a.
Proof.
  unfold p_action. intro H. inv_do H. destruct (p_punct2_inv _ _ _ _ _ E) as (j & ->).
  destruct (peek_punct "?" rest) eqn:Eq.
  - inv_do H. destruct (p_punct_inv _ _ _ _ E0) as (k & ->). inv_do H. injection H as <- <-.
    pose proof (oracle_inv _ _ _ _ E1) as Hb. destruct (expr_inv _ _ _ Hsyn _ _ _ E1) as (l & -> & Hn & He).
    exists ([TPunct "=" true; TPunct ">" j] ++ TPunct "?" k :: l). split; [reflexivity|]. constructor; auto. exists j; auto.
  - inv_do H. injection H as <- <-. pose proof (oracle_inv _ _ _ _ E0) as Hb. destruct (expr_inv _ _ _ Hsyn _ _ _ E0) as (l & -> & Hn & He).
    exists ([TPunct "=" true; TPunct ">" j] ++ l). split; [reflexivity|]. constructor; auto; [exists j; auto|].
    destruct l; [contradiction|]. exact Eq.
Qed.
Lemma action_complete l a r : action_syntax (is_expr_before r) l a -> p_action p_expr (l ++ r) = DOk a r.
Proof.
  intros [arrow l' e (j & ->) [He Hb] Hq|arrow k l' e (j & ->) [He Hb]]; unfold p_action; cbn [app]; rewrite p_arrow_cons; cbn [dbind].
  - pose proof (expr_ne _ _ He) as Hne. destruct l' as [|t l']; [contradiction|].
    change (peek_punct "?" ((t :: l') ++ r)) with (peek_punct "?" (t :: l')). rewrite Hq.
    unfold oracle. rewrite Hb. reflexivity.
  - rewrite peek_punct_cons, p_punct_cons. cbn [dbind]. unfold oracle. rewrite Hb. reflexivity.
Qed.
Lemma action_arrow (P : list ttree -> A -> Prop) l a r : action_syntax P l a -> peek_punct2 "=" ">" (l ++ r) = true.
Proof. intros [arrow l' e (j & ->) He Hq|arrow k l' e (j & ->) He]; reflexivity. Qed.

Lemma production_sound ts p r : p_production p_expr ts = DOk p r -> exists l, ts = l ++ r /\ l <> [] /\ production_syntax (is_expr_before r) l p.
Proof.
  unfold p_production. intro H. inv_do H. destruct (symbols_sound _ _ _ _ E) as (l & -> & Hss & _).
  inv_do H. injection H as <- <-. destruct (action_sound _ _ _ E0) as (l' & -> & Ha).
  exists (l ++ l'). split; [rewrite <- app_assoc; auto|]. split; [|constructor; auto].
  pose proof (action_arrow _ _ _ [] Ha) as Hp. rewrite app_nil_r in Hp. destruct l'; [discriminate|]. destruct l; discriminate.
Qed.
Lemma production_complete l p r : production_syntax (is_expr_before r) l p -> p_production p_expr (l ++ r) = DOk p r.
Proof.
  intros [l1 ss l2 a Hss Ha]. unfold p_production. rewrite <- app_assoc.
  rewrite (symbols_complete _ _ Hss) by (try apply (action_arrow _ _ _ _ Ha); rewrite !app_length; lia). cbn [dbind].
  rewrite (action_complete _ _ _ Ha). reflexivity.
Qed.
Lemma production_ne l p : production_syntax is_expr l p -> l <> [].
Proof.
  intros [l1 ss l2 a Hss Ha]. pose proof (action_arrow _ _ _ [] Ha) as Hp. rewrite app_nil_r in Hp. destruct l2; [discriminate|]. destruct l1; discriminate.
Qed.
Lemma production_no_brace l p r : production_syntax is_expr l p -> peek_group DBrace (l ++ r) = false.
Proof.
  intros [l1 ss l2 a Hss Ha]. destruct Hss as [|l3 s l4 ss Hs Hss].
  - destruct (peek_punct2_inv _ _ _ (action_arrow _ _ _ r Ha)) as (j & r' & Hx). cbn [app]. rewrite Hx. reflexivity.
  - destruct (sym_head _ _ Hs) as (t & l5 & -> & Ht). cbn [app]. destruct t; try reflexivity. contradiction.
Qed.

Lemma productions_sound fuel : forall ts ps r, p_productions p_expr fuel ts = DOk ps r -> r = [] /\ productions_syntax is_expr (expr_before p_expr) ts ps.
Proof.
  induction fuel as [|n IH]; intros ts ps r H; [discriminate|]. cbn [p_productions] in H.
  destruct ts as [|t ts]; [injection H as <- <-; split; [auto|constructor]|].
  inv_do H. destruct (production_sound _ _ _ E) as (l & Hl & _ & Hp). inv_do H. injection H as <- <-.
  destruct (IH _ _ _ E0) as [-> Hps]. split; auto. rewrite Hl.
  destruct (p_punct "," rest) as [u rr| | |] eqn:Ec.
  - destruct (p_punct_inv _ _ _ _ Ec) as (j & ->). change (l ++ TPunct "," j :: rr) with (l ++ [TPunct "," j] ++ rr).
    apply prss_cons; auto; [eapply production_whole; eauto|exists j; auto].
  - apply prss_gap; auto.
  - exfalso; eapply (proj2 (p_punct_nofail _ _)); eauto.
  - exfalso; eapply (proj1 (p_punct_nofail _ _)); eauto.
Qed.
Lemma expr_comma j r : stops p_expr (TPunct "," j :: r).
Proof. apply (sp_expr_stops _ _ _ Hsyn). right; eauto. Qed.
Lemma expr_end : stops p_expr [].
Proof. apply (sp_expr_stops _ _ _ Hsyn). left; auto. Qed.
Lemma production_no_comma l p r : production_syntax is_expr l p -> p_punct "," (l ++ r) = DErr.
Proof.
  intros [l1 ss l2 a Hss Ha]. destruct Hss as [|l3 s l4 ss Hs Hss].
  - destruct (peek_punct2_inv _ _ _ (action_arrow _ _ _ r Ha)) as (j & r' & Hx). cbn [app]. rewrite Hx. reflexivity.
  - destruct (sym_head _ _ Hs) as (t & l5 & -> & Ht). cbn [app]. destruct t; try reflexivity. destruct Ht; subst; reflexivity.
Qed.
Lemma productions_complete ts ps : productions_syntax is_expr (expr_before p_expr) ts ps ->
  forall fuel, List.length ts < fuel -> p_productions p_expr fuel ts = DOk ps [].
Proof.
  intro H. induction H as [|l p Hp|l p c l' ps Hp (j & ->) Hps IH|l p l' ps Hp Hps IH]; intros fuel Hf; (destruct fuel as [|n]; [lia|]); cbn [p_productions].
  - reflexivity.
  - pose proof (production_ne _ _ Hp) as Hn. destruct l as [|t l]; [contradiction|].
    pose proof (production_complete _ _ [] (production_stops _ _ _ expr_end Hp)) as Hc. rewrite app_nil_r in Hc. rewrite Hc. cbn [dbind p_punct].
    destruct n as [|n]; [cbn in Hf; lia|]. reflexivity.
  - pose proof (production_ne _ _ Hp) as Hn.
    pose proof (production_complete _ _ _ (production_stops _ _ _ (expr_comma j l') Hp)) as Hcp.
    cbn [app] in *. destruct (l ++ TPunct "," j :: l') as [|t0 l0] eqn:E0; [destruct l; discriminate|]. rewrite Hcp. cbn [dbind].
    rewrite p_punct_cons. rewrite IH; [reflexivity|].
    assert (Hlen : List.length (t0 :: l0) < S n) by exact Hf. rewrite <- E0, !app_length in Hlen. destruct l; [contradiction|]. cbn in Hlen. lia.
  - pose proof (production_ne _ _ (production_whole _ _ _ Hp)) as Hn.
    assert (Hskip : match p_punct "," l' with DOk _ r' => r' | _ => l' end = l').
    { destruct Hps as [|l1 p1 Hp1|l1 p1 c1 l1' ps1 Hp1 _ _|l1 p1 l1' ps1 Hp1 _];
        [reflexivity| |rewrite (production_no_comma _ _ _ Hp1); reflexivity|rewrite (production_no_comma _ _ _ (production_whole _ _ _ Hp1)); reflexivity].
      rewrite <- (app_nil_r l1), (production_no_comma _ _ _ Hp1). reflexivity. }
    pose proof (production_complete _ _ _ Hp) as Hcp.
    destruct (l ++ l') as [|t0 l0] eqn:E0; [destruct l; discriminate|]. rewrite Hcp. cbn [dbind].
    rewrite Hskip. rewrite IH; [reflexivity|].
    assert (Hlen : List.length (t0 :: l0) < S n) by exact Hf. rewrite <- E0, !app_length in Hlen. destruct l; [contradiction|]. cbn in Hlen. lia.
Qed.

(** ** Rules *)
Lemma rule_sound ts n r : p_non_terminal p_type p_expr ts = DOk n r -> exists l, ts = l ++ r /\ rule_syntax is_type is_expr (expr_before p_expr) l n.
Proof.
  unfold p_non_terminal. intro H.
  assert (Hpub : exists pub b, ts = (if pub : bool then [TIdent "pub"] else []) ++ b /\
                (match p_kw "pub" ts with DOk _ b => (true, b) | _ => (false, ts) end) = (pub, b)).
  { destruct (p_kw "pub" ts) eqn:Ek; [apply p_kw_inv in Ek; exists true, rest; split; auto|exists false, ts; split; auto..]. }
  destruct Hpub as (pub & b & Hb & Hm). rewrite Hm in H. clear Hm. inv_do H. apply p_ident_inv in E. destruct E as [-> Hn].
  inv_do H. destruct (p_punct_inv _ _ _ _ E) as (j & ->). inv_do H. destruct (type_inv _ _ _ Hsyn _ _ _ E0) as (t & -> & _ & Ht).
  inv_do H. destruct (p_punct_inv _ _ _ _ E1) as (k & ->). inv_do H. injection H as <- <-. clear E E0 E1.
  destruct (peek_group DBrace rest0) eqn:Eb.
  - inv_do E2. apply p_group_inv in E. subst rest0. inv_do E2. destruct (productions_sound _ _ _ _ E) as [_ Hps].
    inv_do E2. destruct (p_punct_inv _ _ _ _ E0) as (m & ->). injection E2 as <- <-.
    exists ((if pub then [TIdent "pub"] else []) ++ TIdent x :: TPunct ":" j :: t ++ [TPunct "=" k; TGroup DBrace x4; TPunct ";" m]).
    split; [|econstructor; eauto]. rewrite Hb. destruct pub; cbn [app]; rewrite <- app_assoc; reflexivity.
  - inv_do E2. destruct (production_sound _ _ _ E) as (l & -> & _ & Hp%production_whole). inv_do E2. destruct (p_punct_inv _ _ _ _ E0) as (m & ->).
    injection E2 as <- <-.
    exists ((if pub then [TIdent "pub"] else []) ++ TIdent x :: TPunct ":" j :: t ++ TPunct "=" k :: l ++ [TPunct "," m]).
    split; [|econstructor; eauto; exists m; auto]. rewrite Hb. destruct pub; cbn [app]; rewrite <- ?app_assoc; cbn [app]; rewrite <- ?app_assoc; reflexivity.
Qed.
Lemma rule_complete l n r : rule_syntax is_type is_expr (expr_before p_expr) l n -> p_non_terminal p_type p_expr (l ++ r) = DOk n r.
Proof.
  intros H.
  assert (Hpub : forall (pub : bool) n ts, is_ident n = true ->
     (match p_kw "pub" ((if pub then [TIdent "pub"] else []) ++ TIdent n :: ts) with
      | DOk _ b => (true, b) | _ => (false, (if pub then [TIdent "pub"] else []) ++ TIdent n :: ts) end) = (pub, TIdent n :: ts)).
  { intros pub n0 ts Hn. destruct pub; [reflexivity|]. cbn [app p_kw]. rewrite is_ident_not_kw by (auto; cbv; tauto). reflexivity. }
  assert (Htf : forall k r0, type_follow (TPunct "=" k :: r0)) by (intros; do 3 eexists; split; [reflexivity|cbn; auto]).
  destruct H as [pub n j t ty k c ps m Hn Ht Hps|pub n j t ty k l p c Hn Ht Hp (m & ->)]; unfold p_non_terminal;
    rewrite <- app_assoc, <- app_comm_cons, Hpub by auto; rewrite p_ident_cons by auto; cbn [dbind app]; rewrite p_punct_cons; cbn [dbind];
    rewrite <- app_assoc; cbn [app]; unfold oracle; rewrite (sp_type_stops _ _ _ Hsyn _ (Htf _ _) _ _ Ht); cbn [dbind];
    rewrite p_punct_cons; cbn [dbind].
  - rewrite peek_group_cons, p_group_cons. cbn [dbind]. rewrite (productions_complete _ _ Hps) by lia. cbn [dbind].
    rewrite p_punct_cons. reflexivity.
  - rewrite <- app_assoc. rewrite (production_no_brace _ _ _ Hp).
    cbn [app]; rewrite (production_complete _ _ _ (production_stops _ _ _ (expr_comma _ _) Hp)). cbn [dbind app]. rewrite p_punct_cons. reflexivity.
Qed.

(** ** Token enum *)
Lemma conversion_sound fuel ts c r : p_conversion p_type p_path fuel ts = DOk c r -> exists l, ts = l ++ r /\ conversion_syntax is_type is_path l c.
Proof.
  unfold p_conversion. intro H. pose proof (p_litstr_inv ts) as Hl. destruct (p_litstr ts) as [[s|] r0]; [|discriminate].
  destruct Hl as (text & ->). inv_do H. destruct (p_punct2_inv _ _ _ _ _ E) as (j & ->). inv_do H. injection H as <- <-.
  destruct (pattern_sound _ _ _ Hsyn _ _ _ _ E0) as (l & -> & Hp).
  exists (TLit (Some s) text :: [TPunct "=" true; TPunct ">" j] ++ l). split; [reflexivity|]. constructor; auto. exists j; auto.
Qed.
Lemma conversion_complete fuel l c r : conversion_syntax is_type is_path l c -> toks_size l < fuel -> path_ends p_path r ->
  p_conversion p_type p_path fuel (l ++ r) = DOk c r.
Proof.
  intros [s text arrow l' p (j & ->) Hp] Hf Hr. unfold p_conversion. cbn [app]. rewrite p_litstr_string, p_arrow_cons. cbn [dbind].
  rewrite (pattern_complete _ _ _ Hsyn _ _ _ _ Hp); auto. rewrite toks_size_cons, toks_size_app in Hf. lia.
Qed.
Lemma conversion_ne l c : conversion_syntax is_type is_path l c -> l <> [].
Proof. intros [s text arrow l' p (j & ->) Hp]; discriminate. Qed.

Lemma lifetimes_sound fuel : forall ts ls r, p_lifetimes fuel ts = DOk ls r -> exists l, ts = l ++ r /\ lifetimes_syntax l ls /\ peek_punct ">" r = true.
Proof.
  induction fuel as [|n IH]; intros ts ls r H; [discriminate|]. cbn [p_lifetimes] in H.
  destruct (peek_punct ">" ts) eqn:E0; [injection H as <- <-; exists []; repeat split; auto; constructor|].
  inv_do H. apply p_lifetime_inv in E. subst ts. inv_do H. injection H as <- <-. destruct (IH _ _ _ E) as (l & Hl & Hls & Hp).
  destruct (p_punct "," rest) eqn:Ec.
  - destruct (p_punct_inv _ _ _ _ Ec) as (j & ->). exists (TLifetime x :: [TPunct "," j] ++ l).
    split; [cbn [app]; congruence|]. split; auto. constructor; auto. right; exists j; auto.
  - exists (TLifetime x :: [] ++ l). split; [cbn [app]; congruence|]. split; auto. constructor; auto. left; auto.
  - exfalso; eapply (proj2 (p_punct_nofail _ _)); eauto.
  - exfalso; eapply (proj1 (p_punct_nofail _ _)); eauto.
Qed.
Lemma lifetimes_complete l ls : lifetimes_syntax l ls -> forall j r fuel, List.length l < fuel ->
  p_lifetimes fuel (l ++ TPunct ">" j :: r) = DOk ls (TPunct ">" j :: r).
Proof.
  intro H. induction H as [|s c l ls Hc Hls IH]; intros j r fuel Hf; (destruct fuel as [|n]; [lia|]); cbn [p_lifetimes app].
  - rewrite peek_punct_cons. reflexivity.
  - cbn [peek_punct p_lifetime dbind]. rewrite <- app_assoc.
    assert (Hskip : match p_punct "," (c ++ l ++ TPunct ">" j :: r) with DOk _ r' => r' | _ => c ++ l ++ TPunct ">" j :: r end = l ++ TPunct ">" j :: r).
    { destruct Hc as [->|(k & ->)]; [|cbn [app]; rewrite p_punct_cons; reflexivity].
      cbn [app]. destruct Hls; reflexivity. }
    rewrite Hskip. rewrite IH; [reflexivity|]. cbn [List.length] in Hf. rewrite app_length in Hf. lia.
Qed.

Lemma enum_sound fuel ts te r : p_token_enum p_type p_path fuel ts = DOk te r -> exists l, ts = l ++ r /\ enum_syntax is_type is_path l te.
Proof.
  unfold p_token_enum. intro H. inv_do H. apply p_kw_inv in E. subst ts. inv_do H. apply p_ident_inv in E. destruct E as [-> Hn].
  inv_do H. inv_do H. apply p_group_inv in E0. subst rest. inv_do H. injection H as <- <-.
  destruct (terminated_sound _ _ (fun ts c r => conversion_sound fuel ts c r) _ _ _ _ E0) as [_ Hc].
  destruct (peek_punct "<" rest0) eqn:El.
  - inv_do E. destruct (p_punct_inv _ _ _ _ E1) as (j & ->). inv_do E. destruct (lifetimes_sound _ _ _ _ E2) as (l & -> & Hls & _).
    inv_do E. destruct (p_punct_inv _ _ _ _ E3) as (k & ->). injection E as <- ->.
    exists (TIdent "enum" :: TIdent x0 :: TPunct "<" j :: l ++ [TPunct ">" k; TGroup DBrace x2]).
    split; [cbn [app]; rewrite <- app_assoc; reflexivity|]. constructor; auto.
  - injection E as <- ->. exists [TIdent "enum"; TIdent x0; TGroup DBrace x2]. split; [reflexivity|]. constructor; auto.
Qed.
Lemma enum_complete fuel l te r : enum_syntax is_type is_path l te -> toks_size l < fuel -> p_token_enum p_type p_path fuel (l ++ r) = DOk te r.
Proof.
  assert (Hconv : forall c es f, commas (conversion_syntax is_type is_path) c es -> toks_size c < f ->
            p_terminated (p_conversion p_type p_path f) (S (List.length c)) c = DOk es []).
  { intros c es f Hc Hf. apply (terminated_complete _ _ (fun l x => conversion_ne l x) _ _ Hc); [|lia].
    intros l0 x0 r0 H0 Hs Hr. apply conversion_complete; auto; [lia|]. destruct Hr as [->|(j & r' & ->)]; [eapply pat_follow_nil; eauto|eapply pat_follow_punct; eauto; cbn; auto]. }
  assert (He : forall ts, p_kw "enum" (TIdent "enum" :: ts) = DOk tt ts) by reflexivity.
  intros [n c es Hn Hc|n j l0 ls k c es Hn Hl Hc] Hf; unfold p_token_enum; cbn [app]; rewrite He; cbn [dbind];
    rewrite p_ident_cons by auto; cbn [dbind].
  - cbn [peek_punct dbind]. rewrite p_group_cons. cbn [dbind]. rewrite (Hconv _ _ _ Hc); [reflexivity|]. rewrite !toks_size_cons, group_size in Hf. lia.
  - rewrite peek_punct_cons, p_punct_cons. cbn [dbind]. rewrite <- app_assoc. cbn [app].
    rewrite (lifetimes_complete _ _ Hl) by (rewrite app_length; lia). cbn [dbind]. rewrite p_punct_cons. cbn [dbind].
    rewrite p_group_cons. cbn [dbind]. rewrite (Hconv _ _ _ Hc); [reflexivity|].
    rewrite !toks_size_cons, toks_size_app, !toks_size_cons, group_size in Hf. lia.
Qed.

(** ** Items and the whole input *)
Lemma item_sound fuel ts i r : p_item p_type p_expr p_path fuel ts = DOk i r -> exists l, ts = l ++ r /\ item_syntax is_type is_expr is_path (expr_before p_expr) l i.
Proof.
  unfold p_item. destruct (peek_kw "type" ts) eqn:E1; [|destruct (peek_kw "enum" ts) eqn:E2]; intro H.
  - unfold p_typedef in H. inv_do H. apply p_kw_inv in E. subst ts. inv_do H. apply p_ident_inv in E. destruct E as [-> Hn].
    destruct (String.eqb x0 "State") eqn:Es; [|discriminate]. apply String.eqb_eq in Es. subst x0.
    inv_do H. destruct (p_punct_inv _ _ _ _ E) as (j & ->). inv_do H. destruct (type_inv _ _ _ Hsyn _ _ _ E0) as (t & -> & _ & Ht).
    inv_do H. destruct (p_punct_inv _ _ _ _ E2) as (k & ->). injection H as <- <-.
    exists (TIdent "type" :: TIdent "State" :: TPunct "=" j :: t ++ [TPunct ";" k]).
    split; [cbn [app]; rewrite <- app_assoc; reflexivity|]. constructor; auto.
  - inv_do H. destruct (enum_sound _ _ _ _ E) as (l & -> & He). injection H as <- <-. exists l; split; auto. constructor; auto.
  - inv_do H. destruct (rule_sound _ _ _ E) as (l & -> & He). injection H as <- <-. exists l; split; auto. constructor; auto.
Qed.
Lemma rule_head l n : rule_syntax is_type is_expr (expr_before p_expr) l n -> forall r, peek_kw "type" (l ++ r) = false /\ peek_kw "enum" (l ++ r) = false.
Proof.
  intros [pub n' j t ty k c ps m Hn Ht Hps|pub n' j t ty k l' p c Hn Ht Hp Hc] r; (destruct pub; cbn [app peek_kw];
   [split; reflexivity|rewrite !is_ident_not_kw by (auto; cbv; tauto); auto]).
Qed.
Lemma item_complete fuel l i r : item_syntax is_type is_expr is_path (expr_before p_expr) l i -> toks_size l < fuel -> p_item p_type p_expr p_path fuel (l ++ r) = DOk i r.
Proof.
  intros [j t ty k Ht|l' te He|l' n Hn] Hf; unfold p_item.
  - cbn [app]. change (peek_kw "type" (TIdent "type" :: TIdent "State" :: TPunct "=" j :: (t ++ [TPunct ";" k]) ++ r)) with true. cbn iota.
    unfold p_typedef. change (p_kw "type" (TIdent "type" :: TIdent "State" :: TPunct "=" j :: (t ++ [TPunct ";" k]) ++ r))
      with (@DOk unit tt (TIdent "State" :: TPunct "=" j :: (t ++ [TPunct ";" k]) ++ r)). cbn [dbind].
    rewrite p_ident_cons by reflexivity. cbn [dbind]. change (String.eqb "State" "State") with true. cbn iota. rewrite p_punct_cons. cbn [dbind].
    rewrite <- app_assoc. cbn [app]. unfold oracle.
    assert (Htf : type_follow (TPunct ";" k :: r)) by (do 3 eexists; split; [reflexivity|cbn; auto]).
    rewrite (sp_type_stops _ _ _ Hsyn _ Htf _ _ Ht). cbn [dbind]. rewrite p_punct_cons. reflexivity.
  - assert (Hk : peek_kw "type" (l' ++ r) = false /\ peek_kw "enum" (l' ++ r) = true) by (destruct He; split; reflexivity).
    destruct Hk as [H1 H2]. rewrite H1, H2. rewrite enum_complete with (te := te); auto.
  - destruct (rule_head _ _ Hn r) as [H1 H2]. rewrite H1, H2. rewrite (rule_complete _ _ _ Hn). reflexivity.
Qed.
Lemma item_ne gap l i : item_syntax is_type is_expr is_path gap l i -> l <> [].
Proof. intros [j t ty k Ht|l' te []|l' n [[|] ? ? ? ? ? ? ? ? ? ? ?|[|] ? ? ? ? ? ? ? ? ? ? ?]]; discriminate. Qed.

Lemma items_sound pf fuel : forall ts is r, p_items p_type p_expr p_path pf fuel ts = DOk is r ->
  r = [] /\ items_syntax is_type is_expr is_path (expr_before p_expr) ts is.
Proof.
  induction fuel as [|n IH]; intros ts is r H; [discriminate|]. cbn [p_items] in H.
  destruct ts as [|t ts]; [injection H as <- <-; split; [auto|constructor]|].
  inv_do H. destruct (item_sound _ _ _ _ E) as (l & -> & Hi). inv_do H. injection H as <- <-. destruct (IH _ _ _ E0) as [-> Hr].
  split; auto. constructor; auto.
Qed.
Lemma items_complete ts is : items_syntax is_type is_expr is_path (expr_before p_expr) ts is -> forall pf fuel, toks_size ts < pf -> List.length ts < fuel ->
  p_items p_type p_expr p_path pf fuel ts = DOk is [].
Proof.
  intro H. induction H as [|l i l' is Hi His IH]; intros pf fuel Hp Hf; (destruct fuel as [|n]; [lia|]); cbn [p_items].
  - reflexivity.
  - pose proof (item_ne _ _ _ Hi) as Hn. rewrite toks_size_app in Hp.
    assert (Hc : p_item p_type p_expr p_path pf (l ++ l') = DOk i l') by (apply item_complete; auto; lia).
    destruct (l ++ l') as [|t0 l0] eqn:E0; [destruct l; discriminate|]. rewrite Hc. cbn [dbind].
    rewrite IH; [reflexivity|lia|]. rewrite <- E0, app_length in Hf. destruct l; [contradiction|]. cbn in Hf. lia.
Qed.

Theorem parser_sound ts is r : p_parser p_type p_expr p_path ts = DOk is r -> r = [] /\ items_syntax is_type is_expr is_path (expr_before p_expr) ts is.
Proof. apply items_sound. Qed.
Theorem parser_complete ts is : items_syntax is_type is_expr is_path (expr_before p_expr) ts is -> p_parser p_type p_expr p_path ts = DOk is [].
Proof. intro H. apply items_complete; auto. Qed.
End DslRules.
