(** * DslProofs: the DSL parser recognises exactly the syntax of DslSpec.v *)
From Verif Require Export DslSpec.
Local Open Scope string_scope.
Local Open Scope list_scope.

Ltac inv_do H :=
  match type of H with
  | dbind ?e _ = _ => let E := fresh "E" in destruct e eqn:E; cbn [dbind] in H; try discriminate H
  end.

(** ** Small parsers *)
Lemma p_ident_inv ts s r : p_ident ts = DOk s r -> ts = TIdent s :: r /\ is_ident s = true.
Proof. destruct ts as [|[s'| | | |] ts]; cbn; try discriminate. destruct (is_ident s') eqn:E; try discriminate. intro H; injection H as -> ->. auto. Qed.
Lemma p_kw_inv k ts u r : p_kw k ts = DOk u r -> ts = TIdent k :: r.
Proof. destruct ts as [|[s'| | | |] ts]; cbn; try discriminate. destruct (String.eqb s' k) eqn:E; try discriminate. apply String.eqb_eq in E. intro H; injection H as _ ->. congruence. Qed.
Lemma peek_kw_inv k ts : peek_kw k ts = true -> exists r, ts = TIdent k :: r.
Proof. destruct ts as [|[s'| | | |] ts]; cbn; try discriminate. intro E. apply String.eqb_eq in E. subst. eauto. Qed.
Lemma p_punct_inv c ts u r : p_punct c ts = DOk u r -> exists j, ts = TPunct c j :: r.
Proof. destruct ts as [|[|c' j| | |] ts]; cbn; try discriminate. destruct (Ascii.eqb c' c) eqn:E; try discriminate. apply Ascii.eqb_eq in E. intro H; injection H as _ ->. subst; eauto. Qed.
Lemma p_punct_nofail c ts : p_punct c ts <> DFuel /\ p_punct c ts <> DPanic.
Proof. destruct ts as [|[|c' j| | |] ts]; cbn; try (split; discriminate). destruct (Ascii.eqb c' c); split; discriminate. Qed.
Lemma peek_punct_inv c ts : peek_punct c ts = true -> exists j r, ts = TPunct c j :: r.
Proof. destruct ts as [|[|c' j| | |] ts]; cbn; try discriminate. intro E. apply Ascii.eqb_eq in E. subst; eauto. Qed.
Lemma p_punct2_inv c d ts u r : p_punct2 c d ts = DOk u r -> exists j, ts = TPunct c true :: TPunct d j :: r.
Proof.
  destruct ts as [|[|c' [|]| | |] [|[|d' j| | |] ts]]; cbn; try discriminate.
  destruct (Ascii.eqb c' c) eqn:E; cbn; try discriminate. destruct (Ascii.eqb d' d) eqn:E2; try discriminate.
  apply Ascii.eqb_eq in E, E2. intro H; injection H as _ ->. subst; eauto.
Qed.
Lemma peek_punct2_inv c d ts : peek_punct2 c d ts = true -> exists j r, ts = TPunct c true :: TPunct d j :: r.
Proof.
  destruct ts as [|[|c' [|]| | |] [|[|d' j| | |] ts]]; cbn; try discriminate.
  intro H. apply andb_true_iff in H. destruct H as [E E2]. apply Ascii.eqb_eq in E, E2. subst; eauto.
Qed.
Lemma p_group_inv d ts c r : p_group d ts = DOk c r -> ts = TGroup d c :: r.
Proof.
  destruct ts as [|[| | | |d' c'] ts]; cbn; try discriminate. destruct d, d'; try discriminate; intro H; injection H as -> ->; auto.
Qed.
Lemma peek_group_inv d ts : peek_group d ts = true -> exists c r, ts = TGroup d c :: r.
Proof. destruct ts as [|[| | | |d' c'] ts]; cbn; try discriminate. destruct d, d'; try discriminate; eauto. Qed.
Lemma starts_digit_iff s : starts_digit s = true <-> numeral s.
Proof.
  split.
  - destruct s as [|c r]; [discriminate|]. intro H. constructor. cbn [starts_digit] in H.
    destruct c as [[|] [|] [|] [|] [|] [|] [|] [|]]; vm_compute in H; try discriminate; cbn; tauto.
  - intros [c r H]. cbn in H. repeat (destruct H as [<-|H]; [reflexivity|]). contradiction.
Qed.
Lemma p_lit_inv ts v r : p_lit ts = DOk v r -> exists l, ts = l ++ r /\ literal l (fst v) (snd v).
Proof.
  destruct ts as [|[s|c j|sv text|s|d c] ts]; cbn; try discriminate.
  - destruct (String.eqb s "true") eqn:E; cbn.
    + apply String.eqb_eq in E. subst. intro H; injection H as <- <-. exists [TIdent "true"]. split; [reflexivity|constructor].
    + destruct (String.eqb s "false") eqn:E2; try discriminate. apply String.eqb_eq in E2. subst.
      intro H; injection H as <- <-. exists [TIdent "false"]. split; [reflexivity|constructor].
  - destruct ts as [|[| |sv text| |] ts]; try discriminate.
    destruct (Ascii.eqb c "-") eqn:E; cbn [andb]; try discriminate. destruct (starts_digit text) eqn:E2; try discriminate.
    apply Ascii.eqb_eq in E. subst. intro H; injection H as <- <-. exists [TPunct "-" j; TLit sv text]. split; [reflexivity|constructor; apply starts_digit_iff; auto].
  - intro H; injection H as <- <-. exists [TLit sv text]. split; [reflexivity|constructor].
Qed.
Lemma p_lit_literal l sv text r : literal l sv text -> p_lit (l ++ r) = DOk (sv, text) r.
Proof. intro H; destruct H as [sv text| | |j sv text Hd]; cbn -[starts_digit]; auto. apply starts_digit_iff in Hd. rewrite Hd. reflexivity. Qed.
Lemma p_lit_nofail ts : p_lit ts <> DFuel /\ p_lit ts <> DPanic.
Proof.
  destruct ts as [|[s|c j|sv text|s|d c] ts]; cbn; try (split; discriminate).
  - destruct (_ || _); split; discriminate.
  - destruct ts as [|[| |sv text| |] ts]; try (split; discriminate). destruct (_ && _); split; discriminate.
Qed.
Lemma p_lifetime_inv ts s r : p_lifetime ts = DOk s r -> ts = TLifetime s :: r.
Proof. destruct ts as [|[| | | |] ts]; cbn; try discriminate. intro H; injection H as -> ->; auto. Qed.
Lemma p_ident_nofail ts : p_ident ts <> DFuel /\ p_ident ts <> DPanic.
Proof. destruct ts as [|[s'| | | |] ts]; cbn; try (split; discriminate). destruct (is_ident s'); split; discriminate. Qed.
Lemma p_kw_nofail k ts : p_kw k ts <> DFuel /\ p_kw k ts <> DPanic.
Proof. destruct ts as [|[s'| | | |] ts]; cbn; try (split; discriminate). destruct (String.eqb s' k); split; discriminate. Qed.
Lemma p_punct2_nofail c d ts : p_punct2 c d ts <> DFuel /\ p_punct2 c d ts <> DPanic.
Proof. destruct ts as [|[|c' [|]| | |] [|[|d' j| | |] ts]]; cbn; try (split; discriminate). destruct (_ && _); split; discriminate. Qed.
Lemma p_group_nofail d ts : p_group d ts <> DFuel /\ p_group d ts <> DPanic.
Proof. unfold p_group. destruct ts as [|[| | | |d' c'] ts]; try (split; discriminate). destruct (peek_group _ _); split; discriminate. Qed.
Lemma p_lifetime_nofail ts : p_lifetime ts <> DFuel /\ p_lifetime ts <> DPanic.
Proof. destruct ts as [|[| | | |] ts]; cbn; split; discriminate. Qed.
Lemma oracle_nofail {X} (p : list ttree -> option (X * list ttree)) ts : oracle p ts <> DFuel /\ oracle p ts <> DPanic.
Proof. unfold oracle. destruct (p ts) as [[x r]|]; split; discriminate. Qed.
Lemma oracle_inv {X} (p : list ttree -> option (X * list ttree)) ts x r : oracle p ts = DOk x r -> p ts = Some (x, r).
Proof. unfold oracle. destruct (p ts) as [[x' r']|]; [|discriminate]. intro H; injection H as -> ->; auto. Qed.

Lemma p_ident_cons s r : is_ident s = true -> p_ident (TIdent s :: r) = DOk s r.
Proof. intro H. cbn [p_ident]. rewrite H. reflexivity. Qed.
Lemma p_punct_cons c j r : p_punct c (TPunct c j :: r) = DOk tt r.
Proof. cbn [p_punct]. rewrite Ascii.eqb_refl. reflexivity. Qed.
Lemma peek_punct_cons c j r : peek_punct c (TPunct c j :: r) = true.
Proof. cbn [peek_punct]. apply Ascii.eqb_refl. Qed.
Lemma p_group_cons d c r : p_group d (TGroup d c :: r) = DOk c r.
Proof. destruct d; reflexivity. Qed.
Lemma peek_group_cons d c r : peek_group d (TGroup d c :: r) = true.
Proof. destruct d; reflexivity. Qed.

(** Size *)
Lemma toks_size_app a b : toks_size (a ++ b) = toks_size a + toks_size b.
Proof. unfold toks_size. rewrite map_app, list_sum_app. reflexivity. Qed.
Lemma toks_size_cons t l : toks_size (t :: l) = tt_size t + toks_size l.
Proof. reflexivity. Qed.
Lemma tt_size_pos t : 1 <= tt_size t.
Proof. destruct t; cbn; lia. Qed.
Lemma length_size l : List.length l <= toks_size l.
Proof. induction l as [|t l IH]; [auto|]. rewrite toks_size_cons. pose proof (tt_size_pos t). cbn [List.length]. lia. Qed.
Lemma group_size d c : tt_size (TGroup d c) = S (toks_size c).
Proof. reflexivity. Qed.

(** ** [parse_terminated] *)
Section Terminated.
Context {X : Type}.
Variable p : list ttree -> dres X.
Variable P : list ttree -> X -> Prop.

Lemma terminated_sound : (forall ts x r, p ts = DOk x r -> exists l, ts = l ++ r /\ P l x) ->
  forall fuel ts xs r, p_terminated p fuel ts = DOk xs r -> r = [] /\ commas P ts xs.
Proof.
  intros Hp. induction fuel as [|n IH]; intros ts xs r H; [discriminate|]. cbn [p_terminated] in H.
  destruct ts as [|t ts]; [injection H as <- <-; split; [auto|constructor]|].
  inv_do H. destruct (Hp _ _ _ E) as (l & Hl & HP). destruct rest as [|t' rest].
  - injection H as <- <-. rewrite app_nil_r in Hl. subst l. split; auto. constructor; auto.
  - inv_do H. destruct (p_punct_inv _ _ _ _ E0) as (j & Hj). inv_do H. injection H as <- <-.
    destruct (IH _ _ _ E1) as [-> Hc]. split; auto. rewrite Hl, Hj.
    change (TPunct "," j :: rest0) with ([TPunct "," j] ++ rest0). apply cm_cons; auto. exists j; auto.
Qed.

(** Elements are not empty and end at a comma or at the end. *)
Lemma terminated_complete : (forall l x, P l x -> l <> []) -> forall c xs, commas P c xs ->
  (forall l x r, P l x -> toks_size l <= toks_size c -> r = [] \/ (exists j r', r = TPunct "," j :: r') -> p (l ++ r) = DOk x r) ->
  forall fuel, List.length c < fuel -> p_terminated p fuel c = DOk xs [].
Proof.
  intros Hne c xs Hc. induction Hc as [|l x Hl|l x c l' xs Hl Hcm Hc IH]; intros Hp fuel Hf;
    (destruct fuel as [|n]; [lia|]); cbn [p_terminated].
  - reflexivity.
  - destruct l as [|t l]; [exfalso; eapply Hne; eauto|]. rewrite <- (app_nil_r (t :: l)).
    rewrite (Hp _ _ _ Hl (le_n _) (or_introl eq_refl)). reflexivity.
  - destruct Hcm as (j & ->). assert (Hn : l <> []) by eauto.
    destruct (l ++ [TPunct "," j] ++ l') as [|t0 l0] eqn:E0; [destruct l; discriminate|]. rewrite <- E0 in *.
    rewrite (Hp l x ([TPunct "," j] ++ l') Hl).
    + cbn [dbind app]. rewrite p_punct_cons. cbn [dbind]. rewrite IH; [reflexivity| |].
      * intros l1 x1 r1 H1 Hs Hr. apply Hp; auto. rewrite !toks_size_app. lia.
      * rewrite !app_length in Hf. cbn in Hf. lia.
    + rewrite !toks_size_app. lia.
    + right. cbn [app]. eauto.
Qed.

(** Fuel *)
Lemma terminated_fuel fuel : forall ts, List.length ts < fuel ->
  (forall l, toks_size l <= toks_size ts -> p l <> DFuel) ->
  (forall l x r, p l = DOk x r -> List.length r < List.length l /\ toks_size r <= toks_size l) ->
  p_terminated p fuel ts <> DFuel.
Proof.
  induction fuel as [|n IH]; intros ts Hl Hp Hc; [lia|]. cbn [p_terminated].
  destruct ts as [|t ts]; [discriminate|]. destruct (p (t :: ts)) as [x r| | |] eqn:E; cbn [dbind]; try discriminate.
  - destruct (Hc _ _ _ E) as [H1 H2]. destruct r as [|t' r]; [discriminate|].
    destruct (p_punct "," (t' :: r)) as [u r1| | |] eqn:E1; cbn [dbind]; try discriminate.
    + destruct (p_punct_inv _ _ _ _ E1) as (j & Hj). rewrite Hj in *.
      specialize (IH r1). destruct (p_terminated p n r1) eqn:E2; cbn [dbind]; try discriminate. intros _. apply IH; auto.
      * cbn [List.length] in *. lia.
      * intros l Hs. apply Hp. rewrite toks_size_cons in H2. lia.
    + exfalso. eapply (proj1 (p_punct_nofail _ _)); eauto.
  - exfalso. eapply Hp; eauto.
Qed.
End Terminated.

Section DslProofs.
Context {A : Type}.
Variable p_type : list ttree -> option (ty * list ttree).
Variable p_expr : list ttree -> option (A * list ttree).
Variable p_path : list ttree -> option (string * list ttree).
Hypothesis Hsyn : syn_parsers p_type p_expr p_path.
Notation is_type := (parses p_type).
Notation is_expr := (parses p_expr).
Notation is_path := (parses p_path).
Notation pat_syntax := (pat_syntax is_type is_path).
Notation fields_syntax := (fields_syntax is_type is_path).
Notation p_pattern := (p_pattern p_type p_path).

Lemma type_inv ts t r : oracle p_type ts = DOk t r -> exists l, ts = l ++ r /\ l <> [] /\ is_type l t.
Proof. intro H. apply oracle_inv in H. eapply sp_type; eauto. Qed.
Lemma path_inv ts t r : oracle p_path ts = DOk t r -> exists l, ts = l ++ r /\ l <> [] /\ is_path l t.
Proof. intro H. apply oracle_inv in H. eapply sp_path; eauto. Qed.
Lemma expr_inv ts t r : oracle p_expr ts = DOk t r -> exists l, ts = l ++ r /\ l <> [] /\ is_expr l t.
Proof. intro H. apply oracle_inv in H. eapply sp_expr; eauto. Qed.

(** ** Patterns: soundness *)
Lemma fields_sound pat : (forall ts p r, pat ts = DOk p r -> exists l, ts = l ++ r /\ pat_syntax l p) ->
  forall fuel ts fs r, p_fields pat fuel ts = DOk fs r -> r = [] /\ fields_syntax ts (fst fs) (snd fs).
Proof.
  intro Hpat. induction fuel as [|n IH]; intros ts fs r H; [discriminate|]. cbn [p_fields] in H.
  destruct ts as [|t ts]; [injection H as <- <-; split; [auto|constructor]|].
  destruct (peek_punct2 "." "." (t :: ts)) eqn:Ed.
  - inv_do H. destruct (p_punct2_inv _ _ _ _ _ E) as (j & Hj). destruct rest; [|discriminate].
    injection H as <- <-. split; auto. rewrite Hj. constructor. exists j; auto.
  - inv_do H. unfold p_field in E. inv_do E. destruct (p_ident_inv _ _ _ E0) as [H1 H2].
    inv_do E. destruct (p_punct_inv _ _ _ _ E1) as (j & Hj). inv_do E. injection E as <- <-.
    destruct (Hpat _ _ _ E2) as (l & Hl & Hp).
    destruct (peek_punct "," rest2) eqn:Ec.
    + inv_do H. destruct (p_punct_inv _ _ _ _ E) as (k & Hk). inv_do H. destruct (IH _ _ _ E3) as [-> Hf].
      injection H as <- <-. split; auto. rewrite H1, Hj, Hl, Hk. cbn [fst snd].
      change (l ++ TPunct "," k :: rest) with (l ++ [TPunct "," k] ++ rest). apply fs_cons; auto. exists k; auto.
    + destruct rest2 as [|t2 rest2].
      * injection H as <- <-. split; auto. rewrite H1, Hj, Hl, app_nil_r. constructor; auto.
      * destruct (peek_punct2 "." "." (t2 :: rest2)) eqn:Ed2; [|discriminate]. inv_do H.
        destruct (IH _ _ _ E) as [-> Hf]. injection H as <- <-. split; auto.
        destruct (peek_punct2_inv _ _ _ Ed2) as (k & r' & Hk). rewrite Hk in *.
        (* the recursive call starts with [..], so it read exactly that *)
        destruct n as [|n]; [discriminate E|]. cbn in E. destruct r'; [|discriminate]. injection E as <-.
        rewrite H1, Hj, Hl. cbn [fst snd]. apply fs_last_dots; auto. exists k; auto.
Qed.

Lemma pattern_sound fuel : forall ts p r, p_pattern fuel ts = DOk p r -> exists l, ts = l ++ r /\ pat_syntax l p.
Proof.
  induction fuel as [|n IH]; intros ts p r H; [discriminate|]. cbn [Dsl.p_pattern] in H.
  destruct (peek_punct2 "." "." ts) eqn:E1.
  { inv_do H. destruct (p_punct2_inv _ _ _ _ _ E) as (j & Hj). injection H as <- <-.
    exists [TPunct "." true; TPunct "." j]. split; auto. constructor. exists j; auto. }
  destruct (peek_lit ts) eqn:E2.
  { inv_do H. destruct (p_lit_inv _ _ _ E) as (l & Hl & Hlit). injection H as <- <-.
    exists l. split; auto. econstructor; eauto. }
  destruct (peek_kw "_" ts) eqn:E3.
  { inv_do H. apply p_kw_inv in E. injection H as <- <-. exists [TIdent "_"]. split; auto. constructor. }
  destruct (peek_group DParen ts) eqn:E4.
  { inv_do H. apply p_group_inv in E. inv_do H. injection H as <- <-.
    destruct (terminated_sound _ pat_syntax IH _ _ _ _ E0) as [_ Hc]. exists [TGroup DParen x]. split; auto. constructor; auto. }
  destruct (peek_ident ts) eqn:E5.
  { inv_do H. destruct (path_inv _ _ _ E) as (l & Hl & Hne & Hp).
    assert (Hst : path_start l).
    { destruct l as [|[s| | | |] l]; try contradiction; subst ts; cbn in E5; try discriminate. constructor; auto. }
    destruct (peek_group DParen rest) eqn:E6; [|destruct (peek_group DBrace rest) eqn:E7].
    - inv_do H. apply p_group_inv in E0. inv_do H. injection H as <- <-.
      destruct (terminated_sound _ pat_syntax IH _ _ _ _ E7) as [_ Hc].
      exists (l ++ [TGroup DParen x0]). split; [rewrite <- app_assoc; cbn; congruence|]. constructor; auto.
    - inv_do H. apply p_group_inv in E0. inv_do H. injection H as <- <-.
      destruct (fields_sound _ IH _ _ _ _ E8) as [_ Hc].
      exists (l ++ [TGroup DBrace x0]). split; [rewrite <- app_assoc; cbn; congruence|]. constructor; auto.
    - injection H as <- <-. exists l. split; auto. constructor; auto. }
  destruct (peek_punct "<" ts) eqn:E6; [|discriminate].
  inv_do H. destruct (p_punct_inv _ _ _ _ E) as (j & Hj). inv_do H. destruct (type_inv _ _ _ E0) as (l & Hl & _ & Ht).
  inv_do H. destruct (p_punct_inv _ _ _ _ E7) as (k & Hk). injection H as <- <-.
  exists (TPunct "<" j :: l ++ [TPunct ">" k]). split; [|constructor; auto].
  rewrite Hj, Hl, Hk. cbn. rewrite <- app_assoc. reflexivity.
Qed.

Lemma literal_ne l sv t : literal l sv t -> l <> [].
Proof. intro H; destruct H; discriminate. Qed.
Lemma pat_ne l p : pat_syntax l p -> l <> [].
Proof.
  intro H; destruct H as [l (j & ->)|l sv t Hl| | |l p Hs Hp|l p c ps Hs Hp Hc|l p c fs d Hs Hp Hc|]; try discriminate.
  - eapply literal_ne; eauto.
  - destruct Hs; discriminate.
  - destruct Hs; discriminate.
  - destruct Hs; discriminate.
Qed.

Lemma pattern_consumes fuel ts p r : p_pattern fuel ts = DOk p r -> List.length r < List.length ts /\ toks_size r <= toks_size ts.
Proof.
  intro H. destruct (pattern_sound _ _ _ _ H) as (l & -> & Hp). pose proof (pat_ne _ _ Hp) as Hn.
  rewrite app_length, toks_size_app. destruct l; [contradiction|]. cbn [List.length]. lia.
Qed.

(** ** Patterns: completeness *)
Definition path_ends (r : list ttree) : Prop := stops p_path r /\ forall d c r', r = TGroup d c :: r' -> d = DBracket.
Notation pat_follow := path_ends.
Lemma pat_follow_punct c j r : In c [","; "."]%char -> pat_follow (TPunct c j :: r).
Proof. intro H. split; [apply (sp_path_stops _ _ _ Hsyn); right; left; eauto 6|discriminate]. Qed.
Lemma pat_follow_nil : pat_follow [].
Proof. split; [apply (sp_path_stops _ _ _ Hsyn); left; auto|discriminate]. Qed.
Lemma path_before_group l q d r : d <> DBracket -> path_before p_path l q r -> peek_group d r = false.
Proof.
  intros Hd [_ H]. destruct (peek_group d r) eqn:E; auto. destruct (peek_group_inv _ _ E) as (c & r' & ->). destruct Hd. eapply H; eauto.
Qed.

(** How a pattern starts decides the branch. *)
Lemma path_start_peeks l r : path_start l ->
  peek_punct2 "." "." (l ++ r) = false /\ peek_lit (l ++ r) = false /\ peek_kw "_" (l ++ r) = false /\
  peek_group DParen (l ++ r) = false /\ peek_ident (l ++ r) = true.
Proof.
  intros [s l' Hs]. cbn [app]. cbn [peek_punct2 peek_kw peek_group peek_ident]. unfold peek_lit. cbn [p_lit].
  destruct (String.eqb s "true") eqn:E1.
  { apply String.eqb_eq in E1. subst. discriminate. }
  destruct (String.eqb s "false") eqn:E2.
  { apply String.eqb_eq in E2. subst. discriminate. }
  destruct (String.eqb s "_") eqn:E3.
  { apply String.eqb_eq in E3. subst. discriminate. }
  repeat split; auto.
Qed.

Lemma peek_lt_dots j r : peek_punct2 "." "." (TPunct "<" j :: r) = false.
Proof. destruct j; [|reflexivity]. destruct r as [|[| | | |] r]; reflexivity. Qed.
Lemma peek_lt_lit j r : peek_lit (TPunct "<" j :: r) = false.
Proof. destruct r as [|[| | | |] r]; reflexivity. Qed.

Lemma fields_complete pat : forall c fs dots, fields_syntax c fs dots ->
  (forall l p r, pat_syntax l p -> toks_size l <= toks_size c -> pat_follow r -> pat (l ++ r) = DOk p r) ->
  forall fuel, List.length c < fuel -> p_fields pat fuel c = DOk (fs, dots) [].
Proof.
  intros c fs dots H. induction H as [|l (j & ->)|f j l p Hf Hp|f j l p d Hf Hp (k & ->)|f j l p cm l' fs dots Hf Hp (k & ->) Hfs IH];
    intros Hpat fuel Hl; (destruct fuel as [|n]; [lia|]).
  - reflexivity.
  - reflexivity.
  - cbn [p_fields peek_punct2]. unfold p_field. rewrite p_ident_cons by auto. cbn [dbind]. rewrite p_punct_cons. cbn [dbind].
    rewrite <- (app_nil_r l). rewrite (Hpat l p []); [reflexivity|exact Hp| |apply pat_follow_nil]. rewrite ?app_nil_r, !toks_size_cons; lia.
  - cbn [p_fields peek_punct2]. unfold p_field. rewrite p_ident_cons by auto. cbn [dbind]. rewrite p_punct_cons. cbn [dbind].
    rewrite (Hpat l p); auto.
    + destruct n as [|n]; [cbn in Hl; lia|]. reflexivity.
    + rewrite !toks_size_cons, toks_size_app. lia.
    + apply pat_follow_punct. cbn; auto.
  - cbn [p_fields peek_punct2]. unfold p_field. rewrite p_ident_cons by auto. cbn [dbind]. rewrite p_punct_cons. cbn [dbind].
    rewrite (Hpat l p); auto.
    + cbn [dbind app]. rewrite peek_punct_cons, p_punct_cons. cbn [dbind]. rewrite IH; [reflexivity| |].
      * intros l0 p0 r0 H1 H2 H3. apply Hpat; auto. rewrite !toks_size_cons, !toks_size_app. lia.
      * cbn [List.length] in Hl. rewrite !app_length in Hl. cbn in Hl. lia.
    + rewrite !toks_size_cons, !toks_size_app. lia.
    + apply pat_follow_punct. cbn; auto.
Qed.

Lemma pat_follow_before l p r : pat_syntax l p -> pat_follow r -> forall q, p = PatPath q -> path_before p_path l q r.
Proof. intros H [H1 H2] q ->. inversion H; subst. split; auto. Qed.
Lemma pattern_complete_before fuel : forall l p r, pat_syntax l p -> toks_size l < fuel ->
  (forall q, p = PatPath q -> path_before p_path l q r) -> p_pattern fuel (l ++ r) = DOk p r.
Proof.
  induction fuel as [|n IHb]; intros l p r H Hs Hr; [lia|].
  assert (IH : forall l p r, pat_syntax l p -> toks_size l < n -> pat_follow r -> p_pattern n (l ++ r) = DOk p r).
  { intros l0 p0 r0 H1 H2 H3. apply IHb; auto. eapply pat_follow_before; eauto. }
  assert (Hsub : forall c, toks_size c < n -> forall l p r, pat_syntax l p -> toks_size l <= toks_size c ->
            r = [] \/ (exists j r', r = TPunct "," j :: r') -> p_pattern n (l ++ r) = DOk p r).
  { intros c Hc l0 p0 r0 H0 H1 H2. apply IH; auto; [lia|]. destruct H2 as [->|(j & r' & ->)]; [apply pat_follow_nil|apply pat_follow_punct; cbn; auto]. }
  destruct H as [l (j & ->)|l sv t Hl| |c ps Hc|l p Hst Hp|l p c ps Hst Hp Hc|l p c fs d Hst Hp Hc|j l t k Ht].
  - reflexivity.
  - cbn [Dsl.p_pattern].
    assert (Hd : peek_punct2 "." "." (l ++ r) = false).
    { destruct Hl as [sv t| | |j sv t Hd]; try reflexivity. destruct j; reflexivity. }
    rewrite Hd. unfold peek_lit. rewrite (p_lit_literal _ _ _ _ Hl). reflexivity.
  - reflexivity.
  - cbn [app Dsl.p_pattern peek_punct2 peek_kw]. change (peek_lit (TGroup DParen c :: r)) with false. cbn [peek_group].
    rewrite p_group_cons. cbn [dbind]. cbn [toks_size map list_sum tt_size] in Hs. fold toks_size in Hs. change (list_sum (map tt_size c)) with (toks_size c) in Hs.
    rewrite (terminated_complete _ pat_syntax (fun l x => pat_ne l x) _ _ Hc); [reflexivity| |lia].
    apply Hsub. cbn in Hs. unfold toks_size in *. lia.
  - destruct (path_start_peeks l r Hst) as (H1 & H2 & H3 & H4 & H5). cbn [Dsl.p_pattern]. rewrite H1, H2, H3, H4, H5.
    unfold oracle. specialize (Hr _ eq_refl). rewrite (proj1 Hr). cbn [dbind].
    rewrite (path_before_group _ _ DParen _ ltac:(discriminate) Hr), (path_before_group _ _ DBrace _ ltac:(discriminate) Hr). reflexivity.
  - rewrite <- app_assoc. destruct (path_start_peeks l ([TGroup DParen c] ++ r) Hst) as (H1 & H2 & H3 & H4 & H5).
    cbn [Dsl.p_pattern]. rewrite H1, H2, H3, H4, H5. unfold oracle.
    assert (Hfo : path_follow ([TGroup DParen c] ++ r)) by (right; right; do 3 eexists; split; [reflexivity|discriminate]).
    rewrite (sp_path_stops _ _ _ Hsyn _ Hfo _ _ Hp). cbn [dbind app]. rewrite peek_group_cons, p_group_cons. cbn [dbind].
    rewrite toks_size_app in Hs. cbn in Hs. fold (toks_size c) in Hs.
    rewrite (terminated_complete _ pat_syntax (fun l x => pat_ne l x) _ _ Hc); [reflexivity| |lia].
    apply Hsub. unfold toks_size in *. lia.
  - rewrite <- app_assoc. destruct (path_start_peeks l ([TGroup DBrace c] ++ r) Hst) as (H1 & H2 & H3 & H4 & H5).
    cbn [Dsl.p_pattern]. rewrite H1, H2, H3, H4, H5. unfold oracle.
    assert (Hfo : path_follow ([TGroup DBrace c] ++ r)) by (right; right; do 3 eexists; split; [reflexivity|discriminate]).
    rewrite (sp_path_stops _ _ _ Hsyn _ Hfo _ _ Hp). cbn [dbind app].
    change (peek_group DParen (TGroup DBrace c :: r)) with false. cbn iota. rewrite peek_group_cons, p_group_cons. cbn [dbind].
    rewrite toks_size_app in Hs. cbn in Hs.
    rewrite (fields_complete _ _ _ _ Hc); [reflexivity| |lia].
    intros l0 p0 r0 H0 Hs0 Hr0. apply IH; auto. unfold toks_size in *. lia.
  - rewrite <- app_comm_cons, <- app_assoc. cbn [Dsl.p_pattern].
    rewrite peek_lt_dots, peek_lt_lit. cbn [peek_kw peek_group peek_ident]. rewrite peek_punct_cons, p_punct_cons.
    cbn [dbind app]. unfold oracle.
    assert (Hfo : type_follow (TPunct ">" k :: r)) by (do 3 eexists; split; [reflexivity|cbn; auto]).
    rewrite (sp_type_stops _ _ _ Hsyn _ Hfo _ _ Ht). cbn [dbind app]. rewrite p_punct_cons. reflexivity.
Qed.
Lemma pattern_complete fuel l p r : pat_syntax l p -> toks_size l < fuel -> pat_follow r -> p_pattern fuel (l ++ r) = DOk p r.
Proof. intros H Hs Hr. apply pattern_complete_before; auto. eapply pat_follow_before; eauto. Qed.
End DslProofs.
