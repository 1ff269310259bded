(** * DslWritable: which ASTs are the parse of some input *)
From Verif Require Export DslPanics.
Local Open Scope string_scope.
Local Open Scope list_scope.

Section DslWritable.
Context {A : Type}.
Variable is_type : list ttree -> ty -> Prop.
Variable is_expr : list ttree -> A -> Prop.
Variable is_path : list ttree -> string -> Prop.
Notation pat_syntax := (pat_syntax is_type is_path).
Notation fields_syntax := (fields_syntax is_type is_path).
Notation pat_writable := (pat_writable is_type is_path).

Lemma commas_exist {X} (P : list ttree -> X -> Prop) xs : Forall (fun x => exists l, P l x) xs -> exists l, commas P l xs.
Proof.
  induction 1 as [|x xs (l & Hl) _ (l' & IH)]; [exists []; constructor|].
  exists (l ++ [pt "," false] ++ l'). constructor; auto. exists false; auto.
Qed.
Lemma commas_forall {X} (P : list ttree -> X -> Prop) l xs : commas P l xs -> Forall (fun x => exists l', P l' x) xs.
Proof. induction 1; constructor; eauto. Qed.

Lemma pat_written : forall p, pat_writable p -> exists l, pat_syntax l p.
Proof.
  fix IH 2. intros p [ |text| |ps Hps|l q Hs Hp|l q ps Hs Hp Hps|l q fs dots Hs Hp Hfs|l t Ht].
  - exists [pt "." true; pt "." false]. constructor. exists false; auto.
  - exists [TLit None text]. eapply ps_lit. constructor.
  - exists [TIdent "_"]. constructor.
  - assert (H : exists c, commas pat_syntax c ps).
    { apply commas_exist. induction Hps as [|x xs Hx Hxs IHx]; constructor; auto. }
    destruct H as (c & Hc). exists [TGroup DParen c]. constructor; auto.
  - exists l. constructor; auto.
  - assert (H : exists c, commas pat_syntax c ps).
    { apply commas_exist. induction Hps as [|x xs Hx Hxs IHx]; constructor; auto. }
    destruct H as (c & Hc). exists (l ++ [TGroup DParen c]). constructor; auto.
  - assert (H : exists c, fields_syntax c fs dots).
    { induction Hfs as [|[f x] xs [Hi Hx] Hxs [c Hc]].
      - destruct dots; [exists [pt "." true; pt "." false]; constructor; exists false; auto|exists []; constructor].
      - destruct (IH _ Hx) as (l0 & Hl0). exists (TIdent f :: pt ":" false :: l0 ++ [pt "," false] ++ c). constructor; auto. exists false; auto. }
    destruct H as (c & Hc). exists (l ++ [TGroup DBrace c]). constructor; auto.
  - exists (pt "<" false :: l ++ [pt ">" false]). constructor; auto.
Qed.

Scheme pat_syntax_mind := Induction for DslSpec.pat_syntax Sort Prop
  with fields_syntax_mind := Induction for DslSpec.fields_syntax Sort Prop.

Lemma pat_syntax_writable : forall l p, pat_syntax l p -> pat_writable p.
Proof.
  fix IH 3. intros l p [l0 Hd|l0 sv text Hl| |c ps Hc|l0 q Hs Hp|l0 q c ps Hs Hp Hc|l0 q c fs dots Hs Hp Hc|j l0 t k Ht]; try (econstructor; eauto; fail).
  - constructor. induction Hc as [|l1 x Hx|l1 x cm l2 xs Hx Hcm Hxs IHx]; constructor; eauto.
  - eapply pw_enum; eauto. clear - IH Hc. induction Hc as [|l1 x Hx|l1 x cm l2 xs Hx Hcm Hxs IHx]; constructor; eauto.
  - eapply pw_struct; eauto. clear - IH Hc. revert c fs dots Hc. fix IHf 4.
    intros c fs dots [ |d Hd|f j l p Hf Hp|f j l p d Hf Hp Hd|f j l p cm l' fs' dots' Hf Hp Hcm Hfs].
    + constructor.
    + constructor.
    + constructor; [split; [exact Hf|exact (IH _ _ Hp)]|constructor].
    + constructor; [split; [exact Hf|exact (IH _ _ Hp)]|constructor].
    + constructor; [split; [exact Hf|exact (IH _ _ Hp)]|exact (IHf _ _ _ Hfs)].
Qed.

Lemma sym_written s : sym_writable s -> exists l, sym_syntax l s.
Proof.
  induction s as [s|s|op s IH|n s IH]; cbn [sym_writable]; intro H.
  - exists [TLit (Some s) s]. constructor.
  - exists ([] ++ [TIdent s]). constructor; auto. constructor.
  - destruct (IH H) as (l & Hl). exists (l ++ [pt (repeat_char op) false]). constructor; auto.
  - destruct H as [Hx Hs]. destruct (IH Hs) as (l & Hl). destruct n as [m x]. cbn in Hx.
    eexists. eapply (sy_named [] false false false m x l s); auto. constructor.
Qed.
Lemma sym_syntax_writable l s : sym_syntax l s -> sym_writable s.
Proof. induction 1; cbn; auto. Qed.
Lemma syms_written ss : Forall sym_writable ss -> exists l, syms_syntax l ss.
Proof.
  induction 1 as [|s ss Hs _ (l' & IH)]; [exists []; constructor|]. destruct (sym_written _ Hs) as (l & Hl). exists (l ++ l'). constructor; auto.
Qed.
Lemma syms_syntax_writable l ss : syms_syntax l ss -> Forall sym_writable ss.
Proof. induction 1; constructor; auto. eapply sym_syntax_writable; eauto. Qed.

Lemma production_written p : production_writable is_expr p -> exists l, production_syntax is_expr l p.
Proof.
  destruct p as [ss a]. intros [Hss Ha]. cbn in *. destruct (syms_written _ Hss) as (l & Hl).
  assert (H : exists l', action_syntax is_expr l' a).
  { destruct a as [e|e]; cbn in Ha.
    - destruct Ha as (le & He & Hq). exists ([pt "=" true; pt ">" false] ++ le). constructor; auto; [exists false; auto|].
      destruct (peek_punct "?" le) eqn:E; auto. destruct (peek_punct_inv _ _ E) as (j & r & Hr). exfalso. eapply Hq; eauto.
    - destruct Ha as (le & He). exists ([pt "=" true; pt ">" false] ++ pt "?" false :: le). constructor; auto. exists false; auto. }
  destruct H as (l' & Hl'). exists (l ++ l'). constructor; auto.
Qed.
Lemma production_syntax_writable l p : production_syntax is_expr l p -> production_writable is_expr p.
Proof.
  intros [l1 ss l2 a Hss Ha]. split; cbn; [eapply syms_syntax_writable; eauto|].
  destruct Ha as [arrow le e _ He Hq|arrow j le e _ He]; cbn; [|eauto]. exists le. split; auto. intros j l' ->. rewrite peek_punct_cons in Hq. discriminate.
Qed.

Lemma item_written gap i : item_writable is_type is_expr is_path i -> exists l, item_syntax is_type is_expr is_path gap l i.
Proof.
  destruct i as [t|te|n]; cbn.
  - intros (l & Hl). eexists. eapply (is_state is_type is_expr is_path gap false l t false). auto.
  - destruct te as [n ls cs]. cbn. intros [Hn Hcs].
    assert (Hc : exists c, commas (conversion_syntax is_type is_path) c cs).
    { apply commas_exist. eapply Forall_impl; [|exact Hcs]. intros [s p] Hp. cbn in Hp. destruct (pat_written _ Hp) as (l & Hl).
      exists (TLit (Some s) s :: [pt "=" true; pt ">" false] ++ l). constructor; auto. exists false; auto. }
    destruct Hc as (c & Hc).
    assert (Hl : exists l, lifetimes_syntax l ls).
    { clear. induction ls as [|s ls (l & IH)]; [exists []; constructor|]. exists (TLifetime s :: [] ++ l). constructor; auto. left; auto. }
    destruct Hl as (l & Hl). eexists. apply is_enum. eapply (es_lifetimes is_type is_path n false l ls false c cs); auto.
  - destruct n as [pub n t ps]. cbn. intros (Hn & (lt & Ht) & Hps).
    assert (Hp : exists c, productions_syntax is_expr gap c ps).
    { clear - Hps. induction Hps as [|p ps Hp _ (l' & IH)]; [exists []; constructor|]. destruct (production_written _ Hp) as (l & Hl).
      exists (l ++ [pt "," false] ++ l'). apply prss_cons; auto. exists false; auto. }
    destruct Hp as (c & Hc). eexists. apply is_rule. eapply (rs_braces is_type is_expr gap pub n false lt t false c ps false); auto.
Qed.
Lemma item_syntax_writable gap l i : item_syntax is_type is_expr is_path gap l i -> item_writable is_type is_expr is_path i.
Proof.
  assert (Hcv : forall c es, commas (conversion_syntax is_type is_path) c es -> Forall (fun c => pat_writable (cv_to c)) es).
  { intros c es H. apply commas_forall in H. eapply Forall_impl; [|exact H]. intros cv (l' & [s text arrow l0 p Ha Hp]). cbn. eapply pat_syntax_writable; eauto. }
  assert (Hpr : forall c ps, productions_syntax is_expr gap c ps -> Forall (production_writable is_expr) ps).
  { intros c ps H. induction H as [|l1 p1 Hp1|l1 p1 c1 l1' ps1 Hp1|l1 p1 l1' ps1 Hp1]; constructor; auto; try (eapply production_syntax_writable; eauto; fail).
    apply (production_syntax_writable l1 p1). destruct Hp1 as [x ss y a Hss Ha]. constructor; auto. destruct Ha as [arrow le e Har [He _] Hq|arrow j le e Har [He _]]; constructor; auto. }
  intros [j t ty k Ht|l' te He|l' n Hn]; cbn.
  - eauto.
  - destruct He as [n c es Hn Hc|n j l0 ls k c es Hn Hl Hc]; cbn; split; eauto.
  - destruct Hn as [pub n j t ty k c ps m Hi Ht Hps|pub n j t ty k l0 p c Hi Ht Hp Hc]; cbn; repeat split; eauto.
    constructor; [|constructor]. eapply production_syntax_writable; eauto.
Qed.
Lemma items_written gap is : Forall (item_writable is_type is_expr is_path) is -> exists l, items_syntax is_type is_expr is_path gap l is.
Proof.
  induction 1 as [|i is Hi _ (l' & IH)]; [exists []; constructor|]. destruct (item_written gap _ Hi) as (l & Hl). exists (l ++ l'). constructor; auto.
Qed.
Lemma items_syntax_writable gap l is : items_syntax is_type is_expr is_path gap l is -> Forall (item_writable is_type is_expr is_path) is.
Proof. induction 1; constructor; auto. eapply item_syntax_writable; eauto. Qed.

(** Where commas may be missing matters monotonically. *)
Lemma items_gap (gap gap' : list ttree -> A -> list ttree -> Prop) l is : (forall le e r, gap le e r -> gap' le e r) ->
  items_syntax is_type is_expr is_path gap l is -> items_syntax is_type is_expr is_path gap' l is.
Proof.
  intros Hg H. assert (Hpr : forall c ps, productions_syntax is_expr gap c ps -> productions_syntax is_expr gap' c ps).
  { intros c ps Hc. induction Hc as [|l1 p1 Hp1|l1 p1 c1 l1' ps1 Hp1 Hc1 Hps IH|l1 p1 l1' ps1 Hp1 Hps IH].
    - apply prss_nil.
    - apply prss_last; auto.
    - apply prss_cons; auto.
    - apply prss_gap; auto. destruct Hp1 as [x ss y a Hss Ha]. constructor; auto.
      destruct Ha as [arrow le e Har [He Hb] Hq|arrow j le e Har [He Hb]]; constructor; auto. }
  induction H as [|l i l' is Hi His IH]; [apply iss_nil|]. apply iss_cons; auto. destruct Hi as [j t ty k Ht|l0 te He|l0 n Hn].
  - apply is_state; auto.
  - apply is_enum; auto.
  - apply is_rule. destruct Hn; [apply rs_braces|apply rs_single]; auto.
Qed.
End DslWritable.
