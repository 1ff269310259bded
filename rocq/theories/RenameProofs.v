(** * RenameProofs: renamed and merged grammars expand to the same code (C46, C47) *)
From Verif Require Export AlikeProofs SameCode Merge LowerPanics.
From Coq Require Import Ascii.

Lemma variant_names_alike {A B} (g : grammar A) (h : grammar B) :
  Forall2 (fun N M => nt_return_ty N = nt_return_ty M) (g_nts g) (g_nts h) -> variant_names g = variant_names h.
Proof.
  intro H. unfold variant_names. rewrite (fold_left_alike _ variant_step variant_step _ _ H); auto.
  intros [[names tys] i] N M E. unfold variant_step. rewrite E. auto.
Qed.
Lemma fn_for_fun {A} vs nt (p : production A) f f' : fn_for vs nt p f -> fn_for vs nt p f' -> f = f'.
Proof. intros (H1 & H2 & H3) (K1 & K2 & K3). destruct f, f'; simpl in *. congruence. Qed.
Lemma Forall2_eq_map {X Y} (f : X -> Y) l l' : Forall2 (fun x y => y = f x) l l' -> l' = map f l.
Proof. induction 1; simpl; congruence. Qed.
Lemma nth_map_lt {X Y} (f : X -> Y) d d' l i : i < List.length l -> nth i (map f l) d' = f (nth i l d).
Proof. revert i. induction l; intros [|i] H; simpl in *; try lia; auto. apply IHl. lia. Qed.

Section Tables.
Context {A B : Type}.
Variables (rho tau : string -> string).
Variable RA : A -> B -> Prop.
Variable RB : option name -> option name -> Prop.
Variable RT : ty -> ty -> Prop.
Variable FR : sem_fn (lexpr A) -> sem_fn (lexpr B) -> Prop.
Lemma module_alike_tables g h cs cs' gp gp' : lg_alike rho tau RA RB RT g h -> module_alike FR g h cs cs' gp gp' -> same_tables rho tau gp gp'.
Proof.
  intros [Hn Ht] [M1 M2 M3 M4 M5 M6 M7 M8]. constructor; auto.
  - symmetry. apply (Forall2_len _ _ _ M3).
  - destruct M4 as (ls & Hl & E1 & E2). exists (map (map (fun t => nth t (g_terminals g) ""%string)) ls). rewrite !map_map. split; auto.
    rewrite E2, Ht. apply map_ext_in. intros l Hin. rewrite map_map. unfold join. f_equal. apply map_ext_in. intros t Hi.
    apply nth_map_lt. apply (Hl l t Hin Hi).
  - exists (g_terminals g). destruct M5 as [-> ->]. unfold token_to_text. rewrite Ht. auto.
  - apply (Forall2_weaken _ _ _ _) with (2 := M7). intros pr pr' (H1 & H2 & nt & N & M & HN & HM & Hpub & E1 & _ & _ & E2 & _).
    destruct (Forall2_nth_error _ _ _ Hn _ _ HN) as (M' & HM' & (_ & _ & Hnm)). unfold get_non_terminal in HM. rewrite HM in HM'. injection HM' as <-.
    rewrite E1, E2. auto.
Qed.
End Tables.

Section Strict.
Context {A B : Type}.
Variable rho : string -> string.
Variable f : A -> B.
Notation id := (fun x : string => x).
Notation RA := (fun (a : A) (b : B) => b = f a).
Notation FR := (fun (x : sem_fn (lexpr A)) (y : sem_fn (lexpr B)) => y = map_sem_fn (map_lexpr f) x).

Lemma strict_types g h : lg_alike rho id RA eq eq g h -> variant_names g = variant_names h.
Proof.
  intros [Hn _]. apply variant_names_alike. apply (Forall2_weaken _ _ _ _) with (2 := Hn). intros N M (_ & E & _). exact E.
Qed.
Lemma strict_fn g h : lg_alike rho id RA eq eq g h -> forall nt p q x y, lprod_alike RA eq p q ->
  fn_for (variant_names g) nt p x -> fn_for (variant_names h) nt q y -> FR x y.
Proof.
  intros Hgh nt p q x y [Hs Ha] (X1 & X2 & X3) (Y1 & Y2 & Y3). rewrite <- (strict_types g h Hgh) in *.
  assert (Es : p_symbols q = p_symbols p).
  { symmetry. clear - Hs. induction Hs as [|[b s] [b' s'] l l' [E1 E2] H IH]; simpl in *; congruence. }
  rewrite Es in Y3. destruct x as [xp xv xa], y as [yp yv ya]. simpl in *. unfold map_sem_fn. simpl. f_equal; try congruence.
  subst. destruct (p_action p), (p_action q); simpl in *; try contradiction; congruence.
Qed.
Lemma strict_module g h cs gp gp' : lg_alike rho id RA eq eq g h -> module_alike FR g h cs cs gp gp' -> gp' = map_module rho f gp.
Proof.
  intros Hgh Hm. pose proof (strict_types g h Hgh) as Hv. pose proof Hgh as [Hn Ht]. rewrite map_id in Ht.
  destruct (module_alike_tables _ _ _ _ _ _ _ _ _ _ _ _ Hgh Hm) as [T1 T2 T3 T4 T5 T6 T7].
  destruct Hm as [M1 M2 M3 M4 M5 M6 M7 M8].
  destruct T5 as (ls & E1 & E2). destruct T6 as (l & S1 & S2). rewrite map_id in S2. destruct M8 as [C1 C2].
  assert (Hp : gp_parsers gp' = map (rename_parser rho) (gp_parsers gp)).
  { apply Forall2_eq_map. apply (Forall2_weaken _ _ _ _) with (2 := M7). intros pr pr' (H1 & H2 & nt & N & M & HN & HM & Hpub & F1 & F2 & F3 & F4 & F5 & F6).
    destruct (Forall2_nth_error _ _ _ Hn _ _ HN) as (M' & HM' & (_ & Hty & Hnm)). unfold get_non_terminal in HM. rewrite HM in HM'. injection HM' as <-.
    rewrite <- Hv in F6. destruct pr, pr'; unfold rename_parser; simpl in *. f_equal; congruence || (rewrite F4, F1; auto). }
  destruct gp' as [a1 a2 a3 a4 a5 a6 a7 a8]. unfold map_module. simpl in *. f_equal; try congruence.
  - apply Forall2_eq_map; auto.
  - rewrite E1, E2. apply map_ext. intro x. rewrite map_id. auto.
Qed.

Lemma unnamed_map s : unnamed (map_symbol rho s) = match unnamed s with
  | ASTerminal t => ASTerminal t | ASNonTerminal n => ASNonTerminal (rho n) | ASRepeat op s' => ASRepeat op (map_symbol rho s') | s' => s' end.
Proof. induction s; simpl; auto. Qed.
Lemma binder_map s : binder_of (map_symbol rho s) = binder_of s.
Proof. induction s; simpl; auto. rewrite IHs. auto. Qed.
Lemma map_items_nts (items : list (grammar_item A)) : declared_nts (map_items rho f items) = map (map_declaration rho f) (declared_nts items).
Proof. induction items as [|[t|te|n] l IH]; simpl; auto. unfold declared_nts in *. simpl. rewrite IH. auto. Qed.
Lemma map_items_tokens (items : list (grammar_item A)) : declared_tokens (map_items rho f items) = declared_tokens items.
Proof. induction items as [|[t|te|n] l IH]; simpl; auto. unfold declared_tokens in *. simpl. rewrite IH. auto. Qed.
Lemma map_items_states (items : list (grammar_item A)) : declared_states (map_items rho f items) = declared_states items.
Proof. induction items as [|[t|te|n] l IH]; simpl; auto. unfold declared_states in *. simpl. rewrite IH. auto. Qed.
Lemma Forall2_map_r {X Y} (R : X -> Y -> Prop) (k : X -> Y) l : (forall x, R x (k x)) -> Forall2 R l (map k l).
Proof. induction l; simpl; constructor; auto. Qed.
Lemma map_items_alike (items : list (grammar_item A)) : items_alike rho id RA eq eq items (map_items rho f items).
Proof.
  split; [|split].
  - rewrite map_items_nts. apply Forall2_map_r. intro N. split; [auto|]. split; [auto|]. split; [auto|]. simpl.
    apply Forall2_map_r. intro p. split; simpl.
    + apply Forall2_map_r. intro s. split; [symmetry; apply binder_map|]. rewrite unnamed_map.
      destruct (unnamed s) eqn:E; auto. destruct (unnamed_not_named _ _ _ E).
    + destruct (ap_action p); simpl; auto.
  - rewrite map_items_tokens. induction (declared_tokens items); constructor; auto. split; [reflexivity|]. induction (te_conversions a); constructor; auto.
  - rewrite map_items_states. auto.
Qed.

Hypothesis rho_inj : injective rho.
Hypothesis rho_raw : keeps_raw rho.
Lemma map_items_core (items : list (grammar_item A)) te te' : declared_tokens items = [te] -> declared_tokens (map_items rho f items) = [te'] ->
  forall ho fuel, hash_order_ok ho ->
  alike (fun p q => q = rename_panic rho id p) (fun gp gp' => gp' = map_module rho f gp)
    (core ho fuel (declared_nts items) te) (core ho fuel (declared_nts (map_items rho f items)) te').
Proof.
  intros Et Et' ho fuel Hho.
  pose proof (renamed_alike rho id rho_inj (fun a b H => H) rho_raw RA eq eq (fun b => eq_refl) FR strict_fn items (map_items rho f items) (map_items_alike items) te te' Et Et' ho fuel Hho) as H.
  rewrite map_items_tokens, Et in Et'. injection Et' as <-.
  apply (alike_weaken _ _ _ _ _ _ H); auto. intros gp gp' (g & h & _ & _ & Hgh & Hm). eapply strict_module; eauto.
Qed.

Definition map_acc (acc : @items_acc A) : @items_acc B :=
  {| ia_nts := map (map_declaration rho f) (ia_nts acc); ia_token := ia_token acc; ia_state := ia_state acc |}.
Lemma collect_map (items : list (grammar_item A)) : forall acc, foldM collect_item (map_items rho f items) (map_acc acc) =
  match foldM collect_item items acc with Ok acc' => Ok (map_acc acc') | Panic p => Panic p | OutOfFuel => OutOfFuel end.
Proof.
  induction items as [|gi l IH]; intro acc; [reflexivity|].
  destruct gi as [t|te|n]; cbn [map_items map foldM collect_item map_acc ia_nts ia_token ia_state]; fold (map_items rho f l).
  - destruct (ia_state acc); cbn [bind]; [reflexivity|]. exact (IH {| ia_nts := ia_nts acc; ia_token := ia_token acc; ia_state := Some t |}).
  - destruct (ia_token acc); cbn [bind]; [reflexivity|]. exact (IH {| ia_nts := ia_nts acc; ia_token := Some te; ia_state := ia_state acc |}).
  - cbn [bind]. rewrite <- IH. unfold map_acc. cbn [ia_nts ia_token ia_state]. rewrite map_app. reflexivity.
Qed.
Theorem macro_map ho fuel (items : list (grammar_item A)) : hash_order_ok ho ->
  macro ho fuel (map_items rho f items) =
  match macro ho fuel items with
  | Ok gp => Ok (map_module rho f gp)
  | Panic p => Panic (rename_panic rho id p)
  | OutOfFuel => OutOfFuel
  end.
Proof.
  intro Hho. unfold macro.
  pose proof (collect_map items {| ia_nts := []; ia_token := None; ia_state := None |}) as Hc. unfold map_acc at 1 in Hc. cbn [ia_nts ia_token ia_state map] in Hc.
  rewrite Hc. clear Hc. pose proof (collect_spec items acc0) as H. unfold acc0 in H. cbn [ia_token ia_state app] in H. cbv zeta in H.
  destruct (foldM collect_item items _) as [acc|p|]; cbn [bind map_acc ia_token ia_nts].
  - destruct H as (H1 & H2 & H3). cbn [ia_nts app] in H1. destruct (ia_token acc) as [te|]; [|reflexivity].
    rewrite H1, <- map_items_nts.
    assert (Et : declared_tokens items = [te]) by (rewrite H2; reflexivity).
    assert (Et' : declared_tokens (map_items rho f items) = [te]) by (rewrite map_items_tokens; exact Et).
    pose proof (map_items_core items te te Et Et' ho fuel Hho) as Ha. unfold core in Ha.
    destruct (bind (lower (declared_nts items) (te_conversions te)) _) as [gp|p|]; destruct (bind (lower (declared_nts (map_items rho f items)) (te_conversions te)) _) as [gp'|q|];
      simpl in Ha; try contradiction; subst; reflexivity.
  - destruct p; try contradiction; reflexivity.
  - destruct H.
Qed.
End Strict.

(** ** Merged declarations *)
Section MergeModule.
Context {A : Type}.
Variable fresh : nat -> string.
Variable items : list (grammar_item A).
Hypothesis Hfresh : fresh_for fresh (declared_nts items).
Notation nts' := (merge fresh (declared_nts items)).

Lemma merge_from_raw (all l : list (ast_non_terminal A)) : forall i D D', In (D, D') (combine l (merge_from fresh all i l)) ->
  (forall j N, nth_error l j = Some N -> is_raw (fresh (i + j)) = is_raw (an_name N)) -> is_raw (an_name D') = is_raw (an_name D).
Proof.
  induction l as [|N l IH]; intros i D D' Hin Hr; simpl in Hin; [contradiction|]. destruct Hin as [E|Hin].
  - injection E as <- <-. destruct (existsb _ l); simpl; auto. rewrite <- (Hr 0 N eq_refl). rewrite Nat.add_0_r. auto.
  - apply (IH (S i) _ _ Hin). intros j M HM. rewrite <- (Hr (S j) M HM). f_equal. f_equal. lia.
Qed.
Lemma merge_raw D D' : In (D, D') (combine (declared_nts items) nts') -> is_raw (an_name D') = is_raw (an_name D).
Proof. intro Hin. apply (merge_from_raw _ _ 0 _ _ Hin). apply Hfresh. Qed.
Lemma merged_nts : declared_nts (merged fresh items) = nts'.
Proof.
  unfold merged, declared_nts at 1. rewrite !flat_map_app.
  assert (H1 : forall l : list token_enum, flat_map (fun gi : grammar_item A => match gi with GINonTerminal n => [n] | _ => [] end) (map GITokenEnum l) = []) by (induction l; simpl; auto).
  assert (H2 : forall l : list ty, flat_map (fun gi : grammar_item A => match gi with GINonTerminal n => [n] | _ => [] end) (map GITypeDefState l) = []) by (induction l; simpl; auto).
  rewrite H1, H2. simpl. induction nts'; simpl; congruence.
Qed.
Lemma merged_tokens : declared_tokens (merged fresh items) = declared_tokens items.
Proof.
  unfold merged, declared_tokens at 1. rewrite !flat_map_app.
  assert (H1 : forall l : list (ast_non_terminal A), flat_map (fun gi : grammar_item A => match gi with GITokenEnum n => [n] | _ => [] end) (map GINonTerminal l) = []) by (induction l; simpl; auto).
  assert (H2 : forall l : list ty, flat_map (fun gi : grammar_item A => match gi with GITokenEnum n => [n] | _ => [] end) (map GITypeDefState l) = []) by (induction l; simpl; auto).
  rewrite H1, H2, !app_nil_r. induction (declared_tokens items); simpl; congruence.
Qed.
Lemma merged_states : declared_states (merged fresh items) = declared_states items.
Proof.
  unfold merged, declared_states at 1. rewrite !flat_map_app.
  assert (H1 : forall l : list (ast_non_terminal A), flat_map (fun gi : grammar_item A => match gi with GITypeDefState n => [n] | _ => [] end) (map GINonTerminal l) = []) by (induction l; simpl; auto).
  assert (H2 : forall l : list token_enum, flat_map (fun gi : grammar_item A => match gi with GITypeDefState n => [n] | _ => [] end) (map GITokenEnum l) = []) by (induction l; simpl; auto).
  rewrite H1, H2, !app_nil_r. simpl. induction (declared_states items); simpl; congruence.
Qed.
Lemma merged_distinct : distinct_names (merged fresh items).
Proof. unfold distinct_names. rewrite merged_nts. destruct Hfresh as (F1 & F2 & _). apply merge_nodup; auto. Qed.

Lemma merged_core te te' : declared_tokens items = [te] -> declared_tokens (merged fresh items) = [te'] ->
  forall ho fuel, hash_order_ok ho ->
  alike (fun p q => is_conflict p \/ is_conflict q -> p = q) (merged_module fresh items)
    (core ho fuel (declared_nts items) te) (core ho fuel (declared_nts (merged fresh items)) te').
Proof.
  intros Et Et' ho fuel Hho. rewrite merged_tokens, Et in Et'. injection Et' as <-. rewrite merged_nts. unfold core.
  set (cs := te_conversions te).
  pose proof (lower_ok_iff (declared_nts items) cs) as L1. pose proof (lower_ok_iff nts' cs) as L2.
  pose proof (merge_supported fresh (declared_nts items) cs Hfresh) as L3.
  pose proof (fun g h => lower_merge_alike fresh (declared_nts items) cs Hfresh g h) as L4.
  pose proof (lower_no_fuel (declared_nts items) cs) as N1. pose proof (lower_no_fuel nts' cs) as N2.
  destruct (lower (declared_nts items) cs) as [g|p|] eqn:Eg, (lower nts' cs) as [h|q|] eqn:Eh; try congruence; cbn [bind].
  - destruct (L4 g h eq_refl eq_refl) as [Ht Hn]. clear L1 L2 L3 L4.
    assert (Hwf : wf_grammar g). { pose proof (lower_spec (declared_nts items) cs) as Hs. rewrite Eg in Hs. destruct Hs as (ti & Hs). eapply lowered_wf; eauto. }
    assert (Hnts : Forall2 (nt_alike eq) (g_nts g) (g_nts h)) by (apply (Forall2_weaken _ _ _ _) with (2 := Hn); intros N M [H1 _]; exact H1).
    assert (Hv : variant_names g = variant_names h) by (apply variant_names_alike; apply (Forall2_weaken _ _ _ _) with (2 := Hn); intros N M (_ & E & _); exact E).
    pose proof (generate_alike eq eq (fun p q E => f_equal rhs E) g h Hnts (f_equal (@List.length _) Ht) (wf_nts_in_range g Hwf)) as Hg.
    assert (HF : forall nt (p q : production (lexpr A)) (x y : sem_fn (lexpr A)), p = q -> fn_for (variant_names g) nt p x -> fn_for (variant_names h) nt q y -> x = y).
    { intros nt p q x y <- Hx Hy. rewrite <- Hv in Hy. eapply fn_for_fun; eauto. }
    specialize (Hg HF).
    assert (Hraw : forall nt N M, get_non_terminal g nt = Some N -> get_non_terminal h nt = Some M -> nt_public N = true ->
      is_raw (nt_name M) = is_raw (nt_name N)).
    { intros nt N M HN HM Hpub. destruct (Forall2_nth_error _ _ _ Hn _ _ HN) as (M' & HM' & (_ & _ & Hnm)).
      unfold get_non_terminal in HM. rewrite HM in HM'. injection HM' as <-.
      destruct (Hnm Hpub) as (D & D' & Hin & _ & -> & ->). apply merge_raw in Hin; auto. }
    specialize (Hg Hraw ho Hho Hwf fuel te te eq_refl).
    apply (alike_weaken _ _ _ _ _ _ Hg); [auto|]. intros gp gp' [M1 M2 M3 M4 M5 M6 M7 M8]. split.
    + constructor; auto.
      * transitivity (gp_sem_actions gp).
        -- clear - M3. induction M3; congruence.
        -- symmetry. rewrite <- map_id. apply map_ext. intros [? ? ?]; auto.
      * destruct M4 as (ls & _ & -> & ->). rewrite Ht. auto.
      * destruct M5 as [-> ->]. unfold token_to_text. rewrite Ht. auto.
      * destruct M8 as [-> ->]. auto.
    + apply (Forall2_weaken _ _ _ _) with (2 := M7). intros pr pr' (H1 & H2 & nt & N & M & HN & HM & Hpub & F1 & F2 & F3 & F4 & F5 & F6).
      destruct (Forall2_nth_error _ _ _ Hn _ _ HN) as (M' & HM' & (_ & Hty & Hnm)). unfold get_non_terminal in HM. rewrite HM in HM'. injection HM' as <-.
      rewrite <- Hv in F6. split.
      * split; [congruence|]. split; [congruence|]. auto.
      * destruct (Hnm Hpub) as (D & D' & Hin & Hd & E1 & E2). exists D, D'. split; auto. split; auto. split; congruence.
  - exfalso. assert (Hs : supported (declared_nts items) cs) by (apply L1; eauto). apply L3 in Hs. apply L2 in Hs. destruct Hs as (? & ?); discriminate.
  - exfalso. assert (Hs : supported nts' cs) by (apply L2; eauto). apply L3 in Hs. apply L1 in Hs. destruct Hs as (? & ?); discriminate.
  - simpl. intros [Hc|Hc]; exfalso.
    + apply lower_diagnostic in Eg. destruct p; contradiction.
    + apply lower_diagnostic in Eh. destruct q; contradiction.
Qed.
End MergeModule.

(** Fresh names exist: longer than every name of the block. *)
Fixpoint long_name (n : nat) : string := match n with 0 => ""%string | S n' => String "a"%char (long_name n') end.
Lemma long_name_length n : String.length (long_name n) = n.
Proof. induction n; simpl; auto. Qed.
Fixpoint symbol_bound (s : ast_symbol) : nat :=
  match s with ASTerminal t => 0 | ASNonTerminal n => String.length n | ASRepeat _ s' => symbol_bound s' | ASNamed _ s' => symbol_bound s' end.
Lemma symbol_bound_unnamed s n : unnamed s = ASNonTerminal n -> String.length n <= symbol_bound s.
Proof. induction s; simpl; try discriminate; auto. intro H; injection H as <-. auto. Qed.
Definition names_bound {A} (nts : list (ast_non_terminal A)) : nat :=
  list_max (map (fun N => String.length (an_name N)) nts ++ flat_map (fun N => flat_map (fun p => map symbol_bound (ap_symbols p)) (an_productions N)) nts).
Definition fresh_name {A} (nts : list (ast_non_terminal A)) (i : nat) : string :=
  ((if match nth_error nts i with Some N => is_raw (an_name N) | None => false end then "r#" else "") ++ long_name (S (names_bound nts + i)))%string.
Lemma fresh_name_raw {A} (nts : list (ast_non_terminal A)) i :
  is_raw (fresh_name nts i) = match nth_error nts i with Some N => is_raw (an_name N) | None => false end.
Proof. unfold fresh_name. destruct (match nth_error nts i with Some N => is_raw (an_name N) | None => false end); reflexivity. Qed.
Lemma fresh_name_length {A} (nts : list (ast_non_terminal A)) i :
  String.length (fresh_name nts i) = (if is_raw (fresh_name nts i) then 2 else 0) + S (names_bound nts + i).
Proof.
  rewrite fresh_name_raw. unfold fresh_name. destruct (match nth_error nts i with Some N => is_raw (an_name N) | None => false end);
    cbn [append String.length]; rewrite long_name_length; lia.
Qed.
Lemma fresh_exists {A} (nts : list (ast_non_terminal A)) : fresh_for (fresh_name nts) nts.
Proof.
  assert (Hle : forall n, In n (map (fun N => String.length (an_name N)) nts ++ flat_map (fun N => flat_map (fun p => map symbol_bound (ap_symbols p)) (an_productions N)) nts) -> n <= names_bound nts).
  { intros n Hn. unfold names_bound. set (l := (_ ++ _)%list) in *. pose proof (proj1 (list_max_le l (list_max l)) (le_n _)) as H. rewrite Forall_forall in H. auto. }
  split; [|split; [|split]].
  - intros i j E. pose proof (fresh_name_length nts i) as H1. pose proof (fresh_name_length nts j) as H2. rewrite E in H1. lia.
  - intros i Hin. apply in_map_iff in Hin. destruct Hin as (N & E & HN).
    assert (String.length (an_name N) <= names_bound nts) by (apply Hle; apply in_app_iff; left; apply (in_map (fun N => String.length (an_name N))); auto).
    rewrite E, fresh_name_length in H. lia.
  - intros i (N & p & x & HN & Hp & Hx & E). apply symbol_bound_unnamed in E. rewrite fresh_name_length in E.
    assert (symbol_bound x <= names_bound nts).
    { apply Hle. apply in_app_iff. right. apply in_flat_map. exists N. split; auto. apply in_flat_map. exists p. split; auto. apply in_map; auto. }
    lia.
  - intros i N HN. rewrite fresh_name_raw, HN. auto.
Qed.
