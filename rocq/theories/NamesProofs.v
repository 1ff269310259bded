(** * NamesProofs: identifiers made from numbers *)
From Coq Require Import Ascii.
From Verif Require Export Names PatternProofs ActionProofs.
Local Open Scope string_scope.

Lemma decimal_inj a b : decimal a = decimal b -> a = b.
Proof. unfold decimal. intro H. rewrite <- (dval_decimal (S a) a), <- (dval_decimal (S b) b) by lia. rewrite H. reflexivity. Qed.

Lemma string_app_assoc : forall a b c : string, (a ++ b) ++ c = a ++ (b ++ c).
Proof. induction a as [|x a IH]; intros; simpl; [reflexivity|rewrite IH; reflexivity]. Qed.

(** Digits. *)
Fixpoint digits (s : string) : Prop :=
  match s with EmptyString => True | String c s' => 48 <= nat_of_ascii c <= 57 /\ digits s' end.
Lemma digits_app a b : digits (a ++ b) <-> digits a /\ digits b.
Proof. induction a as [|c a IH]; simpl; [tauto|]. rewrite IH. tauto. Qed.
Lemma digit_digits n : digits (digit n).
Proof. do 9 (destruct n as [|n]; [simpl; repeat split; apply Nat.leb_le; reflexivity|]). simpl; repeat split; apply Nat.leb_le; reflexivity. Qed.
Lemma decimal_digits n : digits (decimal n).
Proof.
  unfold decimal. generalize (S n). intro f. revert n. induction f as [|f IH]; intro n; [exact Logic.I|]. cbn [decimal_fuel].
  destruct (Nat.ltb n 10); [apply digit_digits|]. apply digits_app. split; [apply IH|apply digit_digits].
Qed.
(** A run of digits ends where the digits end. *)
Definition starts_plain (s : string) : Prop := match s with EmptyString => True | String c _ => ~ (48 <= nat_of_ascii c <= 57) end.
Lemma digits_split : forall a b r s, digits a -> digits b -> starts_plain r -> starts_plain s -> a ++ r = b ++ s -> a = b /\ r = s.
Proof.
  induction a as [|x a IH]; intros [|y b] r s Ha Hb Hr Hs H; simpl in *; auto.
  - exfalso. subst r. simpl in Hr. tauto.
  - exfalso. subst s. simpl in Hs. tauto.
  - injection H as -> H. destruct (IH b r s (proj2 Ha) (proj2 Hb) Hr Hs H) as [-> ->]. auto.
Qed.
Lemma prefix_cancel : forall a b c : string, a ++ b = a ++ c -> b = c.
Proof. induction a as [|x a IH]; simpl; intros b c H; auto. injection H as H. auto. Qed.
Lemma plain_p s : starts_plain ("p" ++ s).
Proof. intros [_ H]. apply Nat.leb_le in H. discriminate H. Qed.
Lemma plain_action : starts_plain "_action".
Proof. intros [_ H]. apply Nat.leb_le in H. discriminate H. Qed.
Lemma action_fn_name_inj i j i' j' : action_fn_name i j = action_fn_name i' j' -> i = i' /\ j = j'.
Proof.
  unfold action_fn_name. intro H. apply (prefix_cancel "nt") in H.
  apply digits_split in H; try apply decimal_digits; try apply plain_p.
  destruct H as [H1 H2]. apply decimal_inj in H1. apply (prefix_cancel "p") in H2.
  apply digits_split in H2; try apply decimal_digits; try apply plain_action. destruct H2 as [H2 _]. apply decimal_inj in H2. auto.
Qed.

(** The last character tells the families apart. *)
Fixpoint last_char (s : string) : option ascii :=
  match s with EmptyString => None | String c s' => match s' with EmptyString => Some c | _ => last_char s' end end.
Lemma last_char_app : forall a b, b <> "" -> last_char (a ++ b) = last_char b.
Proof.
  induction a as [|x a IH]; intros b Hb; [reflexivity|]. cbn [append last_char]. rewrite IH by auto.
  destruct (a ++ b) eqn:E; [|reflexivity]. destruct a, b; try discriminate. congruence.
Qed.
Lemma action_fn_last i j : last_char (action_fn_name i j) = Some "n"%char.
Proof. unfold action_fn_name. rewrite <- !string_app_assoc. rewrite last_char_app by discriminate. reflexivity. Qed.
Lemma idx_fn_last te : last_char (token_terminal_idx_name te) = Some "x"%char.
Proof. unfold token_terminal_idx_name. rewrite last_char_app by discriminate. reflexivity. Qed.
Lemma token_variant_inj i j : token_variant_name i = token_variant_name j -> i = j.
Proof. intro H. apply (prefix_cancel "Token") in H. apply decimal_inj; auto. Qed.
Lemma token_method_inj i j : token_method_name i = token_method_name j -> i = j.
Proof. intro H. apply (prefix_cancel "token_") in H. apply decimal_inj; auto. Qed.
Lemma non_terminal_variant_inj i j : non_terminal_variant_name i = non_terminal_variant_name j -> i = j.
Proof. intro H. apply (prefix_cancel "NonTerminal") in H. apply decimal_inj; auto. Qed.
Lemma non_terminal_method_inj i j : non_terminal_method_name i = non_terminal_method_name j -> i = j.
Proof. intro H. apply (prefix_cancel "non_terminal_") in H. apply decimal_inj; auto. Qed.

(** ** Declarations *)
Lemma declared_as_In {X} (decls : list (string * X)) : NoDup (map fst decls) ->
  forall name x, In (name, x) decls -> declared_as name decls = [x].
Proof.
  unfold declared_as. induction decls as [|[n y] decls IH]; cbn; intros Hnd name x Hin; [contradiction|].
  inversion Hnd as [|? ? Hnin Hnd']; subst. destruct (String.eqb_spec name n) as [->|Hne].
  - cbn. destruct Hin as [Hin|Hin]; [injection Hin as ->|exfalso; apply Hnin; exact (in_map fst _ _ Hin)].
    f_equal. assert (Hf : filter (fun d => String.eqb n (fst d)) decls = []); [|rewrite Hf; reflexivity].
    clear - Hnin. induction decls as [|[m z] decls IH]; cbn; auto. destruct (String.eqb_spec n m) as [->|_].
    + exfalso. apply Hnin. left; reflexivity.
    + apply IH. intro H. apply Hnin. right; exact H.
  - destruct Hin as [Hin|Hin]; [injection Hin as -> ->; congruence|]. apply IH; auto.
Qed.

Lemma combine_In_nth {X Y} (l : list X) (l' : list Y) k x y : nth_error l k = Some x -> nth_error l' k = Some y -> In (x, y) (combine l l').
Proof.
  revert l' k. induction l as [|a l IH]; intros [|b l'] [|k] H1 H2; cbn in *; try discriminate.
  - injection H1 as ->. injection H2 as ->. auto.
  - right. eapply IH; eauto.
Qed.
Lemma map_fst_combine {X Y} (l : list X) (l' : list Y) : List.length l = List.length l' -> map fst (combine l l') = l.
Proof. revert l'. induction l as [|a l IH]; intros [|b l'] H; cbn in *; try discriminate; auto. rewrite IH by lia. reflexivity. Qed.

Local Close Scope string_scope.
Local Open Scope list_scope.
Lemma NoDup_app_intro {X} (l l' : list X) : NoDup l -> NoDup l' -> (forall x, In x l -> In x l' -> False) -> NoDup (l ++ l').
Proof.
  intros H H' Hd. induction H as [|x l Hx _ IH]; cbn; [auto|]. constructor.
  - intro Hin. apply in_app_or in Hin. destruct Hin as [Hin|Hin]; [contradiction|]. eapply Hd; [left; reflexivity|exact Hin].
  - apply IH. intros y Hy Hy'. eapply Hd; [right; exact Hy|exact Hy'].
Qed.

Lemma NoDup_app_disj {X} (l l' : list X) : NoDup (l ++ l') -> forall x, In x l -> In x l' -> False.
Proof.
  induction l as [|y l IH]; cbn; intros H x H1 H2; [contradiction|]. inversion H as [|? ? Hy H']; subst.
  destruct H1 as [->|H1]; [apply Hy; apply in_or_app; auto|eapply IH; eauto].
Qed.

(** ** The action functions *)
Section Fns.
Context {A : Type}.

(** All productions with their numbers. *)
Definition numbered_from (k : nat) (l : list (non_terminal A)) : list (nat * nat * production A) :=
  flat_map (fun '(i, N) => map (fun '(j, p) => (i, j, p)) (enumerate (nt_productions N))) (combine (seq k (List.length l)) l).
Lemma fn_names_numbered (g : grammar A) : fn_names g = map (fun q => action_fn_name (fst (fst q)) (snd (fst q))) (numbered_from 0 (g_nts g)).
Proof.
  unfold fn_names, numbered_from. change (enumerate (g_nts g)) with (combine (seq 0 (List.length (g_nts g))) (g_nts g)). generalize (combine (seq 0 (List.length (g_nts g))) (g_nts g)). intro l.
  induction l as [|[i N] l IH]; [reflexivity|]. cbn [flat_map]. rewrite map_app, IH, map_map. f_equal. apply map_ext. intros [j p]. reflexivity.
Qed.

Lemma gen_productions_all variants nt : forall (ps : list (production A)) k fns fns2 ps',
  gen_productions variants nt fns ps = Ok (fns2, ps') -> exists new, fns2 = fns ++ new /\
  Forall2 (fun q f => fn_for variants (fst (fst q)) (snd q) f) (map (fun '(j, p) => (nt, j, p)) (combine (seq k (List.length ps)) ps)) new.
Proof.
  induction ps as [|p ps IH]; cbn [gen_productions]; intros k fns fns2 ps' H.
  - injection H as <- <-. exists []. rewrite app_nil_r. split; [auto|constructor].
  - apply bind_Ok in H. destruct H as ((fns1 & p1) & H1 & H). apply bind_Ok in H. destruct H as ((fns3 & ps2) & H2 & H).
    injection H as <- <-. apply gen_production_spec in H1. destruct H1 as (f & -> & Hf & _).
    destruct (IH (S k) _ _ _ H2) as (new & -> & Hn). exists (f :: new). rewrite <- app_assoc. split; [reflexivity|].
    cbn. constructor; auto.
Qed.
Lemma gen_non_terminals_all variants : forall (nts : list (non_terminal A)) k fns fns2 nts',
  gen_non_terminals variants k fns nts = Ok (fns2, nts') -> exists new, fns2 = fns ++ new /\
  Forall2 (fun q f => fn_for variants (fst (fst q)) (snd q) f) (numbered_from k nts) new.
Proof.
  induction nts as [|N nts IH]; cbn [gen_non_terminals]; intros k fns fns2 nts' H.
  - injection H as <- <-. exists []. rewrite app_nil_r. split; [auto|constructor].
  - apply bind_Ok in H. destruct H as ((fns1 & ps) & H1 & H). apply bind_Ok in H. destruct H as ((fns3 & nts2) & H2 & H).
    injection H as <- <-. destruct (gen_productions_all _ _ _ 0 _ _ _ H1) as (new1 & -> & Hn1).
    destruct (IH _ _ _ _ H2) as (new2 & -> & Hn2). exists (new1 ++ new2). rewrite <- app_assoc. split; [reflexivity|].
    unfold numbered_from. cbn [List.length seq combine flat_map]. apply Forall2_app; auto.
Qed.

Lemma numbered_In (l : list (non_terminal A)) : forall k i j p, In (i, j, p) (numbered_from k l) <->
  exists N, k <= i /\ nth_error l (i - k) = Some N /\ nth_error (nt_productions N) j = Some p.
Proof.
  unfold numbered_from. induction l as [|N l IH]; intros k i j p; cbn.
  - split; [contradiction|]. intros (N & _ & H & _). destruct (i - k); discriminate.
  - rewrite in_app_iff, IH, in_map_iff. split.
    + intros [((j' & p') & E & H)|(M & H1 & H2 & H3)].
      * injection E as <- <- <-. apply enumerate_nth_error in H. exists N. rewrite Nat.sub_diag. cbn. auto.
      * exists M. split; [lia|]. replace (i - k) with (S (i - S k)) by lia. auto.
    + intros (M & H1 & H2 & H3). destruct (i - k) as [|d] eqn:E; cbn in H2.
      * injection H2 as ->. left. exists (j, p). split; [f_equal; f_equal; lia|]. apply enumerate_nth_error. auto.
      * right. exists M. split; [lia|]. replace (i - S k) with d by lia. auto.
Qed.
Lemma numbered_nodup (l : list (non_terminal A)) : forall k, NoDup (map fst (numbered_from k l)).
Proof.
  induction l as [|N l IH]; intro k; [constructor|]. unfold numbered_from. cbn [List.length seq combine flat_map]. rewrite map_app.
  fold (numbered_from (S k) l). apply NoDup_app_intro.
  - rewrite map_map. apply (NoDup_map_inv (fun '(i, j) => j : nat)). rewrite map_map.
    assert (E : map (fun x : nat * production A => let '(_, j) := fst (let '(j, p) := x in (k, j, p)) in j) (enumerate (nt_productions N)) = seq 0 (List.length (nt_productions N))).
    { unfold enumerate. generalize (seq 0 (List.length (nt_productions N))) as is, (seq_length (List.length (nt_productions N)) 0).
      generalize (nt_productions N). intros ps is. revert ps. induction is as [|i is IHi]; intros [|p ps] H; cbn in *; try discriminate; auto. f_equal. apply IHi. lia. }
    rewrite E. apply seq_NoDup.
  - apply IH.
  - intros [i j] H1 H2. apply in_map_iff in H1. destruct H1 as (q & E1 & H1). apply in_map_iff in H1. destruct H1 as ((j' & p') & E & _). subst q.
    cbn in E1. injection E1 as <- <-. apply in_map_iff in H2. destruct H2 as (((i' & j'') & p'') & E & H2). cbn in E. injection E as -> ->.
    apply numbered_In in H2. destruct H2 as (_ & H2 & _). lia.
Qed.
Lemma fn_names_nodup (g : grammar A) : NoDup (fn_names g).
Proof.
  rewrite fn_names_numbered. pose proof (numbered_nodup (g_nts g) 0) as H. revert H. generalize (numbered_from 0 (g_nts g)). intro l.
  induction l as [|[[i j] p] l IH]; cbn; intro H; [constructor|]. inversion H as [|? ? H1 H2]; subst. constructor; [|auto].
  intro Hin. apply H1. apply in_map_iff in Hin. destruct Hin as (((i' & j') & p') & E & Hin). cbn in E. apply action_fn_name_inj in E. destruct E as [-> ->].
  exact (in_map fst _ _ Hin).
Qed.
Lemma fn_names_In (g : grammar A) name : In name (fn_names g) <-> exists i j p, name = action_fn_name i j /\ get_production g i j = Some p.
Proof.
  rewrite fn_names_numbered, in_map_iff. split.
  - intros (((i & j) & p) & <- & H). apply numbered_In in H. destruct H as (N & _ & H1 & H2). rewrite Nat.sub_0_r in H1. exists i, j, p. split; auto.
    unfold get_production, get_non_terminal. rewrite H1. auto.
  - intros (i & j & p & -> & H). exists (i, j, p). split; auto. apply numbered_In. apply get_production_nt in H. destruct H as (N & H1 & H2).
    exists N. rewrite Nat.sub_0_r. repeat split; auto. lia.
Qed.

(** The function generated for a production is declared under the name made from its numbers, and under no other. *)
Lemma fn_named ho fuel (g : grammar A) te gp : generate_lr1_parser ho fuel g te = Ok gp ->
  List.length (fn_names g) = List.length (gp_sem_actions gp) /\
  (forall k name, nth_error (fn_names g) k = Some name -> exists i j p f, get_production g i j = Some p /\
     name = action_fn_name i j /\ nth_error (gp_sem_actions gp) k = Some f /\ fn_for (variant_names g) i p f) /\
  (forall i j p, get_production g i j = Some p -> exists k f, nth_error (fn_names g) k = Some (action_fn_name i j) /\
     nth_error (gp_sem_actions gp) k = Some f /\ fn_for (variant_names g) i p f).
Proof.
  intro H. destruct (generate_steps ho _ _ _ _ H) as
    (tbl & states & entries & fns & g' & tb & gv & H1 & H2 & H3 & H4 & H5 & H6 & H7 & H8 & E1 & _).
  unfold generate_semantic_action_table in H3. apply bind_Ok in H3. destruct H3 as ((fns0 & nts') & H3 & Hx). injection Hx as <- <-.
  apply gen_non_terminals_all in H3. destruct H3 as (new & E & Hn). cbn in E. subst fns0. rewrite E1. rewrite fn_names_numbered.
  split; [|split].
  - rewrite map_length. eapply Forall2_length_; eauto.
  - intros k name Hk. rewrite nth_error_map in Hk. destruct (nth_error (numbered_from 0 (g_nts g)) k) as [[[i j] p]|] eqn:Ek; [|discriminate].
    cbn in Hk. injection Hk as <-. destruct (Forall2_nth_error _ _ _ Hn _ _ Ek) as (f & Hf & Hff). exists i, j, p, f.
    apply nth_error_In, numbered_In in Ek. destruct Ek as (N & _ & Ea & Eb). rewrite Nat.sub_0_r in Ea. split; [|auto].
    unfold get_production, get_non_terminal. rewrite Ea. auto.
  - intros i j p Hp. assert (Hin : In (i, j, p) (numbered_from 0 (g_nts g))).
    { apply numbered_In. apply get_production_nt in Hp. destruct Hp as (N & Ha & Hb). exists N. rewrite Nat.sub_0_r. repeat split; auto. lia. }
    apply In_nth_error in Hin. destruct Hin as (k & Hk). destruct (Forall2_nth_error _ _ _ Hn _ _ Hk) as (f & Hf & Hff). exists k, f.
    rewrite nth_error_map, Hk. auto.
Qed.

(** ** The result type *)
Lemma variants_below (g : grammar A) i v : variant_of (variant_names g) i = Some v -> v < n_variants g.
Proof.
  unfold variant_of, variant_names, n_variants. destruct (fold_left variant_step (g_nts g) ([], [], 0)) as [[names tys] k] eqn:E. cbn.
  destruct (variants_inv _ _ _ _ E) as [L1 L2 L3 L4 L5]. intro Hi.
  assert (Hlt : i < List.length (g_nts g)) by (rewrite <- L1; apply nth_error_Some; congruence).
  destruct (nth_error (g_nts g) i) as [N|] eqn:En; [|apply nth_error_None in En; lia].
  destruct (L4 _ _ En) as (a & Ha & Ga). rewrite Ha in Hi. injection Hi as ->. eauto.
Qed.
Lemma variant_type_of (g : grammar A) i N v : get_non_terminal g i = Some N -> variant_of (variant_names g) i = Some v ->
  variant_type g v = [nt_return_ty N].
Proof.
  intros HN Hv. unfold variant_type. destruct (find _ _) as [[j M]|] eqn:E.
  - apply find_some in E. destruct E as (E1 & E2). apply enumerate_nth_error in E1.
    destruct (variant_of (variant_names g) j) as [w|] eqn:Ew; [|discriminate]. apply Nat.eqb_eq in E2. subst w.
    f_equal. eapply (proj1 (proj2 (variant_names_spec g))); eauto.
  - exfalso. pose proof (find_none _ _ E (i, N) (proj2 (enumerate_nth_error _ _ _) HN)) as Hc. cbn in Hc.
    rewrite Hv, Nat.eqb_refl in Hc. discriminate.
Qed.

Lemma map_inj_nodup {X} (f : nat -> X) (l : list nat) : (forall i j, f i = f j -> i = j) -> NoDup l -> NoDup (map f l).
Proof.
  intros Hf H. induction H as [|x l Hx _ IH]; cbn; constructor; auto. intro Hin. apply in_map_iff in Hin. destruct Hin as (y & E & Hy). apply Hf in E. congruence.
Qed.
Lemma result_enum_names te (g : grammar A) : map fst (result_enum te g) =
  map token_variant_name (seq 0 (List.length (te_conversions te))) ++ map non_terminal_variant_name (seq 0 (n_variants g)).
Proof.
  unfold result_enum. rewrite map_app, !map_map. f_equal. unfold enumerate.
  generalize (te_conversions te) as cs. intro cs. generalize (seq_length (List.length cs) 0). generalize (seq 0 (List.length cs)). intros is. revert cs.
  induction is as [|i is IH]; intros [|c cs] H; cbn in *; try discriminate; auto. f_equal. apply IH. lia.
Qed.
Lemma result_enum_nodup te (g : grammar A) : NoDup (map fst (result_enum te g)).
Proof.
  rewrite result_enum_names. apply NoDup_app_intro.
  - apply map_inj_nodup; [apply token_variant_inj|apply seq_NoDup].
  - apply map_inj_nodup; [apply non_terminal_variant_inj|apply seq_NoDup].
  - intros x H1 H2. apply in_map_iff in H1. destruct H1 as (i & <- & _). apply in_map_iff in H2. destruct H2 as (j & E & _). discriminate E.
Qed.
Lemma result_methods_nodup te (g : grammar A) : NoDup (map fst (result_methods te g)).
Proof.
  unfold result_methods. rewrite map_app, !map_map. cbn [fst]. apply NoDup_app_intro.
  - apply map_inj_nodup; [apply token_method_inj|apply seq_NoDup].
  - apply map_inj_nodup; [apply non_terminal_method_inj|apply seq_NoDup].
  - intros x H1 H2. apply in_map_iff in H1. destruct H1 as (i & <- & _). apply in_map_iff in H2. destruct H2 as (j & E & _). discriminate E.
Qed.
Lemma token_variant_declared te (g : grammar A) i c : nth_error (te_conversions te) i = Some c ->
  declared_as (token_variant_name i) (result_enum te g) = [pattern_types (cv_to c)] /\
  declared_as (token_method_name i) (result_methods te g) = [ExToken i].
Proof.
  intro H. split; (apply declared_as_In; [solve [apply result_enum_nodup|apply result_methods_nodup]|]); apply in_or_app; left; apply in_map_iff.
  - exists (i, c). split; [reflexivity|]. apply enumerate_nth_error. exact H.
  - exists i. split; [reflexivity|]. apply in_seq. split; [lia|]. cbn. apply nth_error_Some. congruence.
Qed.
Lemma nt_variant_declared te (g : grammar A) i N v : get_non_terminal g i = Some N -> variant_of (variant_names g) i = Some v ->
  declared_as (non_terminal_variant_name v) (result_enum te g) = [[nt_return_ty N]] /\
  declared_as (non_terminal_method_name v) (result_methods te g) = [ExNonTerminal v].
Proof.
  intros HN Hv. split; (apply declared_as_In; [solve [apply result_enum_nodup|apply result_methods_nodup]|]); apply in_or_app; right; apply in_map_iff; exists v.
  - split; [f_equal; eapply variant_type_of; eauto|]. apply in_seq. pose proof (variants_below _ _ _ Hv). lia.
  - split; [reflexivity|]. apply in_seq. pose proof (variants_below _ _ _ Hv). lia.
Qed.
End Fns.

(** ** [value_stack] *)
Lemma occurrences_all : forall pops sh, (forall b, In b (occurrences sh pops) -> b = true) <->
  sh = false /\ forall m x e, In (PopBind m x e) pops -> x <> "value_stack"%string.
Proof.
  induction pops as [|[|m x e] pops IH]; intro sh; cbn [occurrences].
  - split; [|intros [-> _] b [<-|[]]; reflexivity]. intro H. specialize (H _ (or_introl eq_refl)). destruct sh; [discriminate|]. split; [auto|intros ? ? ? []].
  - split.
    + intro H. destruct (proj1 (IH sh) (fun b Hb => H b (or_intror Hb))) as [-> H2]. split; auto. intros m' x' e' [E|E]; [discriminate|eauto].
    + intros [-> H] b [<-|Hb]; [reflexivity|]. apply (proj2 (IH false)); auto. split; auto. intros m' x' e' E. eapply H. right; eauto.
  - split.
    + intro H. destruct (proj1 (IH _) (fun b Hb => H b (or_intror Hb))) as [E2 H2]. apply Bool.orb_false_iff in E2. destruct E2 as [-> E2]. split; auto.
      apply String.eqb_neq in E2. intros m' x' e' [E|E]; [injection E as <- <- <-; auto|eauto].
    + intros [-> H] b [<-|Hb]; [reflexivity|]. revert b Hb. apply IH. split; [|intros m' x' e' E; eapply H; right; eauto].
      cbn. apply String.eqb_neq. eapply H. left; reflexivity.
Qed.
