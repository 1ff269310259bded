(** * GenProofs: semantic action table, variants, emitted arrays, parser structs *)
From Verif Require Export Complete.
From Coq Require Import NArith.

Lemma string_eqb_spec a b : String.eqb a b = true <-> a = b.
Proof. apply String.eqb_eq. Qed.

(** ** Variants *)
Section Variants.
Context {A : Type}.

Record var_inv (l : list (non_terminal A)) (names : list nat) (tys : list (ty * nat)) (k : nat) : Prop := {
  vi_len : List.length names = List.length l;
  vi_lt : forall t j, map_get String.eqb t tys = Some j -> j < k;
  vi_inj : forall t t' j, map_get String.eqb t tys = Some j -> map_get String.eqb t' tys = Some j -> t = t';
  vi_name : forall i N, nth_error l i = Some N -> exists j, nth_error names i = Some j /\
              map_get String.eqb (nt_return_ty N) tys = Some j;
  vi_onto : forall j, j < k -> exists i, nth_error names i = Some j
}.

Lemma variants_inv l : forall names tys k,
  fold_left variant_step l ([], [], 0) = (names, tys, k) -> var_inv l names tys k.
Proof.
  induction l as [|N l IH] using rev_ind; intros names tys k H.
  - simpl in H. inversion H; subst. constructor; simpl; auto; try discriminate; try lia.
    intros [|i] N Hn; discriminate.
  - rewrite fold_left_app in H. simpl in H.
    destruct (fold_left variant_step l ([], [], 0)) as [[names0 tys0] k0] eqn:E.
    destruct (IH _ _ _ eq_refl) as [L1 L2 L3 L4 L5]. unfold variant_step in H.
    destruct (map_get String.eqb (nt_return_ty N) tys0) as [j|] eqn:Ej; inversion H; subst; clear H.
    + constructor; auto.
      * rewrite !app_length, L1; auto.
      * intros i N' Hi. destruct (Nat.lt_ge_cases i (List.length l)) as [Hlt|Hge].
        -- rewrite nth_error_app1 in Hi by auto. destruct (L4 _ _ Hi) as (j' & Hj & Hg).
           exists j'; split; auto. rewrite nth_error_app1 by (rewrite L1; auto). auto.
        -- rewrite nth_error_app2 in Hi by auto. destruct (i - List.length l) as [|x] eqn:Ei; [|destruct x; discriminate].
           simpl in Hi. inversion Hi; subst N'. exists j; split; auto.
           rewrite nth_error_app2 by lia. rewrite L1, Ei. reflexivity.
      * intros j' Hj'. destruct (L5 j' Hj') as (i & Hi). exists i. rewrite nth_error_app1; auto.
        apply nth_error_Some. congruence.
    + assert (Hfresh : forall t, map_get String.eqb t (map_insert String.eqb (nt_return_ty N) k0 tys0) =
                if String.eqb t (nt_return_ty N) then Some k0 else map_get String.eqb t tys0).
      { intro t. destruct (String.eqb t (nt_return_ty N)) eqn:Et.
        - apply String.eqb_eq in Et; subst. apply map_get_insert_same, string_eqb_spec.
        - apply map_get_insert_other; [apply string_eqb_spec|]. intro; subst. rewrite String.eqb_refl in Et. discriminate. }
      constructor.
      * rewrite !app_length, L1; auto.
      * intros t j. rewrite Hfresh. destruct (String.eqb t (nt_return_ty N)); intro Hj; [inversion Hj; lia|].
        apply L2 in Hj. lia.
      * intros t t' j. rewrite !Hfresh.
        destruct (String.eqb t (nt_return_ty N)) eqn:E1, (String.eqb t' (nt_return_ty N)) eqn:E2; intros H1 H2.
        -- apply String.eqb_eq in E1, E2. congruence.
        -- inversion H1; subst. apply L2 in H2. lia.
        -- inversion H2; subst. apply L2 in H1. lia.
        -- eapply L3; eauto.
      * intros i N' Hi. destruct (Nat.lt_ge_cases i (List.length l)) as [Hlt|Hge].
        -- rewrite nth_error_app1 in Hi by auto. destruct (L4 _ _ Hi) as (j' & Hj & Hg).
           exists j'; split; [rewrite nth_error_app1 by (rewrite L1; auto); auto|].
           rewrite Hfresh. destruct (String.eqb (nt_return_ty N') (nt_return_ty N)) eqn:Et; auto.
           apply String.eqb_eq in Et. congruence.
        -- rewrite nth_error_app2 in Hi by auto. destruct (i - List.length l) as [|x] eqn:Ei; [|destruct x; discriminate].
           simpl in Hi. inversion Hi; subst N'. exists k0; split.
           ++ rewrite nth_error_app2 by lia. rewrite L1, Ei. reflexivity.
           ++ rewrite Hfresh, String.eqb_refl. auto.
      * intros j Hj. destruct (Nat.eq_dec j k0) as [->|Hne].
        -- exists (List.length names0). rewrite nth_error_app2, Nat.sub_diag by lia. auto.
        -- destruct (L5 j ltac:(lia)) as (i & Hi). exists i. rewrite nth_error_app1; auto.
           apply nth_error_Some. congruence.
Qed.

Theorem variant_names_spec (g : grammar A) :
  List.length (variant_names g) = n_non_terminals g /\
  (forall i j N M vi vj, get_non_terminal g i = Some N -> get_non_terminal g j = Some M ->
     variant_of (variant_names g) i = Some vi -> variant_of (variant_names g) j = Some vj ->
     (vi = vj <-> nt_return_ty N = nt_return_ty M)) /\
  (exists k, (forall i v, variant_of (variant_names g) i = Some v -> v < k) /\
     forall v, v < k -> exists i, variant_of (variant_names g) i = Some v).
Proof.
  unfold variant_names, variant_of, get_non_terminal.
  destruct (fold_left variant_step (g_nts g) ([], [], 0)) as [[names tys] k] eqn:E. simpl.
  destruct (variants_inv _ _ _ _ E) as [L1 L2 L3 L4 L5]. split; [auto|split].
  - intros i j N M vi vj Hi Hj Hvi Hvj.
    destruct (L4 _ _ Hi) as (a & Ha & Ga). destruct (L4 _ _ Hj) as (b & Hb & Gb).
    rewrite Ha in Hvi. rewrite Hb in Hvj. inversion Hvi; inversion Hvj; subst. split.
    + intro; subst. eauto.
    + intro Ht. rewrite Ht in Ga. congruence.
  - exists k. split; auto. intros i v Hi.
    assert (Hlt : i < List.length (g_nts g)) by (rewrite <- L1; apply nth_error_Some; congruence).
    destruct (nth_error (g_nts g) i) as [N|] eqn:En; [|apply nth_error_None in En; lia].
    destruct (L4 _ _ En) as (a & Ha & Ga). rewrite Ha in Hi; inversion Hi; subst. eauto.
Qed.

Lemma variant_defined (g : grammar A) i N : get_non_terminal g i = Some N ->
  exists v, variant_of (variant_names g) i = Some v.
Proof.
  intro H. destruct (variant_of (variant_names g) i) eqn:E; eauto.
  apply nth_error_None in E. destruct (variant_names_spec g) as [L _]. rewrite L in E.
  apply nt_in_range in H. lia.
Qed.
End Variants.

(** ** Semantic action functions *)
Section Actions.
Context {A : Type}.

(** [f] is the function generated for production [pr] of non-terminal [nt]. *)
Definition fn_for (variants : list nat) (nt : nat) (pr : production A) (f : sem_fn A) : Prop :=
  sf_action f = p_action pr /\ variant_of variants nt = Some (sf_variant f) /\
  mapM (pop_code variants) (rev (p_symbols pr)) = Ok (sf_pops f).

Lemma u16_spec n m : u16_try_from n = Ok m -> m = n /\ (N.of_nat n < 65536)%N.
Proof.
  unfold u16_try_from. destruct (N.of_nat n <? 65536)%N eqn:E; intro H; [|discriminate].
  inversion H; subst. split; [reflexivity|]. apply N.ltb_lt; exact E.
Qed.
Lemma u32_spec n m : u32_try_from n = Ok m -> m = n /\ (N.of_nat n < 4294967296)%N.
Proof.
  unfold u32_try_from. destruct (N.of_nat n <? 4294967296)%N eqn:E; intro H; [|discriminate].
  inversion H; subst. split; [reflexivity|]. apply N.ltb_lt; exact E.
Qed.

Lemma gen_production_spec variants nt fns p fns1 p' :
  gen_production variants nt fns p = Ok (fns1, p') ->
  exists f, fns1 = fns ++ [f] /\ fn_for variants nt p f /\ p_symbols p' = p_symbols p /\
    p_action p' = List.length fns.
Proof.
  unfold gen_production. intro H. apply bind_Ok in H. destruct H as (pops & Hp & H).
  destruct (variant_of variants nt) as [v|] eqn:Ev; [|discriminate].
  apply bind_Ok in H. destruct H as (idx & Hi & H). inversion H; subst; clear H.
  apply u16_spec in Hi. destruct Hi as [-> _].
  eexists. split; [reflexivity|]. simpl. repeat split; auto.
Qed.

Lemma gen_productions_spec variants nt : forall ps fns fns2 ps',
  gen_productions variants nt fns ps = Ok (fns2, ps') ->
  exists new, fns2 = fns ++ new /\ List.length new = List.length ps /\ List.length ps' = List.length ps /\
    forall i p, nth_error ps i = Some p -> exists f p', nth_error new i = Some f /\
      fn_for variants nt p f /\ nth_error ps' i = Some p' /\ p_symbols p' = p_symbols p /\
      p_action p' = List.length fns + i.
Proof.
  induction ps as [|p ps IH]; simpl; intros fns fns2 ps' H.
  - inversion H; subst. exists []. rewrite app_nil_r. repeat split; auto. intros [|i] p Hp; discriminate.
  - apply bind_Ok in H. destruct H as ((fns1 & p1) & H1 & H). apply bind_Ok in H.
    destruct H as ((fns3 & ps2) & H2 & H). inversion H; subst; clear H.
    apply gen_production_spec in H1. destruct H1 as (f & -> & Hf & Hs & Ha).
    apply IH in H2. destruct H2 as (new & -> & L1 & L2 & Hn).
    exists (f :: new). rewrite <- app_assoc. simpl. repeat split; auto.
    intros [|i] q Hq; simpl in *.
    + inversion Hq; subst. exists f, p1. rewrite Nat.add_0_r. auto.
    + destruct (Hn _ _ Hq) as (f' & p' & E1 & E2 & E3 & E4 & E5). exists f', p'.
      repeat (split; auto). rewrite E5, app_length. simpl. lia.
Qed.

Definition same_nt (N : non_terminal A) (N' : non_terminal nat) : Prop :=
  nt_name N' = nt_name N /\ nt_return_ty N' = nt_return_ty N /\ nt_public N' = nt_public N /\
  List.length (nt_productions N') = List.length (nt_productions N).

Lemma gen_non_terminals_spec variants : forall nts nt fns fns2 nts',
  gen_non_terminals variants nt fns nts = Ok (fns2, nts') ->
  exists new, fns2 = fns ++ new /\ List.length nts' = List.length nts /\
    forall i N, nth_error nts i = Some N -> exists N', nth_error nts' i = Some N' /\ same_nt N N' /\
      (forall j p, nth_error (nt_productions N) j = Some p -> exists f p',
        nth_error (nt_productions N') j = Some p' /\ nth_error fns2 (p_action p') = Some f /\
        fn_for variants (nt + i) p f /\ p_symbols p' = p_symbols p /\
        List.length fns <= p_action p' < List.length fns2) /\
      (forall i2 N2' j p' j2 p2', nth_error nts' i2 = Some N2' ->
        nth_error (nt_productions N') j = Some p' -> nth_error (nt_productions N2') j2 = Some p2' ->
        p_action p' = p_action p2' -> i = i2 /\ j = j2).
Proof.
  induction nts as [|N nts IH]; simpl; intros nt fns fns2 nts' H.
  - inversion H; subst. exists []. rewrite app_nil_r. repeat split; auto. intros [|i] N Hp; discriminate.
  - apply bind_Ok in H. destruct H as ((fns1 & ps) & H1 & H). apply bind_Ok in H.
    destruct H as ((fns3 & nts2) & H2 & H). inversion H; subst; clear H.
    apply gen_productions_spec in H1. destruct H1 as (new1 & -> & L1 & L2 & Hn1).
    apply IH in H2. destruct H2 as (new2 & -> & L3 & Hn2). clear IH.
    exists (new1 ++ new2). rewrite <- app_assoc. split; auto. split; [simpl; auto|].
    assert (Hhead : forall j p', nth_error ps j = Some p' -> p_action p' = List.length fns + j /\ j < List.length new1).
    { intros j p' Hj. assert (Hlt : j < List.length ps) by (apply nth_error_Some; congruence).
      destruct (nth_error (nt_productions N) j) as [p|] eqn:Ep; [|apply nth_error_None in Ep; lia].
      destruct (Hn1 _ _ Ep) as (f & p1 & _ & _ & E3 & _ & E5). rewrite Hj in E3; inversion E3; subst.
      split; auto. lia. }
    assert (Htail : forall i N' j p', nth_error nts2 i = Some N' -> nth_error (nt_productions N') j = Some p' ->
              List.length fns + List.length new1 <= p_action p').
    { intros i N' j p' Hi Hj. assert (Hlt : i < List.length nts2) by (apply nth_error_Some; congruence).
      destruct (nth_error nts i) as [N0|] eqn:EN; [|apply nth_error_None in EN; lia].
      destruct (Hn2 _ _ EN) as (N1 & E1 & (_ & _ & _ & El) & E3 & _). rewrite Hi in E1; inversion E1; subst N1.
      assert (Hlt2 : j < List.length (nt_productions N')) by (apply nth_error_Some; congruence).
      destruct (nth_error (nt_productions N0) j) as [p|] eqn:Ep; [|apply nth_error_None in Ep; lia].
      destruct (E3 _ _ Ep) as (f & p1 & F1 & _ & _ & _ & F5). rewrite Hj in F1; inversion F1; subst p1.
      rewrite app_length in F5. lia. }
    intros [|i] N0 HN0; simpl in *.
    + inversion HN0; subst N0; clear HN0. eexists. split; [reflexivity|]. split; [repeat split; auto|].
      simpl. split.
      * intros j p Hj. destruct (Hn1 _ _ Hj) as (f & p' & E1 & E2 & E3 & E4 & E5).
        assert (j < List.length new1) by (apply nth_error_Some; congruence).
        exists f, p'. split; auto. split.
        -- rewrite E5, nth_error_app2 by lia. rewrite nth_error_app1 by lia.
           replace (List.length fns + j - List.length fns) with j by lia. auto.
        -- rewrite Nat.add_0_r. repeat split; auto; try apply E2; rewrite ?E5, ?app_length; lia.
      * intros [|i2] N2' j p' j2 p2' Hi2 Hj Hj2 Heq; simpl in *.
        -- inversion Hi2; subst N2'; simpl in *. apply Hhead in Hj, Hj2. split; auto. lia.
        -- apply Hhead in Hj. pose proof (Htail _ _ _ _ Hi2 Hj2). lia.
    + destruct (Hn2 _ _ HN0) as (N' & E1 & E2 & E3 & E4). exists N'. split; auto. split; auto. split.
      * intros j p Hj. destruct (E3 _ _ Hj) as (f & p' & F1 & F2 & F3 & F4 & F5).
        exists f, p'. rewrite <- app_assoc in F2. rewrite <- app_assoc in F5.
        replace (nt + S i) with (S nt + i) by lia. repeat split; auto; try apply F3; try lia.
        rewrite app_length in F5. lia.
      * intros [|i2] N2' j p' j2 p2' Hi2 Hj Hj2 Heq; simpl in *.
        -- inversion Hi2; subst N2'; simpl in *. apply Hhead in Hj2. pose proof (Htail _ _ _ _ E1 Hj). lia.
        -- destruct (E4 _ _ _ _ _ _ Hi2 Hj Hj2 Heq) as [-> ->]. auto.
Qed.

(** The grammar with actions replaced by indices into SEMANTIC_ACTIONS. *)
Record gen_ok (g : grammar A) (variants : list nat) (fns : list (sem_fn A)) (g' : grammar nat) : Prop := {
  go_terminals : g_terminals g' = g_terminals g;
  go_len : n_non_terminals g' = n_non_terminals g;
  go_nt : forall n N, get_non_terminal g n = Some N ->
    exists N', get_non_terminal g' n = Some N' /\ same_nt N N';
  go_prod : forall n p pr, get_production g n p = Some pr -> exists pr' f,
    get_production g' n p = Some pr' /\ p_symbols pr' = p_symbols pr /\
    nth_error fns (p_action pr') = Some f /\ fn_for variants n pr f;
  go_inj : forall n p pr n2 p2 pr2, get_production g' n p = Some pr -> get_production g' n2 p2 = Some pr2 ->
    p_action pr = p_action pr2 -> n = n2 /\ p = p2
}.

Theorem generate_semantic_action_table_spec (g : grammar A) variants fns g' :
  generate_semantic_action_table g variants = Ok (fns, g') -> gen_ok g variants fns g'.
Proof.
  unfold generate_semantic_action_table. intro H. apply bind_Ok in H. destruct H as ((fns0 & nts) & H1 & H).
  inversion H; subst; clear H. apply gen_non_terminals_spec in H1. destruct H1 as (new & _ & L & Hn).
  assert (Hinv : forall n p pr', get_production {| g_nts := nts; g_terminals := g_terminals g |} n p = Some pr' ->
            exists N', nth_error nts n = Some N' /\ nth_error (nt_productions N') p = Some pr' /\
                       exists N, nth_error (g_nts g) n = Some N).
  { intros n p pr' Hp. apply get_production_nt in Hp. destruct Hp as (N' & HN' & Hp). unfold get_non_terminal in HN'.
    simpl in HN'. exists N'; split; auto. split; auto.
    assert (n < List.length nts) by (apply nth_error_Some; congruence).
    destruct (nth_error (g_nts g) n) eqn:E; eauto. apply nth_error_None in E. lia. }
  constructor; auto.
  - intros n N HN. destruct (Hn _ _ HN) as (N' & E1 & E2 & _). exists N'; auto.
  - intros n p pr Hp. apply get_production_nt in Hp. destruct Hp as (N & HN & Hp).
    destruct (Hn _ _ HN) as (N' & E1 & E2 & E3 & _). destruct (E3 _ _ Hp) as (f & p' & F1 & F2 & F3 & F4 & _).
    exists p', f. split; [|auto]. unfold get_production, get_non_terminal. simpl. rewrite E1. auto.
  - intros n p pr n2 p2 pr2 H1 H2 Heq. apply Hinv in H1. apply Hinv in H2.
    destruct H1 as (N1' & E1 & E2 & N1 & E3). destruct H2 as (N2' & F1 & F2 & _).
    destruct (Hn _ _ E3) as (N1'' & G1 & _ & _ & G4). rewrite E1 in G1; inversion G1; subst N1''.
    eapply G4; eauto.
Qed.

(** *** Transfer between [g] and [g'] *)
Section Transfer.
Variables (g : grammar A) (variants : list nat) (fns : list (sem_fn A)) (g' : grammar nat).
Hypothesis Hgo : gen_ok g variants fns g'.

Lemma go_nt_inv n N' : get_non_terminal g' n = Some N' ->
  exists N, get_non_terminal g n = Some N /\ same_nt N N'.
Proof.
  intro H. pose proof (nt_in_range _ _ _ H) as Hlt. rewrite (go_len _ _ _ _ Hgo) in Hlt.
  unfold get_non_terminal, n_non_terminals in *.
  destruct (nth_error (g_nts g) n) as [N|] eqn:E; [|apply nth_error_None in E; lia].
  exists N; split; auto. destruct (go_nt _ _ _ _ Hgo n N E) as (N2 & E2 & E3).
  unfold get_non_terminal in E2. congruence.
Qed.

Lemma go_prod_inv n p pr' : get_production g' n p = Some pr' ->
  exists pr, get_production g n p = Some pr /\ p_symbols pr' = p_symbols pr.
Proof.
  intro H. pose proof H as H0. apply get_production_nt in H. destruct H as (N' & HN' & Hp).
  destruct (go_nt_inv _ _ HN') as (N & HN & (_ & _ & _ & Hl)).
  assert (Hlt : p < List.length (nt_productions N')) by (apply nth_error_Some; congruence).
  destruct (nth_error (nt_productions N) p) as [pr|] eqn:E; [|apply nth_error_None in E; lia].
  assert (Hpr : get_production g n p = Some pr) by (unfold get_production; rewrite HN; auto).
  exists pr; split; auto. destruct (go_prod _ _ _ _ Hgo _ _ _ Hpr) as (pr2 & f & E2 & E3 & _). congruence.
Qed.

Lemma tr_item_rhs it : item_rhs g' it = item_rhs g it.
Proof.
  unfold item_rhs. destruct (get_production g' (it_nt it) (it_prod it)) as [pr'|] eqn:E.
  - destruct (go_prod_inv _ _ _ E) as (pr & -> & Hs). unfold rhs. rewrite Hs. auto.
  - destruct (get_production g (it_nt it) (it_prod it)) as [pr|] eqn:E2; auto.
    destruct (go_prod _ _ _ _ Hgo _ _ _ E2) as (pr2 & f & E3 & _). congruence.
Qed.
Lemma tr_next_symbol it : next_symbol g' it = next_symbol g it.
Proof. unfold next_symbol. rewrite tr_item_rhs. auto. Qed.
Lemma tr_is_complete it : is_complete g' it = is_complete g it.
Proof. unfold is_complete. rewrite tr_item_rhs. auto. Qed.
Lemma tr_public n : is_public g' n <-> is_public g n.
Proof.
  split.
  - intros (N' & H & Hp). destruct (go_nt_inv _ _ H) as (N & HN & (_ & _ & E & _)). exists N; split; congruence.
  - intros (N & H & Hp). destruct (go_nt _ _ _ _ Hgo _ _ H) as (N' & HN & (_ & _ & E & _)). exists N'; split; congruence.
Qed.
Lemma tr_private n : is_private g' n <-> is_private g n.
Proof.
  split.
  - intros (N' & H & Hp). destruct (go_nt_inv _ _ H) as (N & HN & (_ & _ & E & _)). exists N; split; congruence.
  - intros (N & H & Hp). destruct (go_nt _ _ _ _ Hgo _ _ H) as (N' & HN & (_ & _ & E & _)). exists N'; split; congruence.
Qed.
Lemma tr_wants st it la : wants g' st it la <-> wants g st it la.
Proof.
  unfold wants, wants_shift, wants_reduce, wants_accept.
  rewrite tr_next_symbol, tr_is_complete, tr_public, tr_private. tauto.
Qed.
Lemma tr_wants_reduce it la : wants_reduce g' it la <-> wants_reduce g it la.
Proof. unfold wants_reduce. rewrite tr_is_complete, tr_private. tauto. Qed.
Lemma tr_no_detected_conflict states : no_detected_conflict g' states <-> no_detected_conflict g states.
Proof.
  unfold no_detected_conflict, no_clash. split; intros H s st Hs l1 it l2 Hl la b Hw Hb Hb2.
  - apply (H s st Hs l1 it l2 Hl la b); auto; [apply tr_wants_reduce | apply tr_wants]; auto.
  - apply (H s st Hs l1 it l2 Hl la b); auto; [apply tr_wants_reduce | apply tr_wants]; auto.
Qed.
End Transfer.
End Actions.

(** ** Arrays *)
Lemma nth_error_mapM {X Y} (f : X -> res Y) l l' i x :
  mapM f l = Ok l' -> nth_error l i = Some x -> exists y, nth_error l' i = Some y /\ f x = Ok y.
Proof.
  intros H Hi. apply mapM_Forall2 in H. revert i Hi. induction H; intros [|i] Hi; simpl in *; try discriminate.
  - inversion Hi; subst; eauto.
  - eauto.
Qed.
Lemma mapM_length_ {X Y} (f : X -> res Y) l l' : mapM f l = Ok l' -> List.length l' = List.length l.
Proof. intro H. apply mapM_Forall2 in H. symmetry. eapply Forall2_length_; eauto. Qed.
Lemma nth_error_mapM_inv {X Y} (f : X -> res Y) l l' i y :
  mapM f l = Ok l' -> nth_error l' i = Some y -> exists x, nth_error l i = Some x /\ f x = Ok y.
Proof.
  intros H Hi. apply mapM_Forall2 in H. revert i Hi. induction H; intros [|i] Hi; simpl in *; try discriminate.
  - inversion Hi; subst; eauto.
  - eauto.
Qed.

Lemma nth_error_seq i n : nth_error (seq 0 n) i = if i <? n then Some i else None.
Proof.
  destruct (Nat.ltb_spec i n) as [H|H].
  - rewrite (nth_error_nth' _ 0) by (rewrite seq_length; auto). rewrite seq_nth; auto.
  - apply nth_error_None. rewrite seq_length. auto.
Qed.

(** Column of a lookahead in ACTION. *)
Definition la_col (n_terms : nat) (la : option nat) : nat := match la with Some t => t | None => n_terms end.
Definition la_in_range (n_terms : nat) (la : option nat) : Prop :=
  match la with Some t => t < n_terms | None => True end.

Lemma action_table_vec_get g' tb s la :
  s < tb_n_states tb -> la_in_range (n_terminals g') la ->
  exists row, nth_error (action_table_vec g' tb) s = Some row /\ List.length row = n_terminals g' + 1 /\
    nth_error row (la_col (n_terminals g') la) = Some (get_action tb s la).
Proof.
  intros Hs Hla. unfold action_table_vec, terminal_indices.
  erewrite map_nth_error; [|rewrite nth_error_seq; destruct (Nat.ltb_spec s (tb_n_states tb)); [reflexivity|lia]].
  eexists; split; [reflexivity|]. rewrite app_length, map_length, seq_length. split; auto.
  destruct la as [t|]; simpl in *.
  - rewrite nth_error_app1 by (rewrite map_length, seq_length; auto).
    erewrite map_nth_error; [reflexivity|]. rewrite nth_error_seq. destruct (Nat.ltb_spec t (n_terminals g')); [auto|lia].
  - rewrite nth_error_app2; rewrite map_length, seq_length; auto. rewrite Nat.sub_diag. reflexivity.
Qed.

(** Everything known about the result of [generate_lr1_parser]. *)
Section Generated.
Context {A : Type}.

(** An ACTION entry denotes an abstract action. *)
Definition entry_for (g : grammar A) (variants : list nat) (fns : list (sem_fn A)) (a : option aact)
  (r : option rt_action) : Prop :=
  match a, r with
  | None, None => True
  | Some (AShift n), Some (RShift n') => n = n'
  | Some (AReduce n p), Some (RReduce n' k idx) => n = n' /\ exists pr f,
      get_production g n p = Some pr /\ k = List.length (rhs pr) /\ nth_error fns idx = Some f /\
      fn_for variants n pr f
  | Some AAccept, Some RAccept => True
  | _, _ => False
  end.

Definition parser_for (g : grammar A) (fns : list (sem_fn A)) (entries : list (nat * nat)) (pr : parser_struct)
  (nt e : nat) : Prop :=
  exists N f q, In (nt, e) entries /\ get_non_terminal g nt = Some N /\ pr_name pr = nt_name N /\
    pr_return_ty pr = nt_return_ty N /\ pr_init_state pr = e /\
    variant_of (variant_names g) nt = Some (pr_extract_variant pr) /\
    get_production g nt 0 = Some q /\ nth_error fns (pr_action_idx pr) = Some f /\
    fn_for (variant_names g) nt q f.

Record generated_ok (g : grammar A) (conv : list conversion) (tbl : first_table) (states : list lr1_state)
  (entries : list (nat * nat)) (act : nat -> option nat -> option aact) (gp : generated A) : Prop := {
  gn_just : justified g tbl;
  gn_aut : automaton_ok g tbl states entries;
  gn_act : act_ok g states act;
  gn_action : forall s la, s < List.length states -> la_in_range (n_terminals g) la ->
    exists r, index2 (gp_action gp) s (la_col (n_terminals g) la) = Some r /\
      entry_for g (variant_names g) (gp_sem_actions gp) (act s la) r;
  gn_goto : forall s n, s < List.length states -> n < n_non_terminals g ->
    index2 (gp_goto gp) s n = Some (trans states s (NT n));
  gn_parser : forall pr, In pr (gp_parsers gp) -> exists nt e, parser_for g (gp_sem_actions gp) entries pr nt e;
  gn_parser_all : forall nt e, In (nt, e) entries ->
    exists pr, In pr (gp_parsers gp) /\ parser_for g (gp_sem_actions gp) entries pr nt e;
  gn_strs : gp_terminal_strs gp = g_terminals g ++ ["end-of-input"%string];
  gn_expected : forall s, s < List.length states ->
    nth_error (gp_expected gp) s = Some (join (flat_map (fun '(t, str) =>
      match act s (Some t) with Some _ => [str] | None => [] end) (enumerate (g_terminals g))));
  gn_nterm : gp_n_terminals gp = n_terminals g;
  gn_conv : gp_conversions gp = conv
}.

Variable ho : hash_order.
Hypothesis Hho : hash_order_ok ho.

Lemma act_ok_of_table (g : grammar A) variants fns g' tbl states entries (tb : lr_table nat) :
  gen_ok g variants fns g' -> automaton_ok g tbl states entries -> table_ok g' states tb ->
  act_ok g states (fun s la => if s <? List.length states then act_of tb s la else None).
Proof.
  intros Hgo Haut [Hn Hact Hgt]. 
  assert (Hlt : forall s st, nth_error states s = Some st -> s <? List.length states = true).
  { intros s st Hs. apply Nat.ltb_lt. apply nth_error_Some. congruence. }
  constructor.
  - intros s st it t Hs Hi Hnx. destruct (ao_total _ _ _ _ Haut _ _ _ _ Hs Hi Hnx) as (n & Hg).
    exists n. unfold trans. rewrite Hs, (Hlt _ _ Hs). split; auto. unfold act_of.
    rewrite (tv_shift _ _ _ _ _ (Hact _ _ Hs) it (Some t) n); auto.
    exists t. rewrite (tr_next_symbol _ _ _ _ Hgo). auto.
  - intros s st it Hs Hi (H1 & H2 & H3). rewrite (Hlt _ _ Hs). unfold act_of.
    rewrite (tv_accept _ _ _ _ _ (Hact _ _ Hs) it None); auto.
    repeat split; auto. apply (tr_public _ _ _ _ Hgo); auto.
  - intros s st it Hs Hi (H1 & H2). rewrite (Hlt _ _ Hs). unfold act_of.
    destruct (tv_reduce _ _ _ _ _ (Hact _ _ Hs) it (it_la it)) as [(pr & _ & ->)|[(b & n & Hb & Hw)|(b & Hb & Hw)]]; auto.
    + repeat split; [rewrite (tr_is_complete _ _ _ _ Hgo); auto | apply (tr_private _ _ _ _ Hgo); auto].
    + right; left. exists n. rewrite (tv_shift _ _ _ _ _ (Hact _ _ Hs) b (it_la it) n); auto.
    + right; right. rewrite (tv_accept _ _ _ _ _ (Hact _ _ Hs) b (it_la it)); auto.
  - intros s la a Ha. destruct (s <? List.length states) eqn:E; [|discriminate].
    apply Nat.ltb_lt in E. destruct (nth_error states s) as [st|] eqn:Es; [|apply nth_error_None in Es; lia].
    exists st; split; auto. unfold act_of in Ha. destruct (get_action tb s la) as [x|] eqn:Eg; [|discriminate].
    pose proof (tv_inv _ _ _ _ _ (Hact _ _ Es) _ _ Eg) as Hx. destruct x as [n|nt p ac|]; inversion Ha; subst; clear Ha.
    + destruct Hx as (it & Hi & t & -> & H1 & H2). exists it, t. rewrite (tr_next_symbol _ _ _ _ Hgo) in H1.
      repeat split; auto. unfold trans. rewrite Es. auto.
    + destruct Hx as (it & pr & Hi & (H1 & H2 & H3) & E1 & E2 & _). exists it.
      repeat split; auto; [rewrite <- (tr_is_complete _ _ _ _ Hgo); auto | apply (tr_private _ _ _ _ Hgo); auto].
    + destruct Hx as (it & Hi & H1 & H2 & H3 & ->). split; auto. exists it. repeat split; auto.
      apply (tr_public _ _ _ _ Hgo); auto.
Qed.

Lemma automaton_states_ok (g : grammar A) variants fns g' tbl states entries :
  wf_grammar g -> gen_ok g variants fns g' -> automaton_ok g tbl states entries -> states_ok g' states.
Proof.
  intros Hwf Hgo Haut s st Hs. split; [eapply ao_nodup; eauto|].
  assert (Hlt : s < List.length states) by (apply nth_error_Some; congruence).
  destruct (ao_reach _ _ _ _ Haut s Hlt) as (nt & e & pi & ss & He & Hp).
  destruct (valid_items g tbl states entries Haut nt e He _ _ Hp) as (s' & ss' & st' & Heq & Hs' & Hne & Hi).
  inversion Heq; subst s' ss'. rewrite Hs in Hs'; inversion Hs'; subst st'. split; auto.
  intros it Hit. apply Hi in Hit. destruct Hit as (d & Hv).
  destruct (valid_prod g Hwf tbl states entries Haut nt e He _ _ _ Hv) as (pr & Hpr & _).
  destruct (go_prod _ _ _ _ Hgo _ _ _ Hpr) as (pr' & f & Hpr' & _).
  pose proof (get_production_nt _ _ _ _ Hpr') as (N' & HN' & _).
  exists N', pr'. repeat split; auto. intro Hpub.
  destruct (go_nt_inv _ _ _ _ Hgo _ _ HN') as (N & HN & (_ & _ & E & El)).
  destruct (wfg_pub g Hwf _ _ HN) as (q & m & Hq & _); [congruence|]. rewrite El, Hq. auto.
Qed.

(** The steps of a successful generation. *)
Lemma generate_steps fuel (g : grammar A) te gp :
  generate_lr1_parser ho fuel g te = Ok gp ->
  exists tbl states entries fns g' tb gv,
    generate_first_table ho fuel g = Ok tbl /\
    generate_lr1_automaton ho fuel g tbl = Ok (states, entries) /\
    generate_semantic_action_table g (variant_names g) = Ok (fns, g') /\
    build_lr1_table ho g' states = Ok tb /\
    generate_action_array g' (action_table_vec g' tb) (tb_n_states tb) (n_terminals g) = Ok (gp_action gp) /\
    generate_goto_vec tb (n_non_terminals g') = Ok gv /\
    generate_goto_array gv = Ok (gp_goto gp) /\
    mapM (gen_parser g' (variant_names g)) (ho_entries ho entries) = Ok (gp_parsers gp) /\
    gp_sem_actions gp = fns /\ gp_expected gp = expected_state_tokens g' tb /\
    gp_terminal_strs gp = token_to_text g' /\ gp_n_terminals gp = n_terminals g /\ gp_conversions gp = te_conversions te.
Proof.
  unfold generate_lr1_parser. intro H.
  apply bind_Ok in H. destruct H as (tbl & H1 & H).
  apply bind_Ok in H. destruct H as ((states & entries) & H2 & H).
  apply bind_Ok in H. destruct H as ((fns & g') & H3 & H).
  apply bind_Ok in H. destruct H as (tb & H4 & H).
  apply bind_Ok in H. destruct H as (ar & H5 & H).
  apply bind_Ok in H. destruct H as (gv & H6 & H).
  apply bind_Ok in H. destruct H as (gt & H7 & H).
  apply bind_Ok in H. destruct H as (u & _ & H).
  apply bind_Ok in H. destruct H as (ps & H8 & H).
  inversion H; subst; clear H. simpl.
  exists tbl, states, entries, fns, g', tb, gv. repeat (split; auto).
Qed.

Theorem generate_lr1_parser_ok fuel (g : grammar A) te gp :
  wf_grammar g -> generate_lr1_parser ho fuel g te = Ok gp ->
  exists tbl states entries act, generated_ok g (te_conversions te) tbl states entries act gp /\
    generate_first_table ho fuel g = Ok tbl /\
    no_detected_conflict g states /\ generate_lr1_automaton ho fuel g tbl = Ok (states, entries).
Proof.
  intros Hwf H. destruct (generate_steps _ _ _ _ H) as
    (tbl & states & entries & fns & g' & tb & gv & H1 & H2 & H3 & H4 & H5 & H6 & H7 & H8 & E1 & E2 & E3 & E4 & E5).
  pose proof (generate_first_table_ok g ho (hok_terms _ Hho) _ _ H1) as [Hj _].
  pose proof (generate_lr1_automaton_ok g tbl ho Hho Hwf _ _ _ H2) as Haut.
  pose proof (generate_semantic_action_table_spec _ _ _ _ H3) as Hgo.
  pose proof (automaton_states_ok _ _ _ _ _ _ _ Hwf Hgo Haut) as Hso.
  destruct (build_lr1_table_spec g' ho Hho states Hso) as (B1 & _ & _).
  destruct (B1 _ H4) as (Hnc & Htab). clear B1.
  pose proof (act_ok_of_table _ _ _ _ _ _ _ _ Hgo Haut Htab) as Hact.
  assert (Hnt : n_terminals g' = n_terminals g) by (unfold n_terminals; rewrite (go_terminals _ _ _ _ Hgo); auto).
  pose proof (to_n _ _ _ Htab) as Hns.
  exists tbl, states, entries, (fun s la => if s <? List.length states then act_of tb s la else None).
  split; [constructor; auto|split; [auto|split; [|exact H2]]].
  - (* ACTION *)
    intros s la Hs Hla.
    assert (Hsb : s <? List.length states = true) by (apply Nat.ltb_lt; auto). rewrite Hsb.
    unfold generate_action_array in H5.
    destruct (Nat.eqb (List.length (action_table_vec g' tb)) (tb_n_states tb)); [|discriminate].
    destruct (action_table_vec_get g' tb s la) as (row & R1 & R2 & R3); [lia|rewrite Hnt; auto|].
    destruct (nth_error_mapM _ _ _ _ _ H5 R1) as (row' & R4 & R5).
    destruct (Nat.eqb (List.length row) (n_terminals g + 1)); [|discriminate].
    destruct (nth_error_mapM _ _ _ _ _ R5 R3) as (r & R6 & R7).
    exists r. unfold index2. rewrite R4, <- Hnt. split; auto.
    unfold act_of. unfold emit_action in R7. destruct (get_action tb s la) as [[n|n p a|]|] eqn:Ea; simpl in *.
    + apply bind_Ok in R7. destruct R7 as (n' & R7 & R8). apply u32_spec in R7. destruct R7 as [-> _].
      inversion R8; subst. simpl. auto.
    + destruct (get_production g' n p) as [pr'|] eqn:Ep; [|discriminate].
      apply bind_Ok in R7. destruct R7 as (k & R7 & R8). apply u16_spec in R7. destruct R7 as [-> _].
      apply bind_Ok in R8. destruct R8 as (n' & R8 & R9). apply u16_spec in R8. destruct R8 as [-> _].
      inversion R9; subst; clear R9. simpl. split; auto.
      assert (Hst : exists st, nth_error states s = Some st).
      { destruct (nth_error states s) eqn:Es; eauto. apply nth_error_None in Es. lia. }
      destruct Hst as (st & Hst).
      destruct (tv_inv _ _ _ _ _ (to_act _ _ _ Htab _ _ Hst) _ _ Ea) as (it & pr2 & _ & _ & _ & _ & Hp2 & ->).
      rewrite Ep in Hp2; inversion Hp2; subst pr2.
      destruct (go_prod_inv _ _ _ _ Hgo _ _ _ Ep) as (pr & Hpr & Hsy).
      destruct (go_prod _ _ _ _ Hgo _ _ _ Hpr) as (pr3 & f & G1 & G2 & G3 & G4).
      rewrite Ep in G1; inversion G1; subst pr3.
      exists pr, f. split; auto. split; [unfold rhs; rewrite map_length, Hsy; auto|auto].
    + inversion R7; subst. simpl. auto.
    + inversion R7; subst. simpl. auto.
  - (* GOTO *)
    intros s n Hs Hn. unfold generate_goto_vec in H6. unfold generate_goto_array in H7.
    rewrite (go_len _ _ _ _ Hgo) in H6.
    assert (Q1 : nth_error (seq 0 (tb_n_states tb)) s = Some s).
    { rewrite nth_error_seq. destruct (Nat.ltb_spec s (tb_n_states tb)); [auto|lia]. }
    destruct (nth_error_mapM _ _ _ _ _ H6 Q1) as (row & Q2 & Q3).
    assert (Q4 : nth_error (seq 0 (n_non_terminals g)) n = Some n).
    { rewrite nth_error_seq. destruct (Nat.ltb_spec n (n_non_terminals g)); [auto|lia]. }
    destruct (nth_error_mapM _ _ _ _ _ Q3 Q4) as (x & Q5 & Q6).
    apply bind_Ok in Q6. destruct Q6 as (n' & Q6 & Q7). apply u32_spec in Q6. destruct Q6 as [-> _].
    inversion Q7; subst x; clear Q7.
    destruct (nth_error_mapM _ _ _ _ _ H7 Q2) as (row' & Q8 & Q9).
    destruct (nth_error_mapM _ _ _ _ _ Q9 Q5) as (x & Q10 & Q11).
    unfold index2. rewrite Q8, Q10.
    assert (Hst : exists st, nth_error states s = Some st).
    { destruct (nth_error states s) eqn:Es; eauto. apply nth_error_None in Es. lia. }
    destruct Hst as (st & Hst). unfold trans. rewrite Hst, <- (to_goto _ _ _ Htab _ _ n Hst).
    destruct (get_goto tb s n) as [j|]; [|inversion Q11; auto].
    apply bind_Ok in Q11. destruct Q11 as (j' & Q11 & Q12). apply u32_spec in Q11. destruct Q11 as [-> _].
    inversion Q12; auto.
  - (* parsers *)
    intros pr Hpr. apply In_nth_error in Hpr. destruct Hpr as (i & Hi).
    destruct (nth_error_mapM_inv _ _ _ _ _ H8 Hi) as ((nt & e) & Hent & Hg).
    apply nth_error_In in Hent. apply (Permutation_in _ (hok_entries _ Hho entries)) in Hent.
    exists nt, e. unfold parser_for. revert Hg.
    simpl. intro Hg. apply bind_Ok in Hg. destruct Hg as (st & Hst & Hg).
    apply u32_spec in Hst. destruct Hst as [-> _].
    destruct (get_non_terminal g' nt) as [N'|] eqn:EN; [|discriminate].
    destruct (is_raw (nt_name N')); [discriminate|].
    destruct (get_production g' nt 0) as [q'|] eqn:Eq; [|discriminate].
    destruct (variant_of (variant_names g) nt) as [v|] eqn:Ev; [|discriminate].
    inversion Hg; subst pr; simpl.
    destruct (go_nt_inv _ _ _ _ Hgo _ _ EN) as (N & HN & (S1 & S2 & S3 & S4)).
    destruct (go_prod_inv _ _ _ _ Hgo _ _ _ Eq) as (q & Hq & _).
    destruct (go_prod _ _ _ _ Hgo _ _ _ Hq) as (q2 & f & G1 & G2 & G3 & G4).
    rewrite Eq in G1; inversion G1; subst q2. rewrite E1. exists N, f, q. repeat (split; auto).
  - intros nt e Hent.
    assert (Hent' : In (nt, e) (ho_entries ho entries)).
    { apply (Permutation_in _ (Permutation_sym (hok_entries _ Hho entries))); auto. }
    apply In_nth_error in Hent'. destruct Hent' as (i & Hi).
    destruct (nth_error_mapM _ _ _ _ _ H8 Hi) as (pr & Hpr & Hg).
    exists pr. split; [eapply nth_error_In; eauto|]. revert Hg. unfold parser_for.
    simpl. intro Hg. apply bind_Ok in Hg. destruct Hg as (st & Hst & Hg).
    apply u32_spec in Hst. destruct Hst as [-> _].
    destruct (get_non_terminal g' nt) as [N'|] eqn:EN; [|discriminate].
    destruct (is_raw (nt_name N')); [discriminate|].
    destruct (get_production g' nt 0) as [q'|] eqn:Eq; [|discriminate].
    destruct (variant_of (variant_names g) nt) as [v|] eqn:Ev; [|discriminate].
    inversion Hg; subst pr; simpl.
    destruct (go_nt_inv _ _ _ _ Hgo _ _ EN) as (N & HN & (S1 & S2 & S3 & S4)).
    destruct (go_prod_inv _ _ _ _ Hgo _ _ _ Eq) as (q & Hq & _).
    destruct (go_prod _ _ _ _ Hgo _ _ _ Hq) as (q2 & f & G1 & G2 & G3 & G4).
    rewrite Eq in G1; inversion G1; subst q2. rewrite E1. exists N, f, q. repeat (split; auto).
  - rewrite E3. unfold token_to_text. rewrite (go_terminals _ _ _ _ Hgo). auto.
  - intros s Hs. rewrite E2. unfold expected_state_tokens.
    erewrite map_nth_error; [|rewrite nth_error_seq; destruct (Nat.ltb_spec s (tb_n_states tb)); [reflexivity|lia]].
    rewrite (go_terminals _ _ _ _ Hgo).
    assert (Hsb : s <? List.length states = true) by (apply Nat.ltb_lt; auto).
    do 2 f_equal. apply flat_map_ext. intros [t str]. rewrite Hsb. unfold act_of.
    destruct (get_action tb s (Some t)) as [[]|]; auto.
  - (* conflicts, transferred *)
    eapply tr_no_detected_conflict; eauto.
Qed.
End Generated.
