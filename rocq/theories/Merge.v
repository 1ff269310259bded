(** * Merge: lowering a block with repeated declarations (C33) *)
From Verif Require Export LowerAlike UserProofs.

Lemma mapM_app {X Y} (f : X -> res Y) l1 : forall l2 r1 r2, mapM f l1 = Ok r1 -> mapM f l2 = Ok r2 -> mapM f (l1 ++ l2) = Ok (r1 ++ r2).
Proof.
  induction l1 as [|x l1 IH]; intros l2 r1 r2 H1 H2; simpl in *.
  - injection H1 as <-. auto.
  - destruct (f x); try discriminate. simpl in *. destruct (mapM f l1) eqn:E; try discriminate. simpl in H1. injection H1 as <-.
    rewrite (IH l2 _ _ eq_refl H2). auto.
Qed.
Lemma mapM_flat_map {X Y Z} (f : Y -> res Z) (h : X -> list Y) (k : X -> list Z) l : (forall x, In x l -> mapM f (h x) = Ok (k x)) ->
  mapM f (flat_map h l) = Ok (flat_map k l).
Proof. induction l; simpl; intro H; auto. apply mapM_app; auto. Qed.
Lemma mapM_in_ext {X Y} (f h : X -> res Y) l : (forall x, In x l -> f x = h x) -> mapM f l = mapM h l.
Proof. induction l; simpl; intro H; auto. rewrite H by auto. rewrite IHl; auto. Qed.

Lemma Forall2_nth {X Y} (R : X -> Y -> Prop) l : forall l', List.length l = List.length l' ->
  (forall n x y, nth_error l n = Some x -> nth_error l' n = Some y -> R x y) -> Forall2 R l l'.
Proof.
  induction l as [|x l IH]; intros [|y l'] Hl H; try discriminate; constructor.
  - apply (H 0); auto.
  - apply IH; [simpl in Hl; lia|]. intros n a b Ha Hb. apply (H (S n)); auto.
Qed.

Section Merge.
Context {A : Type}.
Notation nonterm := (ast_non_terminal A).
Variable fresh : nat -> string.

(** The index of the last declaration of a name. *)
Fixpoint last_index (x : string) (l : list (nonterm * nat)) : option nat :=
  match l with
  | [] => None
  | (N, i) :: r => match last_index x r with Some j => Some j | None => if named x N then Some i else None end
  end.
Lemma insert_slots_last x l : forall m, map_get String.eqb x (insert_slots l m) = match last_index x l with Some j => Some j | None => map_get String.eqb x m end.
Proof.
  induction l as [|[N i] l IH]; intro m; simpl; auto. unfold insert_slots in *. simpl. rewrite IH.
  destruct (last_index x l); auto. unfold named. destruct (String.eqb_spec (an_name N) x) as [->|H].
  - apply map_get_insert_same, String.eqb_eq.
  - apply map_get_insert_other; [apply String.eqb_eq|]. auto.
Qed.
Lemma nt_indices_last nts x : map_get String.eqb x (nt_indices_of nts) = last_index x (slots 0 nts).
Proof. unfold nt_indices_of. rewrite insert_slots_last. destruct (last_index x (slots 0 nts)); auto. Qed.
Lemma last_index_none x l k : last_index x (slots k l) = None <-> existsb (named x) l = false.
Proof.
  revert k. induction l as [|N l IH]; intro k; simpl; [tauto|]. specialize (IH (k + width N)).
  destruct (last_index x (slots (k + width N) l)) eqn:E.
  - destruct (existsb (named x) l) eqn:E'.
    + rewrite orb_true_r. split; discriminate.
    + destruct IH as [_ IH]. specialize (IH eq_refl). discriminate.
  - destruct IH as [IH _]. rewrite (IH eq_refl), orb_false_r. destruct (named x N); split; congruence.
Qed.
Lemma named_In x (l : list nonterm) : existsb (named x) l = true <-> In x (map an_name l).
Proof.
  rewrite existsb_exists, in_map_iff. unfold named. split; intros (N & H1 & H2); exists N.
  - apply String.eqb_eq in H2. auto.
  - subst. split; auto. apply String.eqb_refl.
Qed.

Lemma merge_length (all l : list nonterm) : forall i, List.length (merge_from fresh all i l) = List.length l.
Proof. induction l; intro i; simpl; auto. Qed.
(** Corresponding declarations have the same visibility and type. *)
Lemma merge_head (all l : list nonterm) : forall i, Forall2 (fun N M => an_pub N = an_pub M /\ an_type N = an_type M) l (merge_from fresh all i l).
Proof. induction l as [|N l IH]; intro i; simpl; constructor; auto. destruct (existsb _ _); auto. Qed.
Lemma merge_last (all : list nonterm) x l : (forall i, fresh i <> x) -> forall i k, last_index x (slots k (merge_from fresh all i l)) = last_index x (slots k l).
Proof.
  intro Hf. induction l as [|N l IH]; intros i k; simpl; auto.
  set (N' := if existsb (named (an_name N)) l then _ else _).
  assert (Hw : width N' = width N) by (unfold N', width; destruct (existsb _ _); auto). rewrite Hw, IH.
  destruct (last_index x (slots (k + width N) l)) eqn:E; auto.
  unfold N'. destruct (existsb (named (an_name N)) l) eqn:E'; auto.
  apply last_index_none in E. unfold named at 1 2. simpl. destruct (String.eqb_spec (fresh i) x) as [Q|_]; [destruct (Hf _ Q)|].
  destruct (String.eqb_spec (an_name N) x) as [<-|_]; auto. congruence.
Qed.
Lemma merge_names (all l : list nonterm) x : forall i, In x (map an_name l) -> In x (map an_name (merge_from fresh all i l)).
Proof.
  induction l as [|N l IH]; intros i Hx; simpl in *; auto. destruct (existsb (named (an_name N)) l) eqn:E; simpl.
  - right. apply IH. destruct Hx as [<-|Hx]; auto. apply named_In; auto.
  - destruct Hx as [<-|Hx]; auto.
Qed.
Lemma merge_names_inv (all l : list nonterm) x : forall i, In x (map an_name (merge_from fresh all i l)) -> In x (map an_name l) \/ exists j, i <= j /\ x = fresh j.
Proof.
  induction l as [|N l IH]; intros i Hx; simpl in *; auto. destruct Hx as [Hx|Hx].
  - destruct (existsb _ l); simpl in Hx; eauto.
  - destruct (IH _ Hx) as [?|(j & ? & ?)]; auto. right. exists j. split; auto. lia.
Qed.
Lemma merge_nodup (all l : list nonterm) : (forall i j, fresh i = fresh j -> i = j) -> (forall i, ~ In (fresh i) (map an_name l)) ->
  forall i, NoDup (map an_name (merge_from fresh all i l)).
Proof.
  intros Hi Hf. induction l as [|N l IH]; intro i; simpl; constructor.
  - intro Hin. apply merge_names_inv in Hin. destruct (existsb (named (an_name N)) l) eqn:E; simpl in Hin.
    + destruct Hin as [Hin|(j & Hj & Q)]; [apply (Hf i); simpl; auto|]. apply Hi in Q. lia.
    + destruct Hin as [Hin|(j & Hj & Q)]; [apply named_In in Hin; congruence|]. apply (Hf j). simpl. auto.
  - apply IH. intros j Hin. apply (Hf j). simpl; auto.
Qed.
Lemma merge_In_inv (all l : list nonterm) M : forall i, In M (merge_from fresh all i l) -> forall p, In p (an_productions M) -> exists N, In N all /\ In p (an_productions N).
Proof.
  induction l as [|N l IH]; intros i HM p Hp; simpl in *; [contradiction|]. destruct HM as [<-|HM]; [|eauto].
  destruct (existsb _ l); simpl in Hp; [contradiction|]. apply in_flat_map in Hp. destruct Hp as (K & HK & Hp). apply filter_In in HK. exists K. tauto.
Qed.
Lemma merge_In (all l : list nonterm) N p : In N l -> In N all -> In p (an_productions N) -> forall i, exists M, In M (merge_from fresh all i l) /\ In p (an_productions M).
Proof.
  intros HN Ha Hp. assert (Hn : In (an_name N) (map an_name l)) by (apply in_map; auto). clear HN.
  induction l as [|K l IH]; intro i; simpl in *; [contradiction|].
  destruct (existsb (named (an_name K)) l) eqn:E; simpl.
  - destruct (IH ltac:(destruct Hn as [Q|?]; [rewrite <- Q; apply named_In; auto|auto]) (S i)) as (M & HM & Hq). eauto.
  - destruct Hn as [Q|Hn].
    + eexists. split; [left; reflexivity|]. simpl. apply in_flat_map. exists N. split; auto. apply filter_In. split; auto. unfold named. rewrite Q. apply String.eqb_refl.
    + destruct (IH Hn (S i)) as (M & HM & Hq). eauto.
Qed.

(** ** Lowering *)
Section Lower.
Variables (nts : list nonterm) (cs : list conversion).
Hypothesis Hfresh : fresh_for fresh nts.
Notation nts' := (merge fresh nts).

Lemma merge_symbol_ok s : used nts (unnamed s) -> symbol_ok nts cs s <-> symbol_ok nts' cs s.
Proof.
  destruct Hfresh as (F1 & F2 & F3 & _). intro Hu. unfold symbol_ok. destruct (unnamed s) as [t|n|op s'|b s']; try tauto. split; intro H.
  - apply merge_names; auto.
  - destruct (merge_names_inv nts nts n 0 H) as [?|(j & _ & ->)]; auto. destruct (F3 j Hu).
Qed.
Lemma merge_supported : supported nts cs <-> supported nts' cs.
Proof.
  unfold supported. split; intros (S1 & S2 & S3); (split; [auto|split; [auto|]]); intros N p HN Hp.
  - destruct (merge_In_inv nts nts N 0 HN p Hp) as (K & HK & Hk). destruct (S3 K p HK Hk) as [Hs Ha]. split; auto.
    rewrite Forall_forall in *. intros s Hin. apply merge_symbol_ok; auto. exists K, p, s. auto.
  - destruct (merge_In nts nts N p HN HN Hp 0) as (K & HK & Hk). destruct (S3 K p HK Hk) as [Hs Ha]. split; auto.
    rewrite Forall_forall in *. intros s Hin. apply merge_symbol_ok; auto. exists N, p, s. auto.
Qed.

Variables (g h : grammar (lexpr A)).
Hypothesis Hg : lower nts cs = Ok g.
Hypothesis Hh : lower nts' cs = Ok h.

Lemma lower_merge_alike : g_terminals g = g_terminals h /\
  Forall2 (fun N M => nt_alike eq N M /\ nt_return_ty N = nt_return_ty M /\
    (nt_public N = true -> exists D D', In (D, D') (combine nts nts') /\ an_pub D = true /\ nt_name N = an_name D /\ nt_name M = an_name D'))
    (g_nts g) (g_nts h).
Proof.
  destruct Hfresh as (F1 & F2 & F3 & _).
  pose proof (lower_spec nts cs) as H1. rewrite Hg in H1. destruct H1 as (ti & [L1 L2 L3 L4]).
  pose proof (lower_spec nts' cs) as H2. rewrite Hh in H2. destruct H2 as (ti' & [M1 M2 M3 M4]).
  split; [congruence|].
  assert (Hti : forall t, map_get String.eqb t ti = map_get String.eqb t ti').
  { intro t. destruct (map_get String.eqb t ti) as [i|] eqn:E.
    - apply (ti_get _ _ _ L2) in E. apply (ti_get _ _ _ M2) in E. auto.
    - destruct (map_get String.eqb t ti') as [i|] eqn:E'; auto. apply (ti_get _ _ _ M2) in E'. apply (ti_get _ _ _ L2) in E'. congruence. }
  assert (Hni : forall x, (forall i, fresh i <> x) -> map_get String.eqb x (nt_indices_of nts') = map_get String.eqb x (nt_indices_of nts)).
  { intros x Hx. rewrite !nt_indices_last. apply merge_last; auto. }
  assert (Hlp : forall N p, In N nts -> In p (an_productions N) -> lprod (nt_indices_of nts') ti' p = lprod (nt_indices_of nts) ti p).
  { intros N p HN Hp. unfold lprod. f_equal. apply mapM_in_ext. intros s Hs. rewrite !lower_symbol_unnamed.
    assert (Hu : used nts (unnamed s)) by (exists N, p, s; auto).
    destruct (unnamed s) as [t|n|op s'|b s']; auto; [rewrite Hti; auto|]. rewrite Hni; auto. intros i <-. apply (F3 i); auto. }
  assert (Hlps : forall N, In N nts -> mapM (lprod (nt_indices_of nts') ti') (an_productions N) = Ok (lprods (nt_indices_of nts) ti N)).
  { intros N HN. rewrite (mapM_in_ext _ (lprod (nt_indices_of nts) ti)) by (intros p Hp; eapply Hlp; eauto).
    unfold lprods. destruct (L3 N HN) as (ps & ->). auto. }
  assert (Hfil : forall x, mapM (lprod (nt_indices_of nts') ti') (flat_map an_productions (filter (named x) nts)) =
                   Ok (flat_map (lprods (nt_indices_of nts) ti) (filter (named x) nts))).
  { intro x. apply mapM_flat_map. intros N HN. apply Hlps. apply filter_In in HN. tauto. }
  assert (Hnil : forall N' : nonterm, an_productions N' = [] -> lprods (nt_indices_of nts') ti' N' = []) by (intros N' E; unfold lprods; rewrite E; auto).
  assert (Hadd : forall n, added (nt_indices_of nts') ti' nts' n = added (nt_indices_of nts) ti nts n).
  { intro n. unfold added.
    destruct (find (fun N => opt_nat_eqb (map_get String.eqb (an_name N) (nt_indices_of nts)) (Some n)) nts) as [N|] eqn:Ef.
    - apply find_some in Ef. destruct Ef as [HN Hn]. set (x := an_name N) in *.
      assert (Hidx : map_get String.eqb x (nt_indices_of nts) = Some n).
      { destruct (map_get String.eqb x (nt_indices_of nts)); simpl in Hn; try discriminate. apply Nat.eqb_eq in Hn. congruence. }
      assert (Huniq : forall y, map_get String.eqb y (nt_indices_of nts) = Some n -> y = x).
      { intros y Hy. destruct (nt_indices_inv _ _ _ Hy) as (K & HK & <-). destruct (nt_indices_inv _ _ _ Hidx) as (K' & HK' & <-).
        f_equal. eapply slots_inj; eauto. }
      assert (Htest : forall y, opt_nat_eqb (map_get String.eqb y (nt_indices_of nts)) (Some n) = String.eqb y x).
      { intro y. destruct (String.eqb_spec y x) as [->|Hne]; [rewrite Hidx; apply Nat.eqb_refl|].
        destruct (map_get String.eqb y (nt_indices_of nts)) as [k|] eqn:E; simpl; auto. apply Nat.eqb_neq. intros ->. auto. }
      transitivity (flat_map (lprods (nt_indices_of nts) ti) (filter (named x) nts)).
      + unfold merge.
        assert (Hgen : forall l i, incl (map an_name l) (map an_name nts) -> flat_map (fun N => if opt_nat_eqb (map_get String.eqb (an_name N) (nt_indices_of nts')) (Some n)
                    then lprods (nt_indices_of nts') ti' N else []) (merge_from fresh nts i l) =
                  if existsb (named x) l then flat_map (lprods (nt_indices_of nts) ti) (filter (named x) nts) else []).
        { induction l as [|K l IH]; intros i Hin; simpl; auto. rewrite IH by (intros y Hy; apply Hin; right; auto).
          assert (HK : forall i, fresh i <> an_name K) by (intros j Q; apply (F2 j); rewrite Q; apply Hin; left; auto).
          destruct (existsb (named (an_name K)) l) eqn:E.
          - cbn [an_name]. rewrite (Hnil {| an_pub := an_pub K; an_name := fresh i; an_type := an_type K; an_productions := [] |} eq_refl).
            assert (Hz : forall b : bool, (if b then [] else []) = @nil (production (lexpr A))) by (intros []; auto). rewrite Hz. simpl.
            destruct (named x K) eqn:EK; simpl; auto. unfold named in EK. apply String.eqb_eq in EK. rewrite EK in E. rewrite E. auto.
          - cbn [an_name]. rewrite Hni by exact HK. rewrite Htest. change (String.eqb (an_name K) x) with (named x K).
            destruct (named x K) eqn:EK; simpl; auto. unfold named in EK. apply String.eqb_eq in EK. rewrite EK in E |- *. rewrite E, app_nil_r.
            unfold lprods at 1. cbn [an_productions]. rewrite Hfil. auto. }
        rewrite Hgen by apply incl_refl. assert (Hx : existsb (named x) nts = true) by (apply named_In; apply in_map; auto). rewrite Hx. auto.
      + assert (Hgen2 : forall l : list nonterm, flat_map (lprods (nt_indices_of nts) ti) (filter (named x) l) =
                  flat_map (fun N => if opt_nat_eqb (map_get String.eqb (an_name N) (nt_indices_of nts)) (Some n) then lprods (nt_indices_of nts) ti N else []) l).
        { clear - Htest. induction l as [|K l IH]; cbn [filter flat_map]; auto. rewrite Htest. unfold named at 1. destruct (String.eqb (an_name K) x); cbn [flat_map]; rewrite IH; auto. }
        apply Hgen2.
    - pose proof (find_none _ _ Ef) as Hno. cbn beta in Hno.
      transitivity (@nil (production (lexpr A))).
      + unfold merge. assert (Hgen : forall l i, incl (map an_name l) (map an_name nts) -> flat_map (fun N => if opt_nat_eqb (map_get String.eqb (an_name N) (nt_indices_of nts')) (Some n)
                    then lprods (nt_indices_of nts') ti' N else []) (merge_from fresh nts i l) = []).
        { induction l as [|K l IH]; intros i Hin; simpl; auto. rewrite IH by (intros y Hy; apply Hin; right; auto). rewrite app_nil_r.
          assert (HK : forall i, fresh i <> an_name K) by (intros j Q; apply (F2 j); rewrite Q; apply Hin; left; auto).
          destruct (existsb (named (an_name K)) l) eqn:E; simpl.
          - unfold lprods. simpl. destruct (opt_nat_eqb _ _); auto.
          - rewrite Hni by exact HK. assert (Hk : In (an_name K) (map an_name nts)) by (apply Hin; left; auto).
            apply in_map_iff in Hk. destruct Hk as (K' & Q & HK'). rewrite <- Q, (Hno K' HK'). auto. }
        apply Hgen, incl_refl.
      + revert Hno. generalize (nt_indices_of nts) as ni. intros ni Hno. clear - Hno. induction nts as [|K l IH]; simpl; auto. rewrite (Hno K) by (left; auto). simpl. apply IH. intros x Hx. apply Hno. right; auto. }
  assert (Hsk : Forall2 (fun N M => nt_public N = nt_public M /\ nt_productions N = nt_productions M /\ nt_return_ty N = nt_return_ty M /\
      (nt_public N = true -> exists D D', In (D, D') (combine nts nts') /\ an_pub D = true /\ nt_name N = an_name D /\ nt_name M = an_name D'))
      (skeleton 0 nts) (skeleton 0 nts')).
  { unfold skeleton. pose proof (merge_head nts nts 0) as Hm. fold (merge fresh nts) in Hm.
    assert (Hinc : incl (combine nts nts') (combine nts nts')) by apply incl_refl. revert Hm Hinc. generalize (combine nts nts') at 2 3 as big.
    generalize (merge fresh nts) as ms. generalize 0 as k. clear.
    induction nts as [|N l IH]; intros k ms big Hm Hinc; inversion Hm as [|? M ? ms' [Hp Ht] Hms]; subst; simpl; auto.
    assert (Hw : width M = width N) by (unfold width; rewrite Hp; auto). rewrite Hw. apply Forall2_app.
    - unfold block. rewrite <- Hp, <- Ht. destruct (an_pub N) eqn:Epub.
      + constructor; [simpl; split; [auto|split; [auto|split; [auto|discriminate]]]|]. constructor; [|constructor]. simpl.
        split; auto. split; auto. split; auto. intros _. exists N, M. split; auto. apply Hinc. simpl; auto.
      + constructor; [simpl; split; [auto|split; [auto|split; [auto|discriminate]]]|constructor].
    - apply IH; auto. intros x Hx. apply Hinc. simpl; auto. }
  assert (Hlen : forall k (g0 : grammar (lexpr A)) (sk : list (non_terminal (lexpr A))) F, (forall n, nth_error (g_nts g0) n = option_map (F n) (nth_error sk n)) -> List.length sk = k -> List.length (g_nts g0) = k).
  { intros k g0 sk F HF <-. apply Nat.le_antisymm.
    - destruct (le_lt_dec (List.length (g_nts g0)) (List.length sk)); auto. exfalso.
      specialize (HF (List.length sk)). assert (nth_error sk (List.length sk) = None) by (apply nth_error_None; auto). rewrite H in HF. simpl in HF. apply nth_error_None in HF. lia.
    - destruct (le_lt_dec (List.length sk) (List.length (g_nts g0))); auto. exfalso.
      specialize (HF (List.length (g_nts g0))). assert (E : nth_error (g_nts g0) (List.length (g_nts g0)) = None) by (apply nth_error_None; auto). rewrite E in HF.
      destruct (nth_error sk (List.length (g_nts g0))) eqn:E2; [discriminate|]. apply nth_error_None in E2. lia. }
  apply Forall2_nth; [rewrite (Hlen _ g _ _ L4 eq_refl), (Hlen _ h _ _ M4 eq_refl); apply (Forall2_len _ _ _ Hsk)|].
  intros n N M HN HM. rewrite L4 in HN. rewrite M4, Hadd in HM.
  destruct (nth_error (skeleton 0 nts) n) as [N0|] eqn:EN; [|discriminate].
  destruct (Forall2_nth_error _ _ _ Hsk _ _ EN) as (M0 & EM & (P1 & P2 & P3 & P4)). rewrite EM in HM. injection HN as <-. injection HM as <-.
  unfold with_prods, nt_of. split; [split|]; simpl; auto. rewrite P2. clear. induction (nt_productions M0 ++ _); constructor; auto.
Qed.
End Lower.
End Merge.
