(** * LowerAlike: lowering commutes with renaming (C46) *)
From Verif Require Export Alike AlikeSpec LowerTrees MacroProofs.
From Coq Require Import NArith.

Section Maps.
Variable f : string -> string.
Hypothesis f_inj : forall a b, f a = f b -> a = b.
Definition rekey (m : list (string * nat)) : list (string * nat) := map (fun x => (f (fst x), snd x)) m.
Lemma eqb_rekey a b : String.eqb (f a) (f b) = String.eqb a b.
Proof.
  destruct (String.eqb_spec a b) as [->|H]; [apply String.eqb_refl|]. apply String.eqb_neq. intro E. apply H. auto.
Qed.
Lemma map_get_rekey k m : map_get String.eqb (f k) (rekey m) = map_get String.eqb k m.
Proof. induction m as [|[a v] m IH]; simpl; auto. rewrite eqb_rekey, IH. auto. Qed.
Lemma map_insert_rekey k v m : map_insert String.eqb (f k) v (rekey m) = rekey (map_insert String.eqb k v m).
Proof. induction m as [|[a w] m IH]; simpl; auto. rewrite eqb_rekey. destruct (String.eqb k a); simpl; auto. rewrite IH. auto. Qed.
End Maps.

Lemma foldM_alike2 {X Y B C} P (R : X -> Y -> Prop) (Q : B -> C -> Prop) (f : B -> X -> res B) (h : C -> Y -> res C) l l' :
  Forall2 R l l' -> (forall b c x y, Q b c -> R x y -> alike P Q (f b x) (h c y)) -> forall b c, Q b c -> alike P Q (foldM f l b) (foldM h l' c).
Proof.
  intros H Hf. induction H as [|x y l l' Hxy Hl IH]; intros b c Hbc; simpl; auto.
  eapply alike_bind; [apply Hf; eauto|]. intros b' c' _ _ Hq. apply IH; auto.
Qed.
Lemma mapM_alike2 {X Y X' Y'} P (R : X -> Y -> Prop) (Q : X' -> Y' -> Prop) (f : X -> res X') (h : Y -> res Y') l l' :
  Forall2 R l l' -> (forall x y, R x y -> alike P Q (f x) (h y)) -> alike P (Forall2 Q) (mapM f l) (mapM h l').
Proof.
  intros H Hf. induction H as [|x y l l' Hxy Hl IH]; simpl; auto.
  eapply alike_bind; [apply Hf; eauto|]. intros b' c' _ _ Hq. eapply alike_bind; [apply IH|].
  intros bs cs _ _ Hbs. simpl. auto.
Qed.
Lemma Forall2_update {X Y} (R : X -> Y -> Prop) f h l l' : Forall2 R l l' -> (forall x y, R x y -> R (f x) (h y)) ->
  forall i, Forall2 R (update_nth i f l) (update_nth i h l').
Proof. intros H Hf. induction H; intros [|i]; simpl; auto. Qed.

Section LowerAlike.
Context {A B : Type}.
Variables (rho tau : string -> string).
Hypothesis rho_inj : injective rho.
Hypothesis tau_inj : injective tau.
Variable RA : A -> B -> Prop.
Variable RB : option name -> option name -> Prop.
Variable RT : ty -> ty -> Prop.
Hypothesis RB_refl : forall b, RB b b.

Notation PP := (fun p q => q = rename_panic rho tau p).

Definition bs_alike (b b' : bound_symbol) : Prop := bs_symbol b = bs_symbol b' /\ RB (bs_binder b) (bs_binder b').
Definition lexpr_alike (a : lexpr A) (b : lexpr B) : Prop :=
  match a, b with EUser a, EUser b => RA a b | EVar x, EVar y => x = y | _, _ => False end.
Definition lprod_alike (p : production (lexpr A)) (q : production (lexpr B)) : Prop :=
  Forall2 bs_alike (p_symbols p) (p_symbols q) /\ lexpr_alike (p_action p) (p_action q).
Definition lnt_alike (N : non_terminal (lexpr A)) (M : non_terminal (lexpr B)) : Prop :=
  nt_alike lprod_alike N M /\ RT (nt_return_ty N) (nt_return_ty M) /\ (nt_public N = true -> nt_name M = rho (nt_name N)).
Definition lg_alike (g : grammar (lexpr A)) (h : grammar (lexpr B)) : Prop :=
  Forall2 lnt_alike (g_nts g) (g_nts h) /\ g_terminals h = map tau (g_terminals g).

Lemma lprod_alike_rhs p q : lprod_alike p q -> rhs p = rhs q.
Proof. intros [H _]. unfold rhs. apply Forall2_map_eq. apply (Forall2_weaken _ _ _ _) with (2 := H). intros x y [E _]. auto. Qed.

Lemma lower_symbol_unnamed ni ti s : forall b, lower_symbol ni ti b s =
  match unnamed s with
  | ASNonTerminal nm => match map_get String.eqb nm ni with
      | None => Panic (PUnknownNonTerminal nm)
      | Some i => Ok {| bs_binder := match binder_of s with Some y => Some y | None => b end; bs_symbol := NT i |} end
  | ASTerminal t => match map_get String.eqb t ti with
      | None => Panic (PUnknownTerminal t)
      | Some i => Ok {| bs_binder := match binder_of s with Some y => Some y | None => b end; bs_symbol := T i |} end
  | _ => Panic PRepeatUnsupported
  end.
Proof.
  induction s as [t|n|op s IH|nm s IH]; intro b; simpl; auto. rewrite IH.
  destruct (unnamed s); auto; destruct (map_get _ _ _); auto; destruct (binder_of s); auto.
Qed.
Lemma unnamed_not_named s n s' : unnamed s <> ASNamed n s'.
Proof. induction s; simpl; try discriminate. auto. Qed.
Lemma lower_symbol_alike ni ti s s' : symbol_alike rho tau RB s s' ->
  alike PP bs_alike (lower_symbol ni ti None s) (lower_symbol (rekey rho ni) (rekey tau ti) None s').
Proof.
  intros [Hb Hs]. rewrite !lower_symbol_unnamed.
  assert (Hb' : RB match binder_of s with Some y => Some y | None => None end match binder_of s' with Some y => Some y | None => None end)
    by (destruct (binder_of s), (binder_of s'); auto).
  destruct (unnamed s) eqn:Es; destruct (unnamed s') eqn:Es'; try contradiction; try subst; simpl; auto.
  - rewrite (map_get_rekey tau tau_inj). destruct (map_get _ _ _); simpl; auto. split; auto.
  - rewrite (map_get_rekey rho rho_inj). destruct (map_get _ _ _); simpl; auto. split; auto.
Qed.

Lemma lower_terminal_alike st st' c c' : cv_from c' = tau (cv_from c) ->
  lg_alike (fst st) (fst st') /\ snd st' = rekey tau (snd st) ->
  alike PP (fun x y => lg_alike (fst x) (fst y) /\ snd y = rekey tau (snd x)) (lower_terminal st c) (lower_terminal st' c').
Proof.
  destruct st as [g ti], st' as [h ti']. cbn [fst snd]. intros Hc [[Hn Ht] ->]. unfold lower_terminal, new_terminal.
  assert (Hl : List.length (g_terminals h) = List.length (g_terminals g)) by (rewrite Ht, map_length; auto). rewrite Hl.
  unfold u32_try_from. destruct (_ <? _)%N; simpl; auto. rewrite Hc, (map_get_rekey tau tau_inj).
  destruct (map_get _ _ _); simpl; auto. split.
  - split; simpl; auto. rewrite Ht, map_app. auto.
  - apply map_insert_rekey; auto.
Qed.

Lemma lower_non_terminal_alike st st' N M : declaration_alike rho tau RA RB RT N M ->
  lg_alike (fst st) (fst st') /\ snd st' = rekey rho (snd st) ->
  lg_alike (fst (lower_non_terminal st N)) (fst (lower_non_terminal st' M)) /\
  snd (lower_non_terminal st' M) = rekey rho (snd (lower_non_terminal st N)).
Proof.
  destruct st as [g ni], st' as [h ni']. cbn [fst snd]. intros (Hpub & Hname & Hty & _) [[Hn Ht] ->].
  pose proof (Forall2_len _ _ _ Hn) as Hl. unfold lower_non_terminal. rewrite <- Hpub. destruct (an_pub N).
  - unfold add_non_terminal, add_production. cbn [g_nts g_terminals fst snd]. rewrite !update_nth_last. split.
    + split; auto. cbn [g_nts].
      apply Forall2_app; [apply Forall2_app; auto|]; constructor; auto.
      * split; [split; simpl; auto|]. split; auto. discriminate.
      * split; [split; simpl; auto|].
        -- constructor; auto. split; simpl; auto. constructor; auto. split; simpl; auto.
        -- split; auto.
    + rewrite Hname, <- Hl. apply map_insert_rekey; auto.
  - unfold add_non_terminal. cbn [g_nts g_terminals fst snd]. split.
    + split; auto. cbn [g_nts]. apply Forall2_app; auto. constructor; auto. split; [split; simpl; auto|]. split; auto; discriminate.
    + rewrite Hname, <- Hl. apply map_insert_rekey; auto.
Qed.

Lemma add_production_alike g h i syms syms' a b : lg_alike g h -> Forall2 bs_alike syms syms' -> lexpr_alike a b ->
  lg_alike (add_production g i syms a) (add_production h i syms' b).
Proof.
  intros [Hn Ht] Hs Ha. split; auto. unfold add_production. cbn [g_nts]. apply Forall2_update; auto.
  intros N M [[H1 H2] [H3 H4]]. split; [split|]; simpl; auto. apply Forall2_app; auto. constructor; auto. split; auto.
Qed.
Lemma lower_production_alike ni ti nm g h p q : production_alike rho tau RA RB p q -> lg_alike g h ->
  alike PP lg_alike (lower_production ni ti nm g p) (lower_production (rekey rho ni) (rekey tau ti) (rho nm) h q).
Proof.
  intros [Hs Ha] Hg. unfold lower_production. eapply alike_bind.
  - apply (mapM_alike2 _ _ bs_alike _ _ _ _ Hs). intros x y Hxy. apply lower_symbol_alike; auto.
  - intros syms syms' _ _ Hss. rewrite (map_get_rekey rho rho_inj). destruct (map_get _ _ _); simpl; auto.
    destruct (ap_action p), (ap_action q); try contradiction; simpl; auto. apply add_production_alike; auto.
Qed.
Lemma lower_productions_alike ni ti g h N M : declaration_alike rho tau RA RB RT N M -> lg_alike g h ->
  alike PP lg_alike (lower_productions ni ti g N) (lower_productions (rekey rho ni) (rekey tau ti) h M).
Proof.
  intros (_ & Hname & _ & Hps) Hg. unfold lower_productions. rewrite Hname.
  apply (foldM_alike2 _ _ lg_alike _ _ _ _ Hps); auto. intros b c x y Hb Hxy. apply lower_production_alike; auto.
Qed.
Theorem lower_alike nts nts' cs cs' : Forall2 (declaration_alike rho tau RA RB RT) nts nts' ->
  Forall2 (fun c c' => cv_from c' = tau (cv_from c)) cs cs' -> alike PP lg_alike (lower nts cs) (lower nts' cs').
Proof.
  intros Hn Hc. unfold lower. eapply alike_bind.
  - apply (foldM_alike2 _ _ (fun x y => lg_alike (fst x) (fst y) /\ snd y = rekey tau (snd x)) _ _ _ _ Hc).
    + intros b c x y Hbc Hxy. apply lower_terminal_alike; auto.
    + simpl. split; auto. split; auto. simpl. auto.
  - intros [g ti] [h ti'] _ _ [Hg Hti]. cbn [fst snd] in *. subst ti'.
    assert (H : lg_alike (fst (fold_left lower_non_terminal nts (g, []))) (fst (fold_left lower_non_terminal nts' (h, []))) /\
                snd (fold_left lower_non_terminal nts' (h, [])) = rekey rho (snd (fold_left lower_non_terminal nts (g, [])))).
    { assert (Hgen : forall st st', lg_alike (fst st) (fst st') /\ snd st' = rekey rho (snd st) ->
        lg_alike (fst (fold_left lower_non_terminal nts st)) (fst (fold_left lower_non_terminal nts' st')) /\
        snd (fold_left lower_non_terminal nts' st') = rekey rho (snd (fold_left lower_non_terminal nts st))).
      { clear - Hn rho_inj RB_refl. induction Hn as [|N M l l' HNM Hl IH]; intros st st' H; simpl; auto.
        apply IH. apply lower_non_terminal_alike; auto. }
      apply Hgen. simpl. auto. }
    destruct (fold_left lower_non_terminal nts (g, [])) as [g1 ni], (fold_left lower_non_terminal nts' (h, [])) as [h1 ni'].
    cbn [fst snd] in H. destruct H as [H1 ->].
    apply (foldM_alike2 _ _ lg_alike _ _ _ _ Hn); auto. intros b c x y Hb Hxy. apply lower_productions_alike; auto.
Qed.
End LowerAlike.
