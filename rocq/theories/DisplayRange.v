(** * DisplayRange: nothing printed is out of range *)
From Coq Require Import Ascii.
From Verif Require Import LowerProofs FirstProofs AutomatonProofs Lr0Spec Lr0Proofs Termination Lookahead.
From Verif Require Export DisplayProofs.
Local Open Scope string_scope.

Definition okr {X} (r : res X) : Prop := exists x, r = Ok x.
Lemma okr_bind {X Y} (r : res X) (f : X -> res Y) : okr r -> (forall x, okr (f x)) -> okr (bind r f).
Proof. intros (x & ->) H. exact (H x). Qed.
Lemma okr_ok {X} (x : X) : okr (Ok x). Proof. exists x. reflexivity. Qed.
Lemma okr_prints {X} (f : X -> res string) l : (forall x, In x l -> okr (f x)) -> okr (prints f l).
Proof.
  induction l as [|x l IH]; intro H; [apply okr_ok|]. rewrite prints_cons. apply okr_bind; [apply H; left; reflexivity|]. intro s.
  apply okr_bind; [apply IH; intros; apply H; right; assumption|]. intro t. apply okr_ok.
Qed.

Section G.
Context {A : Type}.
Variable g : grammar A.
Hypothesis Hwf : wf_grammar g.
Variable ho : hash_order.
Hypothesis Hho : hash_order_ok ho.

Definition declared_symbol (X : symbol) : Prop := match X with NT n => n < n_non_terminals g | T t => t < n_terminals g end.
Lemma rhs_declared n p pr X : get_production g n p = Some pr -> In X (rhs pr) -> declared_symbol X.
Proof.
  intros Hp Hin. destruct X as [m|t]; cbn.
  - destruct (wfg_nt g Hwf _ _ _ _ Hp Hin) as (N & HN & _). eapply nt_in_range; eauto.
  - eapply (wfg_t g Hwf); eauto.
Qed.
Lemma show_nt_ok n : n < n_non_terminals g -> okr (show_nt g n).
Proof. intro H. unfold show_nt, get_non_terminal. apply nth_error_Some in H. destruct (nth_error (g_nts g) n) as [N|]; [apply okr_ok|contradiction]. Qed.
Lemma show_t_ok t : t < n_terminals g -> okr (show_t g t).
Proof. intro H. unfold show_t, get_terminal. apply nth_error_Some in H. destruct (nth_error (g_terminals g) t) as [N|]; [apply okr_ok|contradiction]. Qed.
Lemma show_symbol_ok X : declared_symbol X -> okr (show_symbol g X).
Proof. destruct X; [apply show_nt_ok|apply show_t_ok]. Qed.
Lemma enumerate_In {X} (l : list X) x : In x (enumerate l) -> In (snd x) l.
Proof. destruct x as [i x]. intro H. apply enumerate_nth_error in H. eapply nth_error_In; eauto. Qed.
Lemma show_production_ok n p pr : get_production g n p = Some pr -> okr (show_production g pr).
Proof.
  intro Hp. apply okr_prints. intros x Hx. apply enumerate_In in Hx. apply okr_bind; [|intro; apply okr_ok]. apply show_symbol_ok. eapply rhs_declared; eauto.
Qed.
Lemma show_grammar_ok : okr (show_grammar g).
Proof.
  apply okr_prints. intros (i & N) HN. apply enumerate_nth_error in HN. apply okr_bind; [|intro; apply okr_ok]. apply okr_prints. intros (j & p) Hp.
  apply enumerate_nth_error in Hp. cbn [fst snd] in *. apply okr_bind; [|intro; apply okr_ok]. apply (show_production_ok i j). unfold get_production, get_non_terminal. rewrite HN. exact Hp.
Qed.
Lemma show_first_ok fuel tbl : generate_first_table ho fuel g = Ok tbl -> okr (show_first_table ho g tbl).
Proof.
  intro Hf. destruct (generate_first_table_ok g ho (hok_terms ho Hho) _ _ Hf) as (HJ & _). pose proof (justified_range g Hwf _ HJ) as Hr.
  apply okr_bind; [|intro; apply okr_ok]. apply okr_prints. intros (n & fs) Hn. apply enumerate_nth_error in Hn. cbn [fst snd].
  apply okr_bind; [apply show_nt_ok; rewrite <- (j_len _ _ HJ); apply nth_error_Some; congruence|]. intro nm. apply okr_bind; [|intro; apply okr_ok].
  apply okr_bind; [|intro; apply okr_ok]. apply okr_prints. intros (i & t) Ht. apply enumerate_In in Ht. cbn [fst snd] in *. apply okr_bind; [|intro; apply okr_ok].
  apply show_t_ok. apply (Hr n). unfold terms, get_first. rewrite (nth_error_nth _ _ _ Hn). eapply Permutation_in; [apply (hok_terms ho Hho)|exact Ht].
Qed.
Lemma show_cursor_ok n p pr k : get_production g n p = Some pr -> okr (show_cursor g (rhs pr) k).
Proof.
  intro Hp. apply okr_bind; [|intro; apply okr_ok]. apply okr_prints. intros x Hx. apply enumerate_In in Hx. apply okr_bind; [|intro; apply okr_ok].
  apply show_symbol_ok. eapply rhs_declared; eauto.
Qed.
Lemma show_item_ok it : Termination.item_ok g it -> okr (show_item g it).
Proof.
  intros (pr & Hp & _ & Hla). unfold show_item. pose proof Hp as Hp'. unfold get_production in Hp'. destruct (get_non_terminal g (it_nt it)) as [N|]; [|discriminate].
  cbn [at_index bind]. rewrite Hp'. cbn [at_index bind]. apply okr_bind; [eapply show_cursor_ok; eauto|]. intro b. apply okr_bind; [|intro; apply okr_ok].
  destruct (it_la it) as [t|]; [apply show_t_ok; exact Hla|apply okr_ok].
Qed.

Lemma gotos_declared tbl states entries : automaton_ok g tbl states entries -> forall i st X j, nth_error states i = Some st -> In (X, j) (st_goto st) -> declared_symbol X.
Proof.
  intros Haut i st X j Hs Hx.
  assert (E : map_get symbol_eqb X (st_goto st) = Some j) by (apply map_get_NoDup; [apply symbol_eqb_spec|eapply ao_nodup; eauto|exact Hx]).
  destruct (ao_goto _ _ _ _ Haut _ _ _ _ Hs E) as (st' & _ & Hgs & Hne). apply (goto_set_nonempty _ _ _ _ _ Hgs) in Hne. destruct Hne as (it & _ & Hn).
  apply next_symbol_production in Hn. destruct Hn as (pr & Hp & Hn). eapply rhs_declared; eauto. eapply nth_error_In; eauto.
Qed.
Section Auto.
Variables (fuel : nat) (tbl : first_table) (states : list lr1_state) (entries : list (nat * nat)).
Hypothesis Hf : generate_first_table ho fuel g = Ok tbl.
Hypothesis Ha : generate_lr1_automaton ho fuel g tbl = Ok (states, entries).

Lemma states_items st it : In st states -> In it (st_items st) -> Termination.item_ok g it.
Proof. intros Hst Hit. apply In_nth_error in Hst. destruct Hst as (s & Hs). eapply (state_items_in_range ho fuel g tbl states entries); eauto. Qed.
Lemma show_automaton_ok : okr (show_automaton ho g states).
Proof.
  apply okr_prints. intros (i & st) Hst. apply enumerate_nth_error in Hst. cbn [fst snd]. apply okr_bind; [|intro; apply okr_ok]. apply okr_bind.
  - apply okr_prints. intros it Hit. apply okr_bind; [|intro; apply okr_ok]. apply show_item_ok. eapply states_items; eauto. eapply nth_error_In; eauto.
  - intro s. apply okr_bind; [|intro; apply okr_ok]. apply okr_prints. intros (X & j) Hx. apply okr_bind; [|intro; apply okr_ok]. cbn [fst]. apply show_symbol_ok.
    eapply gotos_declared; [eapply generate_lr1_automaton_ok; eauto|exact Hst|]. eapply Permutation_in; [apply (hok_gotos ho Hho)|exact Hx].
Qed.

(** Tables *)
Definition action_in_range (a : lr_action A) : Prop := match a with Reduce nt p _ => exists pr, get_production g nt p = Some pr | _ => True end.
Record table_in_range (tb : lr_table A) : Prop := {
  tr_act : forall s la a, In ((s, la), a) (tb_action tb) -> la_ok g la /\ action_in_range a;
  tr_goto : forall s n j, In ((s, n), j) (tb_goto tb) -> n < n_non_terminals g
}.
Lemma map_insert_In {K V} (eqb : K -> K -> bool) k v (m : list (K * V)) k' v' : (forall a b, eqb a b = true <-> a = b) ->
  In (k', v') (map_insert eqb k v m) -> (k' = k /\ v' = v) \/ In (k', v') m.
Proof.
  intro Hs. induction m as [|(k1 & v1) m IH]; cbn; [intros [E|[]]; left; injection E; auto|]. destruct (eqb k k1) eqn:E; cbn.
  - intros [H|H]; [injection H as <- <-; apply Hs in E; auto|auto].
  - intros [H|H]; [auto|destruct (IH H); auto].
Qed.
Lemma insert_in_range tb s la a : table_in_range tb -> la_ok g la -> action_in_range a -> table_in_range (insert_action tb s la a).
Proof.
  intros [H1 H2] Hla Hact. constructor; cbn; [|exact H2]. intros s' la' a' Hin. apply map_insert_In in Hin; [|apply akey_eqb_spec].
  destruct Hin as [(E & ->)|Hin]; [injection E as -> ->; auto|eauto].
Qed.
Lemma add_gotos_in_range s l : (forall n j, In (NT n, j) l -> n < n_non_terminals g) -> forall tb, table_in_range tb -> table_in_range (add_gotos s l tb).
Proof.
  unfold add_gotos. induction l as [|[[n|t] j] l IH]; intros Hl tb Htb; cbn; auto.
  - apply IH; [intros; eapply Hl; right; eauto|]. destruct Htb as [H1 H2]. constructor; cbn; [exact H1|]. intros s' n' j' Hin.
    apply map_insert_In in Hin; [|apply gkey_eqb_spec]. destruct Hin as [(E & ->)|Hin]; [injection E as -> ->; eapply Hl; left; reflexivity|eauto].
  - apply IH; auto. intros; eapply Hl; right; eauto.
Qed.
Lemma table_item_in_range s st tb it tb' : (forall X j, In (X, j) (st_goto st) -> declared_symbol X) -> Termination.item_ok g it ->
  table_in_range tb -> table_item ho g s st tb it = Ok tb' -> table_in_range tb'.
Proof.
  intros Hgt (pr & Hp & _ & Hla) Htb H. unfold table_item in H. apply bind_Ok in H. destruct H as (tb1 & H1 & H).
  assert (R1 : table_in_range tb1).
  { destruct (next_terminal g it) as [t|] eqn:Et; [|injection H1 as <-; exact Htb]. destruct (map_get symbol_eqb (T t) (st_goto st)) as [j|] eqn:Ej; [|injection H1 as <-; exact Htb].
    apply map_get_In in Ej; [|apply symbol_eqb_spec]. specialize (Hgt _ _ Ej). cbn in Hgt.
    assert (K : table_in_range (insert_action tb s (Some t) (Shift j))) by (apply insert_in_range; cbn; auto). unfold add_shift in H1.
    destruct (get_action tb s (Some t)) as [[i|a b c|]|]; [destruct (Nat.eqb i j); [|discriminate]| |discriminate|]; injection H1 as <-; exact K. }
  destruct (get_non_terminal g (it_nt it)) as [N|]; [|discriminate]. apply bind_Ok in H. destruct H as (tb2 & H2 & H).
  assert (R2 : table_in_range tb2).
  { destruct (is_complete g it && negb (nt_public N))%bool; [|injection H2 as <-; exact R1]. rewrite Hp in H2. unfold add_reduce in H2.
    destruct (get_action tb1 s (it_la it)) as [[i|a b c|]|]; try discriminate. injection H2 as <-. apply insert_in_range; auto. exists pr. exact Hp. }
  apply bind_Ok in H. destruct H as (tb3 & H3 & H). injection H as <-.
  assert (R3 : table_in_range tb3).
  { destruct (nt_public N && _ && _)%bool; [|injection H3 as <-; exact R2]. destruct (Nat.eqb _ 1); [|discriminate]. injection H3 as <-. apply insert_in_range; cbn; auto. }
  apply add_gotos_in_range; [|exact R3]. intros n j Hin. apply (Hgt (NT n) j). eapply Permutation_in; [apply (hok_gotos ho Hho)|exact Hin].
Qed.
Lemma foldM_inv {X B} (P : B -> Prop) (f : B -> X -> res B) l : (forall b x b', In x l -> P b -> f b x = Ok b' -> P b') -> forall b b', P b -> foldM f l b = Ok b' -> P b'.
Proof.
  induction l as [|x l IH]; intros Hs b b' Hb H; cbn in H; [injection H as <-; exact Hb|]. apply bind_Ok in H. destruct H as (b1 & H1 & H).
  eapply (IH (fun b x b' Hx => Hs b x b' (or_intror Hx)) b1); [eapply Hs; [left; reflexivity|exact Hb|exact H1]|exact H].
Qed.
Lemma table_range tb : build_lr1_table ho g states = Ok tb -> table_in_range tb.
Proof.
  unfold build_lr1_table. apply foldM_inv; [|constructor; cbn; intros; contradiction]. intros b (i & st) b' Hx Hb. apply enumerate_nth_error in Hx.
  unfold table_state. cbn [fst snd]. apply foldM_inv; [|exact Hb]. intros c it c' Hit Hc. apply table_item_in_range; auto.
  - intros X j HX. eapply gotos_declared; eauto. eapply generate_lr1_automaton_ok; eauto.
  - eapply states_items; eauto. eapply nth_error_In; eauto.
Qed.
Lemma show_table_ok oa og tb : (forall l, Permutation (oa l) l) -> (forall l, Permutation (og l) l) -> build_lr1_table ho g states = Ok tb -> okr (show_table g oa og tb).
Proof.
  intros Hoa Hog Hb. destruct (table_range _ Hb) as [R1 R2]. apply okr_prints. intros s _. apply okr_bind.
  - apply okr_prints. intros (la & a) Hx. apply (Permutation_in _ (Hoa _)) in Hx. unfold actions_of in Hx. apply in_map_iff in Hx. destruct Hx as (((s' & la') & a') & E & Hx). cbn in E. injection E as -> ->.
    apply filter_In in Hx. destruct Hx as (Hx & _). destruct (R1 _ _ _ Hx) as (Hla & Hact). cbn [fst snd]. apply okr_bind.
    + destruct la as [t|]; [apply show_t_ok; exact Hla|apply okr_ok].
    + intro l. apply okr_bind; [|intro; apply okr_ok]. destruct a as [i|nt p c|]; [apply okr_ok| |apply okr_ok]. destruct Hact as (pr & Hp). cbn [show_action].
      rewrite Hp. cbn [at_index bind]. apply okr_bind; [|intro; apply okr_bind; [eapply show_production_ok; eauto|intro; apply okr_ok]].
      apply show_nt_ok. unfold get_production in Hp. destruct (get_non_terminal g nt) as [N|] eqn:EN; [|discriminate]. eapply nt_in_range; eauto.
  - intro acts. apply okr_bind; [|intro; apply okr_ok]. apply okr_prints. intros (n & j) Hx. apply (Permutation_in _ (Hog _)) in Hx. unfold gotos_of in Hx.
    apply in_map_iff in Hx. destruct Hx as (((s' & n') & j') & E & Hx). cbn in E. injection E as -> ->. apply filter_In in Hx. destruct Hx as (Hx & _). cbn [fst snd].
    apply okr_bind; [apply show_nt_ok; eauto|intro; apply okr_ok].
Qed.
End Auto.

(** LR(0) *)
Lemma read_declared gamma n p k : lr0_valid g gamma n p k -> forall X, In X gamma -> declared_symbol X.
Proof.
  induction 1 as [pr H|gamma n p k pr m q pr' _ IH _ _ _|gamma n p k pr X _ IH Hp Hn]; intros Y HY; auto; [contradiction|].
  apply in_app_iff in HY. destruct HY as [HY|[->|[]]]; auto. eapply rhs_declared; eauto. eapply nth_error_In; eauto.
Qed.
Lemma lr0_states hs fuel states : (forall l, Permutation (hs l) l) -> compute_lr0_automaton ho hs fuel g = Ok states ->
  forall st, In st states -> (forall it, In it (st_items st) -> exists pr, get_production g (it_nt it) (it_prod it) = Some pr /\ it_cursor it <= List.length (rhs pr)) /\
    forall X j, In (X, j) (st_goto st) -> declared_symbol X.
Proof.
  intros Hhs Hc st Hst. destruct (automaton0_ok g ho hs Hho Hhs fuel states Hc) as (ix & HI). apply In_nth_error in Hst. destruct Hst as (i & Hi).
  destruct (i0_reach _ _ _ _ HI i st Hi) as (_ & gamma & Hg). split.
  - intros it Hit. apply (proj2 Hg) in Hit. destruct Hit as (_ & Hv). eapply valid_production; eauto.
  - intros X j Hx. assert (E : map_get symbol_eqb X (st_goto st) = Some j) by (apply map_get_NoDup; [apply symbol_eqb_spec|eapply (i0_nodup _ _ _ _ HI); eauto|exact Hx]).
    destruct (i0_goto _ _ _ _ HI _ _ _ _ Hi E) as (st' & Hj & Hto). specialize (Hto _ Hg). destruct (i0_reach _ _ _ _ HI j st' Hj) as (Hne & _).
    destruct (st_items st') as [|it l] eqn:El; [contradiction|]. assert (Hit : In it (it :: l)) by (left; reflexivity). apply (proj2 Hto) in Hit. destruct Hit as (_ & Hv).
    eapply read_declared; [exact Hv|]. apply in_app_iff. right. left. reflexivity.
Qed.
Lemma show_lr0_ok hs fuel states : (forall l, Permutation (hs l) l) -> compute_lr0_automaton ho hs fuel g = Ok states -> okr (show_lr0_automaton ho g states).
Proof.
  intros Hhs Hc. apply okr_prints. intros (i & st) Hst. apply enumerate_In in Hst. cbn [fst snd] in *. destruct (lr0_states hs fuel states Hhs Hc st Hst) as (H1 & H2). apply okr_bind.
  - apply okr_prints. intros it Hit. apply okr_bind; [|intro; apply okr_ok]. destruct (H1 it Hit) as (pr & Hp & _). unfold show_lr0_item. apply okr_bind.
    + apply show_nt_ok. unfold get_production in Hp. destruct (get_non_terminal g (it_nt it)) as [N|] eqn:EN; [|discriminate]. eapply nt_in_range; eauto.
    + intro n. rewrite Hp. cbn [at_index bind]. apply okr_bind; [eapply show_cursor_ok; eauto|intro; apply okr_ok].
  - intro s. apply okr_bind; [|intro; apply okr_ok]. apply okr_prints. intros (X & j) Hx. apply okr_bind; [|intro; apply okr_ok]. cbn [fst]. apply show_symbol_ok.
    apply (H2 X j). eapply Permutation_in; [apply (hok_gotos ho Hho)|exact Hx].
Qed.
End G.
