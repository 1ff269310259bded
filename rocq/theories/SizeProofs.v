(** * SizeProofs: the sizes of what the macro computes, in terms of the sizes of its input (C84) *)
From Verif Require Import LowerProofs StageProofs Termination.
From Verif Require Export PropSpec.
Local Open Scope string_scope. Local Open Scope list_scope.

(** ** Sizes of the input *)
(** Positions of a dot: one more than symbols, in every production; entry points have a production of one symbol. *)
Definition positions {A} (nts : list (ast_non_terminal A)) : nat :=
  list_sum (map (fun N => list_sum (map (fun p => S (List.length (ap_symbols p))) (an_productions N)) + (if an_pub N then 2 else 0)) nts).
(** Non-terminals and entry points *)
Definition declared {A} (nts : list (ast_non_terminal A)) : nat := list_sum (map (fun N => if an_pub N then 2 else 1) nts).

(** ** Sizes of grammars *)
Definition dots {A} (N : non_terminal A) : nat := list_sum (map (fun p => S (List.length (p_symbols p))) (nt_productions N)).
Definition all_dots {A} (g : grammar A) : nat := list_sum (map dots (g_nts g)).
Lemma list_sum_app l l' : list_sum (l ++ l') = list_sum l + list_sum l'.
Proof. induction l as [|n l IH]; cbn; [reflexivity|]. change (list_sum (l ++ l')) with (fold_right Nat.add 0 (l ++ l')) in IH. unfold list_sum in *. lia. Qed.
Lemma sum_flat_length {X Y} (f : X -> list Y) l : List.length (flat_map f l) = list_sum (map (fun x => List.length (f x)) l).
Proof. induction l as [|x l IH]; cbn; [reflexivity|]. rewrite app_length, IH. reflexivity. Qed.
Lemma sum_mul (c : nat) l : list_sum (map (fun n => n * c) l) = list_sum l * c.
Proof. unfold list_sum. induction l as [|n l IH]; cbn; [reflexivity|]. rewrite IH. lia. Qed.
Lemma sum_const {X} c (l : list X) : list_sum (map (fun _ => c) l) = List.length l * c.
Proof. unfold list_sum. induction l as [|n l IH]; cbn; [reflexivity|]. rewrite IH. reflexivity. Qed.
Lemma sum_ext {X} (f h : X -> nat) l : (forall x, In x l -> f x = h x) -> list_sum (map f l) = list_sum (map h l).
Proof. unfold list_sum. induction l as [|n l IH]; cbn; intro H; [reflexivity|]. rewrite (H n (or_introl eq_refl)), IH; auto. Qed.
Lemma sum_seq_nth {X} (l : list X) (f : option X -> nat) : list_sum (map (fun i => f (nth_error l i)) (seq 0 (List.length l))) = list_sum (map (fun x => f (Some x)) l).
Proof.
  unfold list_sum. induction l as [|x l IH]; cbn [List.length seq map fold_right nth_error]; [reflexivity|]. rewrite <- seq_shift, map_map. cbn [nth_error]. rewrite IH. reflexivity.
Qed.
Section Grammar.
Context {A : Type}.
Variable g : grammar A.
Lemma facts_length : List.length (facts g) = List.length (g_nts g) * (List.length (g_terminals g) + 1).
Proof. unfold facts. rewrite prod_length, !seq_length. unfold n_non_terminals, n_terminals. lia. Qed.
Lemma las_length : List.length (las g) = List.length (g_terminals g) + 1.
Proof. unfold las. cbn. rewrite map_length, seq_length. unfold n_terminals. lia. Qed.
Lemma production_indices_eq n N : nth_error (g_nts g) n = Some N -> non_terminal_production_indices g n = seq 0 (List.length (nt_productions N)).
Proof. intro H. unfold non_terminal_production_indices, get_non_terminal. rewrite H. reflexivity. Qed.
Lemma all_items_length : List.length (all_items g) = all_dots g * (List.length (g_terminals g) + 1).
Proof.
  unfold all_items, all_dots. rewrite sum_flat_length. unfold n_non_terminals.
  rewrite <- sum_mul, map_map.
  rewrite <- (sum_seq_nth (g_nts g) (fun o => match o with Some N => dots N * (List.length (g_terminals g) + 1) | None => 0 end)).
  apply sum_ext. intros n Hn. apply in_seq in Hn. destruct (nth_error (g_nts g) n) as [N|] eqn:EN; [|apply nth_error_None in EN; lia].
  rewrite sum_flat_length, (production_indices_eq n N EN). unfold dots. rewrite <- sum_mul, map_map.
  rewrite <- (sum_seq_nth (nt_productions N) (fun o => match o with Some p => S (List.length (p_symbols p)) * (List.length (g_terminals g) + 1) | None => 0 end)).
  apply sum_ext. intros p Hp. unfold get_production, get_non_terminal. rewrite EN.
  destruct (nth_error (nt_productions N) p) as [pr|] eqn:Ep; [|reflexivity].
  rewrite sum_flat_length, (sum_ext _ (fun _ => List.length (las g))) by (intros; apply map_length).
  rewrite sum_const, seq_length, las_length. unfold rhs. rewrite map_length. reflexivity.
Qed.
Lemma keys_length : List.length (keys g) = 2 ^ List.length (all_items g) * (List.length (g_nts g) + List.length (g_terminals g)).
Proof. unfold keys, all_symbols, terminal_indices. rewrite prod_length, app_length, !map_length, !seq_length. reflexivity. Qed.
End Grammar.

(** ** Lowering *)
Lemma dots_push {A} (q : production A) N : dots (push_production q N) = dots N + S (List.length (p_symbols q)).
Proof. unfold dots, push_production. cbn [nt_productions]. rewrite map_app, list_sum_app. cbn. lia. Qed.
Lemma sum_update {X} (w : X -> nat) (f : X -> X) c (l : list X) : (forall x, w (f x) = w x + c) -> forall i, list_sum (map w (update_nth i f l)) <= list_sum (map w l) + c.
Proof.
  intro Hf. unfold list_sum. induction l as [|x l IH]; intros [|i]; cbn; try lia.
  - rewrite Hf. lia.
  - pose proof (IH i). lia.
Qed.
Section Lowering.
Context {A : Type}.
Lemma add_production_dots (g : grammar (lexpr A)) n syms a : all_dots (add_production g n syms a) <= all_dots g + S (List.length syms).
Proof. unfold all_dots, add_production. cbn [g_nts]. apply sum_update. intro N. apply (dots_push {| p_symbols := syms; p_action := a |} N). Qed.
Lemma lower_terminal_nts cs : forall st st' : grammar (lexpr A) * list (string * nat), foldM lower_terminal cs st = Ok st' -> g_nts (fst st') = g_nts (fst st) /\
  List.length (g_terminals (fst st')) = List.length (g_terminals (fst st)) + List.length cs.
Proof.
  induction cs as [|c cs IH]; intros [g m] st' H; cbn [foldM] in H; [injection H as <-; cbn; auto|].
  apply bind_Ok in H. destruct H as (st1 & H1 & H2). destruct (IH _ _ H2) as (E1 & E2). rewrite E1, E2.
  unfold lower_terminal in H1. cbn [fst]. destruct c as [from to]. apply bind_Ok in H1. destruct H1 as ((g1 & i) & Hn & H1).
  unfold new_terminal in Hn. apply bind_Ok in Hn. destruct Hn as (i' & _ & Hn). injection Hn as <- <-.
  destruct (map_get String.eqb _ m); [discriminate|]. injection H1 as <-. cbn. rewrite app_length. cbn. split; [reflexivity|lia].
Qed.
Lemma lower_nts_dots nts : forall st : grammar (lexpr A) * list (string * nat), let g' := fst (fold_left lower_non_terminal nts st) in
  all_dots g' <= all_dots (fst st) + list_sum (map (fun N => if an_pub N then 2 else 0) nts) /\
  List.length (g_nts g') = List.length (g_nts (fst st)) + declared nts /\ g_terminals g' = g_terminals (fst st).
Proof.
  induction nts as [|N nts IH]; intros [g m]; cbn [fold_left fst]; [cbn; repeat split; lia|].
  destruct (IH (lower_non_terminal (g, m) N)) as (H1 & H2 & H3). cbv zeta in *. rewrite H3.
  assert (HL : all_dots (fst (lower_non_terminal (g, m) N)) <= all_dots g + (if an_pub N then 2 else 0) /\
               List.length (g_nts (fst (lower_non_terminal (g, m) N))) = List.length (g_nts g) + (if an_pub N then 2 else 1) /\
               g_terminals (fst (lower_non_terminal (g, m) N)) = g_terminals g).
  { unfold lower_non_terminal, add_non_terminal. destruct (an_pub N); cbn [fst g_nts g_terminals add_production].
    - split; [|split; [rewrite update_nth_length, !app_length; cbn; lia|reflexivity]].
      eapply Nat.le_trans; [apply add_production_dots|]. cbn [List.length]. unfold all_dots. cbn [g_nts]. rewrite !map_app, !list_sum_app. cbn. lia.
    - split; [|split; [rewrite app_length; cbn; lia|reflexivity]]. unfold all_dots. cbn [g_nts]. rewrite !map_app, !list_sum_app. cbn. lia. }
  destruct HL as (L1 & L2 & L3). rewrite L2 in H2. unfold declared. unfold declared in H2. cbn [map list_sum fold_right]. unfold list_sum in *. split; [lia|]. split; [lia|exact L3].
Qed.
Lemma lower_production_dots ni ti nm (g g' : grammar (lexpr A)) p : lower_production ni ti nm g p = Ok g' ->
  all_dots g' <= all_dots g + S (List.length (ap_symbols p)) /\ List.length (g_nts g') = List.length (g_nts g) /\ g_terminals g' = g_terminals g.
Proof.
  unfold lower_production. intro H. apply bind_Ok in H. destruct H as (syms & Hs & H). apply mapM_length in Hs.
  destruct (map_get String.eqb nm ni); [|discriminate]. destruct (ap_action p); [|discriminate]. injection H as <-.
  rewrite <- Hs. split; [apply add_production_dots|]. unfold add_production. cbn. rewrite update_nth_length. auto.
Qed.
Lemma lower_all_dots ni ti nts : forall g g' : grammar (lexpr A), foldM (lower_productions ni ti) nts g = Ok g' ->
  all_dots g' <= all_dots g + list_sum (map (fun N => list_sum (map (fun p => S (List.length (ap_symbols p))) (an_productions N))) nts) /\
  List.length (g_nts g') = List.length (g_nts g) /\ g_terminals g' = g_terminals g.
Proof.
  assert (HP : forall nm ps (g g' : grammar (lexpr A)), foldM (lower_production ni ti nm) ps g = Ok g' ->
            all_dots g' <= all_dots g + list_sum (map (fun p => S (List.length (ap_symbols p))) ps) /\ List.length (g_nts g') = List.length (g_nts g) /\ g_terminals g' = g_terminals g).
  { intros nm ps. induction ps as [|p ps IH]; intros g g' H; cbn [foldM] in H; [injection H as <-; cbn; repeat split; lia|].
    apply bind_Ok in H. destruct H as (g1 & H1 & H2). apply lower_production_dots in H1. destruct H1 as (D1 & D2 & D3). destruct (IH _ _ H2) as (K1 & K2 & K3).
    cbn [map list_sum fold_right]. unfold list_sum in *. repeat split; [lia|congruence|congruence]. }
  induction nts as [|N nts IH]; intros g g' H; cbn [foldM] in H; [injection H as <-; cbn; repeat split; lia|].
  apply bind_Ok in H. destruct H as (g1 & H1 & H2). unfold lower_productions in H1. apply HP in H1. destruct H1 as (D1 & D2 & D3). destruct (IH _ _ H2) as (K1 & K2 & K3).
  cbn [map list_sum fold_right]. unfold list_sum in *. repeat split; [lia|congruence|congruence].
Qed.
Lemma lower_size nts cs (g : grammar (lexpr A)) : lower nts cs = Ok g ->
  all_dots g <= positions nts /\ List.length (g_nts g) = declared nts /\ List.length (g_terminals g) = List.length cs.
Proof.
  unfold lower. intro H. apply bind_Ok in H. destruct H as ((g0 & ti) & H0 & H). apply lower_terminal_nts in H0. cbn [fst] in H0. destruct H0 as (E0 & T0).
  pose proof (lower_nts_dots nts (g0, [])) as H1. destruct (fold_left lower_non_terminal nts (g0, [])) as [g1 ni]. cbv zeta in H1. cbn [fst] in H1. destruct H1 as (D1 & D2 & D3).
  apply lower_all_dots in H. destruct H as (K1 & K2 & K3). rewrite K3, D3, K2, D2, T0, E0. cbn. split; [|auto].
  assert (Z : all_dots g0 = 0) by (unfold all_dots; rewrite E0; reflexivity). rewrite Z in D1. unfold positions.
  assert (Hsum : forall (f h : ast_non_terminal A -> nat) l, list_sum (map (fun N => f N + h N) l) = list_sum (map f l) + list_sum (map h l)).
  { unfold list_sum. intros f h l. induction l as [|N l IHl]; cbn; [reflexivity|]. rewrite IHl. lia. }
  rewrite Hsum. lia.
Qed.
End Lowering.
