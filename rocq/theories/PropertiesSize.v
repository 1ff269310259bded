(** * PropertiesSize: C84, how large the tables are, and how long the macro's loops run *)
From Verif Require Import SizeProofs LowerProofs StageProofs Termination PropertiesCode.
From Verif Require Export PropertiesGen.
Local Open Scope string_scope. Local Open Scope list_scope.

(** The number of LR(1) items: positions of the dot, times lookaheads (tokens, and the end of the input) *)
Definition lr1_items {A} (items : list (grammar_item A)) : nat := positions (declared_nts items) * (List.length (token_entries items) + 1).
Lemma pow_mono a b : a <= b -> 2 ^ a <= 2 ^ b.
Proof. intro H. apply Nat.pow_le_mono_r; lia. Qed.

(** The tables have at most one row for every set of LR(1) items, a column for every token and one for the end of the input, and in GOTO one for
    every non-terminal and entry point. *)
Theorem c84_tables {A} (items : list (grammar_item A)) gp : expands items gp ->
  let T := List.length (token_entries items) + 1 in
  List.length (gp_action gp) <= 2 ^ lr1_items items /\ List.length (gp_goto gp) = List.length (gp_action gp) /\
  Forall (fun row => List.length row = T) (gp_action gp) /\ Forall (fun row => List.length row = declared (declared_nts items)) (gp_goto gp).
Proof.
  intros He T. destruct (expands_expansion items gp He) as (g & tbl & states & entries & Hex).
  destruct (c25_dimensions items g tbl states entries gp Hex) as (D1 & D2 & D3 & D4 & _ & _ & _ & D8).
  pose proof (expansion_stages _ _ _ _ _ _ Hex) as Hst. pose proof Hst as (ho & fuel & Hho & Hl & Ht & Ha).
  destruct (lower_size (declared_nts items) (token_entries items) g Hl) as (S1 & S2 & S3).
  assert (Hwf : wf_grammar g) by (pose proof (lower_spec (declared_nts items) (token_entries items)) as Hs; rewrite Hl in Hs; destruct Hs as (ti & Hlow); eapply lowered_wf; eauto).
  rewrite D1, D3. split; [|split; [reflexivity|split]].
  - eapply Nat.le_trans; [|apply (pow_mono (List.length (all_items g)))]; [|rewrite all_items_length, S3; unfold lr1_items; apply Nat.mul_le_mono_r; exact S1].
    rewrite <- sublists_length. set (f := fun s => filter (fun x => set_mem item_eqb x (st_items s)) (all_items g)). rewrite <- (map_length f states).
    apply NoDup_incl_length; [|intros x Hx; apply in_map_iff in Hx; destruct Hx as (s & <- & _); apply sublists_filter].
    apply NoDup_nth_error. intros i j Hi He'. rewrite !nth_error_map in He'. rewrite map_length in Hi.
    destruct (nth_error states i) as [s|] eqn:Es; [|apply nth_error_None in Es; lia].
    destruct (nth_error states j) as [s'|] eqn:Es'; cbn in He'; [|discriminate]. injection He' as He'.
    assert (Hj : j < List.length states) by (apply nth_error_Some; congruence).
    apply (c24_distinct items g tbl states entries i j Hst Hi Hj).
    assert (Hm : forall s0 i0, nth_error states i0 = Some s0 -> forall x, In x (st_items s0) <-> In x (f s0)).
    { intros s0 i0 H0 x. unfold f. rewrite filter_In, (set_mem_In item_eqb item_eqb_spec). split; [intro Hx; split; auto|tauto].
      apply item_ok_in. eapply (state_items_in_range ho fuel g tbl states entries); eauto. }
    intro x. unfold holds. split; intros (st & E & Hx).
    + rewrite Es in E. injection E as <-. exists s'. split; [exact Es'|]. apply (Hm s' j Es'). rewrite <- He'. apply (Hm s i Es). exact Hx.
    + rewrite Es' in E. injection E as <-. exists s. split; [exact Es|]. apply (Hm s i Es). rewrite He'. apply (Hm s' j Es'). exact Hx.
  - rewrite D8 in D2. exact D2.
  - unfold n_non_terminals in D4. rewrite S2 in D4. exact D4.
Qed.

(** Every [while] loop of the macro (fuel bounds the iterations of each) makes at most this many iterations. *)
Definition loop_limit {A} (items : list (grammar_item A)) : nat :=
  let N := declared (declared_nts items) in let T := List.length (token_entries items) in let I := lr1_items items in
  N * (T + 1) + I + 2 ^ I * (N + T + 1).
Theorem c84_loops {A} (items : list (grammar_item A)) ho fuel : hash_order_ok ho -> loop_limit items < fuel -> macro ho fuel items <> OutOfFuel.
Proof.
  intros Hho Hf. unfold macro. pose proof (MacroProofs.collect_spec items acc0) as H. unfold acc0 in H. cbn [ia_token ia_state app] in H. cbv zeta in H.
  destruct (foldM collect_item items _) as [acc|p|]; cbn [bind]; [|discriminate|contradiction].
  destruct H as (H1 & H2 & _). cbn [ia_nts app] in H1. destruct (ia_token acc) as [te|]; [|discriminate].
  assert (Hte : token_entries items = te_conversions te) by (unfold token_entries; rewrite H2; cbn; apply app_nil_r). rewrite H1.
  destruct (lower (declared_nts items) (te_conversions te)) as [g|p|] eqn:Eg; cbn [bind]; [|discriminate|exfalso; eapply lower_no_fuel; eauto].
  pose proof (lower_spec (declared_nts items) (te_conversions te)) as Hs. rewrite Eg in Hs. destruct Hs as (ti & Hlow).
  apply generate_lr1_parser_terminates; auto; [eapply lowered_wf; eauto|].
  destruct (lower_size _ _ _ Eg) as (S1 & S2 & S3). unfold loop_limit in Hf. rewrite Hte in Hf. unfold lr1_items in Hf. rewrite Hte in Hf.
  unfold enough_fuel, loop_bound. rewrite keys_length, facts_length, all_items_length, S2, S3.
  set (N := declared (declared_nts items)) in *. set (T := List.length (te_conversions te)) in *.
  assert (HI : all_dots g * (T + 1) <= positions (declared_nts items) * (T + 1)) by (apply Nat.mul_le_mono_r; exact S1).
  pose proof (pow_mono _ _ HI) as HP. set (I := positions (declared_nts items) * (T + 1)) in *. set (P := 2 ^ I) in *.
  assert (HQ : 2 ^ (all_dots g * (T + 1)) * (N + T) <= P * (N + T)) by (apply Nat.mul_le_mono_r; exact HP).
  clear - Hf HI HP HQ. nia.
Qed.

(** [arith]: 22 positions of the dot, 6 lookaheads, 132 items; the 24 rows that the macro computes are columns 6 and 5 wide. *)
Example case_c84 : lr1_items arith = 132 /\ List.length (gp_action arith_gp) = 24 /\ Forall (fun row => List.length row = 6) (gp_action arith_gp) /\
  Forall (fun row => List.length row = 5) (gp_goto arith_gp).
Proof.
  destruct (c84_tables arith arith_gp arith_expands) as (_ & _ & H3 & H4).
  split; [vm_compute; reflexivity|split; [vm_compute; reflexivity|split; [exact H3|exact H4]]].
Qed.
Example case_c84_loops fuel : loop_limit arith < fuel -> macro ho_id fuel arith <> OutOfFuel.
Proof. exact (c84_loops arith ho_id fuel ho_id_ok). Qed.
