(** * PropertiesWrap: C53, the truncating cast is harmless

    Model: Wrap.v. *)
From Verif Require Import Wrap.
From Verif Require Export PropertiesCode.
From Coq Require Import NArith.

Lemma as_u32_id n : (N.of_nat n < 4294967296)%N -> as_u32 n = n.
Proof. intro H. unfold as_u32. rewrite N.mod_small by exact H. apply Nat2N.id. Qed.

Section Sizes.
Context {A : Type}.
(** Number of non-terminals a declaration is lowered to. *)
Definition n_lowered (l : list (ast_non_terminal A)) : nat := list_sum (map (fun N => if an_pub N then 2 else 1) l).

Lemma update_nth_length {X} (f : X -> X) (l : list X) : forall i, List.length (update_nth i f l) = List.length l.
Proof. induction l as [|x l IH]; intros [|i]; cbn; auto. Qed.
Lemma add_production_length (g : grammar (lexpr A)) nt ss a : List.length (g_nts (add_production g nt ss a)) = List.length (g_nts g).
Proof. cbn. apply update_nth_length. Qed.

Lemma decls_length (l : list (ast_non_terminal A)) : forall g m g' m', fold_left lower_non_terminal_u32 l (g, m) = (g', m') ->
  List.length (g_nts g') = List.length (g_nts g) + n_lowered l.
Proof.
  unfold n_lowered. induction l as [|N l IH]; intros g m g' m' H; cbn [fold_left] in H.
  - injection H as <- <-. cbn. lia.
  - unfold lower_non_terminal_u32 at 2 in H. destruct (an_pub N) eqn:EN; cbn [add_non_terminal_u32] in H; apply IH in H; rewrite H;
      cbn [map list_sum fold_right]; rewrite EN; [rewrite add_production_length|]; cbn [g_nts]; rewrite ?app_length; cbn [List.length]; unfold list_sum; lia.
Qed.
Lemma decls_same (l : list (ast_non_terminal A)) : forall g m, (N.of_nat (List.length (g_nts g) + n_lowered l) <= 4294967296)%N ->
  fold_left lower_non_terminal_u32 l (g, m) = fold_left lower_non_terminal l (g, m).
Proof.
  unfold n_lowered. induction l as [|N l IH]; intros g m H; [reflexivity|]. cbn [fold_left].
  cbn [map list_sum fold_right] in H. fold (list_sum (map (fun N : ast_non_terminal A => if an_pub N then 2 else 1) l)) in H.
  assert (E : lower_non_terminal_u32 (g, m) N = lower_non_terminal (g, m) N).
  { unfold lower_non_terminal_u32, lower_non_terminal, add_non_terminal_u32, add_non_terminal. destruct (an_pub N); cbn [g_nts].
    - rewrite app_length. cbn [List.length]. rewrite !as_u32_id by lia. reflexivity.
    - rewrite as_u32_id by lia. reflexivity. }
  rewrite E. destruct (lower_non_terminal (g, m) N) as [g1 m1] eqn:E1. apply IH.
  unfold lower_non_terminal, add_non_terminal in E1. destruct (an_pub N); injection E1 as <- <-; [rewrite add_production_length|]; cbn [g_nts];
    rewrite ?app_length; cbn [List.length]; lia.
Qed.
Lemma prods_length ni ti (l : list (ast_non_terminal A)) g g' : foldM (lower_productions ni ti) l g = Ok g' ->
  List.length (g_nts g') = List.length (g_nts g).
Proof.
  intro H. revert H. refine (foldM_inv (fun h => List.length (g_nts h) = List.length (g_nts g)) _ l _ g g' eq_refl).
  intros h N h' _ Hh HN. revert HN. refine (foldM_inv (fun k => List.length (g_nts k) = List.length (g_nts g)) _ _ _ h h' Hh).
  intros k p k' _ Hk Hp. unfold lower_production in Hp. apply bind_Ok in Hp. destruct Hp as (ss & _ & Hp).
  destruct (map_get _ _ _); [|discriminate]. destruct (ap_action p); [|discriminate]. injection Hp as <-. rewrite add_production_length. exact Hk.
Qed.
Lemma skeleton_length (l : list (ast_non_terminal A)) : forall k, List.length (skeleton k l) = n_lowered l.
Proof.
  unfold n_lowered. induction l as [|N l IH]; intro k; [reflexivity|]. unfold skeleton in *. cbn [slots flat_map map list_sum fold_right fst snd].
  rewrite app_length, IH. unfold block, list_sum. destruct (an_pub N); reflexivity.
Qed.
Lemma apply_gotos_length gs : forall states upd, List.length (fst (apply_gotos gs states upd)) = List.length states.
Proof. induction gs as [|[[i X] j] gs IH]; intros states upd; cbn [apply_gotos]; [reflexivity|]. rewrite IH. apply update_nth_length. Qed.
Lemma terminals_length (l : list conversion) g m g' m' : foldM (lower_terminal (A := A)) l (g, m) = Ok (g', m') -> g_nts g' = g_nts g.
Proof.
  intro H. revert H. refine (foldM_inv (fun x => g_nts (fst x) = g_nts g) _ l _ (g, m) (g', m') eq_refl).
  intros [h mh] c [h' mh'] _ Hh Hc. cbn [fst] in *. unfold lower_terminal in Hc. apply bind_Ok in Hc. destruct Hc as ((h1 & i) & H1 & Hc).
  unfold new_terminal in H1. apply bind_Ok in H1. destruct H1 as (j & _ & H1). injection H1 as <- _.
  destruct (map_get _ _ _); [discriminate|]. injection Hc as <- _. exact Hh.
Qed.
Lemma lower_u32_length (l : list (ast_non_terminal A)) ts g : lower_u32 l ts = Ok g -> List.length (g_nts g) = n_lowered l.
Proof.
  unfold lower_u32. intro H. apply bind_Ok in H. destruct H as ((g0 & ti) & H0 & H). apply terminals_length in H0.
  destruct (fold_left lower_non_terminal_u32 l (g0, [])) as [g1 ni] eqn:E. apply decls_length in E. apply prods_length in H. rewrite H, E, H0. reflexivity.
Qed.
Lemma lower_u32_same (l : list (ast_non_terminal A)) ts : (N.of_nat (n_lowered l) <= 4294967296)%N -> lower_u32 l ts = lower l ts.
Proof.
  intro H. unfold lower_u32, lower. destruct (foldM lower_terminal ts (grammar_new, [])) as [[g0 ti]| |] eqn:E; cbn [bind]; auto.
  apply terminals_length in E. rewrite decls_same; [reflexivity|]. rewrite E. exact H.
Qed.
End Sizes.

(** ** A module with an entry point has at most 2^32 non-terminals *)
Section Bound.
Context {A : Type}.
Lemma table_states ho (g : grammar nat) states tb : build_lr1_table ho g states = Ok tb -> tb_n_states tb = List.length states.
Proof.
  unfold build_lr1_table. refine (foldM_inv (fun t => tb_n_states t = List.length states) _ _ _ (table_new (List.length states)) tb eq_refl).
  intros t [s st] t' _ Ht Hs. revert Hs. refine (foldM_inv (fun t => tb_n_states t = List.length states) _ _ _ t t' Ht).
  clear. intros t it t' _ Ht H. unfold table_item in H. apply bind_Ok in H. destruct H as (t1 & H1 & H).
  assert (E1 : tb_n_states t1 = tb_n_states t).
  { destruct (next_terminal g it); [|congruence]. destruct (map_get _ _ _); [|congruence]. unfold add_shift in H1.
    destruct (get_action _ _ _) as [[s'| |]|]; try discriminate; try (injection H1 as <-; reflexivity).
    destruct (Nat.eqb _ _); [|discriminate]. injection H1 as <-; reflexivity. }
  destruct (get_non_terminal g (it_nt it)) as [n|]; [|discriminate]. apply bind_Ok in H. destruct H as (t2 & H2 & H).
  assert (E2 : tb_n_states t2 = tb_n_states t1).
  { destruct (is_complete g it && negb (nt_public n)); [|congruence]. destruct (get_production _ _ _); [|discriminate]. unfold add_reduce in H2.
    destruct (get_action _ _ _) as [[s'| |]|]; try discriminate. injection H2 as <-; reflexivity. }
  apply bind_Ok in H. destruct H as (t3 & H3 & H).
  assert (E3 : tb_n_states t3 = tb_n_states t2).
  { destruct (nt_public n && Nat.eqb (it_cursor it) 1 && match it_la it with None => true | Some _ => false end); [|congruence]. destruct (Nat.eqb _ _); [|discriminate]. injection H3 as <-; reflexivity. }
  injection H as <-. rewrite add_gotos_n. congruence.
Qed.
Lemma entries_states ho fuel (g : grammar A) tbl states entries : generate_lr1_automaton ho fuel g tbl = Ok (states, entries) ->
  states = [] -> entries = [].
Proof.
  unfold generate_lr1_automaton. intro H. apply bind_Ok in H. destruct H as (e & He & H). apply bind_Ok in H. destruct H as (sts & Hs & H). injection H as -> <-.
  assert (He' : ea_states e = [] -> ea_entries e = []).
  { revert He. refine (foldM_inv (fun e => ea_states e = [] -> ea_entries e = []) _ _ _ {| ea_states := []; ea_indices := []; ea_entries := [] |} e (fun _ => eq_refl)).
    intros b [n N] b' _ Hb Hx. unfold add_entry in Hx. destruct (nt_public N); [|injection Hx as <-; exact Hb]. destruct (Nat.eqb _ _); [|discriminate].
    apply bind_Ok in Hx. destruct Hx as (i0 & _ & Hx). injection Hx as <-. cbn. intro E. destruct (ea_states b); discriminate. }
  assert (Hl : forall n ss idx sts, automaton_loop ho n fuel g tbl ss idx = Ok sts -> List.length ss <= List.length sts).
  { clear. induction n as [|n IH]; intros ss idx sts H; cbn [automaton_loop] in H; [discriminate|].
    apply bind_Ok in H. destruct H as (((ss1 & idx1) & upd) & H1 & H). unfold automaton_round in H1. apply bind_Ok in H1. destruct H1 as (r & _ & H1).
    match type of H1 with context [apply_gotos ?a ?b ?c] => pose proof (apply_gotos_length a b c) as L; destruct (apply_gotos a b c) as [ss2 u2] end.
    injection H1 as <- <- <-. cbn in L. rewrite app_length in L. destruct u2; [apply IH in H; lia|injection H as <-; lia]. }
  intro E. subst. apply Hl in Hs. apply He'. destruct (ea_states e); auto. cbn in Hs. lia.
Qed.
Lemma parser_bound ho (Hho : hash_order_ok ho) fuel (g : grammar A) te gp : generate_lr1_parser ho fuel g te = Ok gp -> gp_parsers gp <> [] ->
  (N.of_nat (List.length (g_nts g)) <= 4294967296)%N.
Proof.
  intros H Hp. destruct (generate_steps ho _ _ _ _ H) as
    (tbl & states & entries & fns & g' & tb & gv & H1 & H2 & H3 & H4 & H5 & H6 & H7 & H8 & _).
  assert (Hs : states <> []).
  { intro E. pose proof (entries_states _ _ _ _ _ _ H2 E) as Ee. subst entries.
    assert (En : ho_entries ho [] = []) by (apply Permutation_nil, Permutation_sym,  (hok_entries _ Hho)). rewrite En in H8. cbn in H8. congruence. }
  pose proof (table_states _ _ _ _ H4) as Hn. unfold generate_goto_vec in H6. rewrite Hn in H6.
  destruct states as [|st states]; [congruence|]. cbn [List.length seq mapM] in H6. apply bind_Ok in H6. destruct H6 as (row & Hr & _).
  pose proof (generate_semantic_action_table_spec _ _ _ _ H3) as Hgo. pose proof (go_len _ _ _ _ Hgo) as Hl. rewrite Hl in Hr. unfold n_non_terminals in Hr.
  destruct (List.length (g_nts g)) as [|k] eqn:Ek; [cbn; lia|].
  apply mapM_Forall2 in Hr. assert (Hk : nth_error (seq 0 (S k)) k = Some k) by (rewrite nth_error_seq; assert (E : k <? S k = true) by (apply Nat.ltb_lt; lia); rewrite E; reflexivity).
  destruct (Forall2_nth_error _ _ _ Hr _ _ Hk) as (y & _ & Hy). apply bind_Ok in Hy. destruct Hy as (z & Hz & _). apply u32_spec in Hz. lia.
Qed.
End Bound.

(** With the cast the macro generates a module with an entry point if and only if it does without, and it is the same
    module.  (A module without entry points cannot be run.) *)
Theorem c53_cast_harmless {A} (items : list (grammar_item A)) ho fuel gp : hash_order_ok ho -> gp_parsers gp <> [] ->
  (macro_u32 ho fuel items = Ok gp <-> macro ho fuel items = Ok gp).
Proof.
  intros Hho Hp. unfold macro_u32, macro. destruct (foldM collect_item items _) as [acc| |]; cbn [bind]; try tauto.
  destruct (ia_token acc) as [te|]; [|tauto]. split; intro H.
  - pose proof H as H0. apply bind_Ok in H. destruct H as (g & Hl & Hg). pose proof (parser_bound ho Hho fuel g te gp Hg Hp) as Hb.
    rewrite (lower_u32_length _ _ _ Hl) in Hb. rewrite <- (lower_u32_same _ _ Hb). exact H0.
  - pose proof H as H0. apply bind_Ok in H. destruct H as (g & Hl & Hg). pose proof (parser_bound ho Hho fuel g te gp Hg Hp) as Hb.
    assert (Hn : List.length (g_nts g) = n_lowered (ia_nts acc)).
    { unfold lower in Hl. apply bind_Ok in Hl. destruct Hl as ((g0 & ti) & E0 & Hl). apply terminals_length in E0.
      rewrite nts_fold in Hl. apply prods_length in Hl. rewrite Hl. cbn [g_nts]. rewrite E0. cbn [g_nts grammar_new app List.length]. apply skeleton_length. }
    rewrite Hn in Hb. rewrite (lower_u32_same _ _ Hb). exact H0.
Qed.
Example case_c53 : macro_u32 ho_id 100 arith = Ok arith_gp.
Proof.
  apply (c53_cast_harmless arith ho_id 100 arith_gp ho_id_ok); [discriminate|]. vm_compute. reflexivity.
Qed.
(** The cast does wrap around. *)
Example wraps : as_u32 (N.to_nat 4294967297) = 1.
Proof. unfold as_u32. rewrite N2Nat.id. reflexivity. Qed.
