(** * EmitBinds: the identifiers the emitted module binds *)
From Coq Require Import NArith Ascii.
From Verif Require Import NamesProofs StageProofs PropertiesHygiene.
From Verif Require Export EmitProofs.
Local Open Scope string_scope. Local Open Scope list_scope.

Lemma flat_map_nil {X Y} (f : X -> list Y) (l : list X) : (forall x, In x l -> f x = []) -> flat_map f l = [].
Proof. induction l as [|x l IH]; intro H; cbn; [reflexivity|]. rewrite (H x (or_introl eq_refl)), IH; auto. intros y Hy. apply H. right; auto. Qed.
Lemma flat_map_map {X Y Z} (f : Y -> list Z) (h : X -> Y) (l : list X) : flat_map f (map h l) = flat_map (fun x => f (h x)) l.
Proof. induction l as [|x l IH]; cbn; [reflexivity|]. rewrite IH. reflexivity. Qed.
Lemma flat_map_same {X Y} (f h : X -> list Y) (l : list X) : (forall x, In x l -> f x = h x) -> flat_map f l = flat_map h l.
Proof. induction l as [|x l IH]; intro H; cbn; [reflexivity|]. rewrite (H x (or_introl eq_refl)), IH; auto. intros y Hy. apply H. right; auto. Qed.
Lemma flat_map_single_list {X Y} (h : X -> Y) (l : list X) : flat_map (fun x => [h x]) l = map h l.
Proof. induction l as [|x l IH]; cbn; [reflexivity|]. rewrite IH. reflexivity. Qed.

(** Patterns *)
Lemma ignore_binds p : rpat_binds (pattern_ignore p) = [].
Proof.
  induction p as [path ps H|path fs dots H|ps H|path| | |l|t] using pattern_ind'; cbn; auto.
  - rewrite flat_map_map. apply flat_map_nil. rewrite Forall_forall in H. exact H.
  - rewrite flat_map_map. apply flat_map_nil. intros [f q] Hin. rewrite Forall_forall in H. exact (H _ Hin).
  - rewrite flat_map_map. apply flat_map_nil. rewrite Forall_forall in H. exact H.
Qed.
Lemma gen_list_names ps : Forall (fun p => forall ids, exists r, gen_pattern p ids = (r, ids ++ idents (List.length ids) (chosen p)) /\ rpat_binds r = idents (List.length ids) (chosen p)) ps ->
  forall ids, exists rs, gen_list gen_pattern ps ids = (rs, ids ++ idents (List.length ids) (List.length (flat_map pattern_types ps))) /\
    flat_map rpat_binds rs = idents (List.length ids) (List.length (flat_map pattern_types ps)).
Proof.
  induction 1 as [|p ps Hp0 Hps IH]; intro ids; cbn [gen_list flat_map].
  - exists []. split; [cbn; rewrite app_nil_r; reflexivity|]. reflexivity.
  - destruct (Hp0 ids) as (r & E1 & Hr). rewrite E1. destruct (IH (ids ++ idents (List.length ids) (chosen p))) as (rs & E2 & Hrs).
    rewrite E2. rewrite app_length, idents_length in *. exists (r :: rs). split.
    + rewrite app_length, idents_app, <- app_assoc. reflexivity.
    + cbn [flat_map]. rewrite Hr, Hrs, app_length, idents_app. reflexivity.
Qed.
Lemma gen_fields_names fs : Forall (fun x => forall ids, exists r, gen_pattern (snd x) ids = (r, ids ++ idents (List.length ids) (chosen (snd x))) /\ rpat_binds r = idents (List.length ids) (chosen (snd x))) fs ->
  forall ids, let n := List.length (flat_map (fun '(_, q) => pattern_types q) fs) in
  exists rs, gen_fields gen_pattern fs ids = (rs, ids ++ idents (List.length ids) n) /\ flat_map (fun '(_, r) => rpat_binds r) rs = idents (List.length ids) n.
Proof.
  induction 1 as [|[f p] fs Hp0 Hfs IH]; intro ids; cbn [gen_fields flat_map].
  - exists []. split; [cbn; rewrite app_nil_r; reflexivity|]. reflexivity.
  - cbn [snd] in Hp0. destruct (Hp0 ids) as (r & E1 & Hr). rewrite E1. destruct (IH (ids ++ idents (List.length ids) (chosen p))) as (rs & E2 & Hrs).
    rewrite E2. rewrite app_length, idents_length in *. exists ((f, r) :: rs). split.
    + rewrite app_length, idents_app, <- app_assoc. reflexivity.
    + cbn [flat_map]. rewrite Hr, Hrs, app_length, idents_app. reflexivity.
Qed.
Lemma gen_pattern_names p : forall ids, exists r, gen_pattern p ids = (r, ids ++ idents (List.length ids) (chosen p)) /\ rpat_binds r = idents (List.length ids) (chosen p).
Proof.
  induction p as [path ps H|path fs dots H|ps H|path| | |l|t] using pattern_ind'; intro ids; unfold chosen; cbn [gen_pattern pattern_types].
  - destruct (gen_list_names ps H ids) as (rs & E1 & Hm). rewrite E1. eexists; split; [reflexivity|exact Hm].
  - destruct (gen_fields_names fs H ids) as (rs & E1 & Hm). rewrite E1. eexists; split; [reflexivity|exact Hm].
  - destruct (gen_list_names ps H ids) as (rs & E1 & Hm). rewrite E1. eexists; split; [reflexivity|]. rewrite <- Hm. unfold tuple_no_trailing_comma.
    destruct rs as [|r [|r2 rs]]; try reflexivity; try (destruct r; reflexivity). destruct r; cbn; rewrite ?app_nil_r; reflexivity.
  - eexists; split; [cbn; rewrite app_nil_r; reflexivity|reflexivity].
  - eexists; split; [cbn; rewrite app_nil_r; reflexivity|reflexivity].
  - eexists; split; [cbn; rewrite app_nil_r; reflexivity|reflexivity].
  - eexists; split; [cbn; rewrite app_nil_r; reflexivity|reflexivity].
  - eexists; split; [reflexivity|reflexivity].
Qed.

Section Binds.
Context {A : Type}.
Variables (te : token_enum) (g : grammar (lexpr A)) (gp : generated (lexpr A)).

Definition pop_names (f : sem_fn (lexpr A)) : list string := flat_map (fun st => match st with PopBind _ x _ => [x] | PopIgnore => [] end) (sf_pops f).
Definition generic_names : list string :=
  ["input"; "extract_value"; "init_state"; "action_idx"; "state_stack"; "value_stack"; "token"; "state"; "terminal_idx"; "err"; "token";
   "found"; "expected"; "next_state"; "token_"; "token"; "non_terminal_idx"; "n_symbols"; "semantic_action_idx"; "state"; "next_state"].

Lemma body_binds pops v (a : lexpr A) : expr_binds (e_body pops v a) = flat_map (fun st => match st with PopBind _ x _ => [x] | PopIgnore => [] end) pops.
Proof. induction pops as [|[|m x e] pops IH]; cbn; [destruct a; reflexivity|exact IH|rewrite IH; reflexivity]. Qed.
Lemma option_binds {X} (f : X -> expr A) o : (forall x, expr_binds (f x) = []) -> expr_binds (e_option f o) = [].
Proof. intro H. destruct o as [x|]; cbn; [rewrite H|]; reflexivity. Qed.

Lemma emit_binds : module_binds (emit te g gp) =
  "token" :: "token" :: flat_map (fun '(i, c) => idents 0 (chosen (cv_to c))) (enumerate (te_conversions te)) ++
  flat_map (fun '(i, c) => "self" :: idents 0 (chosen (cv_to c))) (enumerate (te_conversions te)) ++
  flat_map (fun _ => ["self"; "f"]) (seq 0 (n_variants g)) ++
  flat_map (fun d => "value_stack" :: pop_names (snd d)) (fn_decls g gp) ++
  generic_names ++ flat_map (fun _ => ["input"]) (gp_parsers gp).
Proof.
  unfold module_binds, emit. rewrite !flat_map_app.
  cbn [flat_map e_lr_action e_action_array e_goto_array e_parse_error e_token_terminal_idx e_token_value e_result_type e_result_impl e_semantic_actions e_expected e_terminal_strs app].
  unfold fn_binds. cbn [fd_params fd_body expr_binds app].
  assert (H1 : flat_map expr_binds (map (fun row => XArray (map (e_option (e_action (A := A))) row)) (gp_action gp)) = []).
  { rewrite flat_map_map. apply flat_map_nil. intros row _. cbn. rewrite flat_map_map. apply flat_map_nil. intros o _. apply option_binds. intros [| |]; reflexivity. }
  assert (H2 : flat_map expr_binds (map (fun row => XArray (A := A) (map (e_option (XInt U32)) row)) (gp_goto gp)) = []).
  { rewrite flat_map_map. apply flat_map_nil. intros row _. cbn. rewrite flat_map_map. apply flat_map_nil. intros o _. apply option_binds. reflexivity. }
  rewrite H1, H2. cbn [app]. f_equal.
  rewrite (flat_map_map (fun '(p, b) => pat_binds p ++ expr_binds b)).
  rewrite (flat_map_nil (fun x : nat * conversion => let '(p, b) := let '(i, c) := x in (PUser (pattern_ignore (cv_to c)), XInt Usize i) in pat_binds p ++ expr_binds (A := A) b)).
  2: { intros [i c] _. cbn. rewrite ignore_binds. reflexivity. }
  cbn [app]. rewrite !flat_map_app. rewrite <- !app_assoc. f_equal. f_equal.
  { rewrite flat_map_map. apply flat_map_same. intros [i c] _. unfold generate_pattern_syn_with_idents. destruct (gen_pattern_names (cv_to c) []) as (r & E1 & Hr). rewrite E1. cbn [List.length app pat_binds expr_binds] in *.
    rewrite Hr, flat_map_map. cbn [expr_binds]. rewrite (flat_map_nil (fun _ : string => @nil string)) by reflexivity. rewrite app_nil_r. reflexivity. }
  f_equal.
  { rewrite flat_map_map. apply flat_map_same. intros [i c] _. unfold e_token_method. cbn [fd_params fd_body expr_binds app flat_map pat_binds snd].
    f_equal. rewrite flat_map_map. cbn [pat_binds]. rewrite flat_map_single_list, map_id.
    assert (Ht : forall l : list string, expr_binds (A := A) (e_tuple (map XId l)) = []).
    { intro l. assert (Hx : flat_map (expr_binds (A := A)) (map XId l) = []) by (rewrite flat_map_map; apply flat_map_nil; reflexivity).
      unfold e_tuple. destruct l as [|x1 [|x2 l]]; [reflexivity|reflexivity|exact Hx]. }
    rewrite Ht, !app_nil_r. reflexivity. }
  f_equal; [rewrite flat_map_map; reflexivity|]. cbn [app]. f_equal.
  { rewrite flat_map_map. apply flat_map_same. intros d _. unfold e_action_fn, fn_binds. cbn [fd_params fd_body app]. rewrite body_binds. reflexivity. }
  rewrite (flat_map_map expr_binds), (flat_map_nil (fun x : string => expr_binds (XId x))) by reflexivity.
  rewrite (flat_map_map expr_binds), (flat_map_nil (fun x : string => expr_binds (XStr x))) by reflexivity.
  rewrite (flat_map_map expr_binds), (flat_map_nil (fun x : string => expr_binds (XStr x))) by reflexivity. cbn [app].
  f_equal.
  induction (gp_parsers gp) as [|pr l IH]; [reflexivity|]. cbn [flat_map e_parser app]. rewrite IH. reflexivity.
Qed.

Lemma body_users pops v (a : lexpr A) : expr_users (e_body pops v a) = match a with EUser e => [e] | EVar _ => [] end.
Proof. induction pops as [|[|m x e] pops IH]; cbn; [destruct a; reflexivity|exact IH|exact IH]. Qed.
Lemma option_users {X} (f : X -> expr A) o : (forall x, expr_users (f x) = []) -> expr_users (e_option f o) = [].
Proof. intro H. destruct o as [x|]; cbn; [rewrite H|]; reflexivity. Qed.
Lemma idents_users (l : list string) : flat_map (expr_users (A := A)) (map XId l) = [].
Proof. rewrite flat_map_map. apply flat_map_nil. reflexivity. Qed.
Lemma tuple_users (l : list string) : expr_users (A := A) (e_tuple (map XId l)) = [].
Proof. unfold e_tuple. pose proof (idents_users l) as H. destruct l as [|x1 [|x2 l]]; [reflexivity|reflexivity|exact H]. Qed.
Lemma emit_users : List.length (fn_names g) = List.length (gp_sem_actions gp) ->
  module_users (emit te g gp) = flat_map (fun f => match sf_action f with EUser e => [e] | EVar _ => [] end) (gp_sem_actions gp).
Proof.
  intro Hlen. unfold module_users, emit. rewrite !flat_map_app.
  cbn [flat_map e_lr_action e_action_array e_goto_array e_parse_error e_token_terminal_idx e_token_value e_result_type e_result_impl e_semantic_actions e_expected e_terminal_strs app].
  cbn [fd_body expr_users app].
  assert (H1 : flat_map expr_users (map (fun row => XArray (map (e_option (e_action (A := A))) row)) (gp_action gp)) = []).
  { rewrite flat_map_map. apply flat_map_nil. intros row _. cbn. rewrite flat_map_map. apply flat_map_nil. intros o _. apply option_users. intros [| |]; reflexivity. }
  assert (H2 : flat_map expr_users (map (fun row => XArray (A := A) (map (e_option (XInt U32)) row)) (gp_goto gp)) = []).
  { rewrite flat_map_map. apply flat_map_nil. intros row _. cbn. rewrite flat_map_map. apply flat_map_nil. intros o _. apply option_users. reflexivity. }
  rewrite H1, H2. cbn [app].
  rewrite (flat_map_nil _ (map _ (enumerate (te_conversions te)))).
  2: { intros [p b] Hin. apply in_map_iff in Hin. destruct Hin as ([i c] & E & _). injection E as _ <-. reflexivity. }
  rewrite (flat_map_nil _ (map _ (enumerate (te_conversions te)))).
  2: { intros [p b] Hin. apply in_map_iff in Hin. destruct Hin as ([i c] & E & _). destruct (generate_pattern_syn_with_idents (cv_to c)) as [r xs]. injection E as _ <-.
       cbn [expr_users app]. apply idents_users. }
  rewrite flat_map_app.
  rewrite (flat_map_nil _ (map _ (enumerate (te_conversions te)))).
  2: { intros [x f] Hin. apply in_map_iff in Hin. destruct Hin as ([i c] & E & _). unfold e_token_method in E. injection E as _ <-. cbn [fd_body expr_users flat_map app]. rewrite tuple_users. reflexivity. }
  rewrite (flat_map_nil _ (map e_non_terminal_method _)).
  2: { intros [x f] Hin. apply in_map_iff in Hin. destruct Hin as (i & E & _). unfold e_non_terminal_method in E. injection E as _ <-. reflexivity. }
  rewrite idents_users. rewrite (flat_map_map expr_users XStr), (flat_map_nil (fun x : string => expr_users (XStr x))) by reflexivity.
  rewrite (flat_map_map expr_users XStr), (flat_map_nil (fun x : string => expr_users (XStr x))) by reflexivity.
  assert (H3 : flat_map (fun i : item A => match i with
                     | IStatic _ _ e => expr_users e
                     | IFn _ f => expr_users (fd_body f)
                     | IImpl _ fs => flat_map (fun '(_, f) => expr_users (fd_body f)) fs
                     | IEnum _ _ _ | IStruct _ => []
                     end) (flat_map e_parser (gp_parsers gp)) = []).
  { induction (gp_parsers gp) as [|pr l IH]; [reflexivity|]. cbn [flat_map e_parser app]. exact IH. }
  rewrite H3. cbn [app]. cbn [e_parse_generic fd_body]. rewrite app_nil_r.
  assert (H4 : forall l1 (l2 : list (sem_fn (lexpr A))), List.length l1 = List.length l2 ->
    flat_map (fun i : item A => match i with
                     | IStatic _ _ e => expr_users e
                     | IFn _ f => expr_users (fd_body f)
                     | IImpl _ fs => flat_map (fun '(_, f) => expr_users (fd_body f)) fs
                     | IEnum _ _ _ | IStruct _ => []
                     end) (map e_action_fn (combine l1 l2)) = flat_map (fun f => match sf_action f with EUser e => [e] | EVar _ => [] end) l2).
  { clear. induction l1 as [|x l1 IH]; intros [|f l2] H; cbn in *; try discriminate; [reflexivity|]. rewrite body_users. f_equal. apply IH. injection H as H; exact H. }
  unfold fn_decls. rewrite (H4 _ _ Hlen). cbn. rewrite ?app_nil_r. reflexivity.
Qed.
End Binds.
