(** * PropertiesCode: properties of the expansion, continued (C24-C34, C37, C39)

    The emitted arrays, semantic actions, token functions and entry points, lowering and declarations.
    Vocabulary: GenSpec.v, Spec.v. *)
From Verif Require Import ActionProofs Reorder StageProofs.
From Verif Require Export PropertiesGen Properties.
From Coq Require Import NArith.
Local Open Scope string_scope. Local Open Scope list_scope.




(** ** C24: entry states *)

(** The entry points are listed once each, with the state that holds their initial item. *)
Theorem c24_entries {A} (items : list (grammar_item A)) g tbl states entries : stages items g tbl states entries ->
  NoDup (map fst entries) /\
  forall n, entry_point g n <-> exists e, In (n, e) entries /\ holds states e {| it_nt := n; it_prod := 0; it_cursor := 0; it_la := None |}.
Proof.
  intros Hst. destruct (stages_data items _ _ _ _ Hst) as (ti & Hlow & Hwf & Haut & Hso & Hfc).
  split; [apply (ao_entries_nodup _ _ _ _ Haut)|]. intro n. split.
  - intro Hn. destruct (ao_entries_complete _ _ _ _ Haut n Hn) as (e & He). exists e. split; auto.
    destruct (ao_entry _ _ _ _ Haut n e He) as (_ & st & Hs & _ & Hi). exists st. split; auto. apply Hi. constructor. reflexivity.
  - intros (e & He & _). apply (ao_entry _ _ _ _ Haut n e He).
Qed.
Example case_c24_entries : forall n, entry_point arith_g n <-> exists e, In (n, e) arith_entries /\
  holds arith_states e {| it_nt := n; it_prod := 0; it_cursor := 0; it_la := None |}.
Proof. exact (proj2 (c24_entries arith arith_g arith_tbl arith_states arith_entries arith_stages)). Qed.

(** ** C25: the emitted arrays *)
Theorem c25_dimensions {A} (items : list (grammar_item A)) g tbl states entries gp : expansion_of items g tbl states entries gp ->
  List.length (gp_action gp) = List.length states /\ Forall (fun row => List.length row = n_terminals g + 1) (gp_action gp) /\
  List.length (gp_goto gp) = List.length states /\ Forall (fun row => List.length row = n_non_terminals g) (gp_goto gp) /\
  List.length (gp_expected gp) = List.length states /\ gp_n_terminals gp = n_terminals g /\
  gp_terminal_strs gp = map cv_from (cs items) ++ ["end-of-input"%string] /\ n_terminals g = List.length (cs items).
Proof.
  intro He. destruct (expansion_data items _ _ _ _ _ He) as (ti & act & Hlow & Hwf & Hgen & Hnd & Hsh & _).
  assert (Ht : g_terminals g = map cv_from (cs items)) by apply (lo_terms _ _ _ _ Hlow).
  split; [apply (sh_action_len _ _ _ _ Hsh)|]. split; [apply Forall_forall, (sh_action_row _ _ _ _ Hsh)|].
  split; [apply (sh_goto_len _ _ _ _ Hsh)|]. split; [apply Forall_forall, (sh_goto_row _ _ _ _ Hsh)|].
  split; [apply (sh_expected_len _ _ _ _ Hsh)|]. split; [apply (gn_nterm _ _ _ _ _ _ _ Hgen)|].
  split; [rewrite (gn_strs _ _ _ _ _ _ _ Hgen), Ht; reflexivity|]. unfold n_terminals. rewrite Ht. apply map_length.
Qed.
(** GOTO is the transition function on non-terminals (ACTION: see C17). *)
Theorem c25_goto {A} (items : list (grammar_item A)) g tbl states entries gp s n : expansion_of items g tbl states entries gp ->
  s < List.length states -> n < n_non_terminals g -> array_at (gp_goto gp) s n = Some (transition states s (NT n)).
Proof.
  intros He Hs Hn. destruct (expansion_data items _ _ _ _ _ He) as (ti & act & Hlow & Hwf & Hgen & _).
  exact (gn_goto _ _ _ _ _ _ _ Hgen s n Hs Hn).
Qed.
(** The strings of EXPECTED_TERMINALS list the columns of ACTION with an entry. *)
Theorem c25_expected {A} (items : list (grammar_item A)) g tbl states entries gp s : expansion_of items g tbl states entries gp ->
  s < List.length states ->
  exists listed, nth_error (gp_expected gp) s = Some (listing items listed) /\
    forall t name, nth_error (map cv_from (cs items)) t = Some name ->
      (listed name = true <-> exists r, array_at (gp_action gp) s t = Some (Some r)).
Proof.
  intros He Hs. destruct (expansion_data items _ _ _ _ _ He) as (ti & act & Hlow & Hwf & Hgen & _).
  assert (Ht : g_terminals g = map cv_from (cs items)) by apply (lo_terms _ _ _ _ Hlow).
  pose proof (gn_expected _ _ _ _ _ _ _ Hgen s Hs) as Hx.
  pose proof (ti_dup _ _ _ (lo_ti _ _ _ _ Hlow)) as Hdup.
  set (index := fun nm => find (fun i => match nth_error (map cv_from (cs items)) i with Some x => String.eqb x nm | None => false end)
                 (seq 0 (List.length (cs items)))).
  set (listed := fun nm => match index nm with Some t => match act s (Some t) with Some _ => true | None => false end | None => false end).
  assert (Hidx : forall t nm, nth_error (map cv_from (cs items)) t = Some nm -> index nm = Some t).
  { intros t nm Hn. unfold index. assert (Hlt : t < List.length (cs items)) by (rewrite <- (map_length cv_from); apply nth_error_Some; congruence).
    destruct (find _ _) as [i|] eqn:Ef.
    - apply find_some in Ef. destruct Ef as (_ & Ef). destruct (nth_error (map cv_from (cs items)) i) as [x|] eqn:Ei; [|discriminate].
      apply String.eqb_eq in Ef. subst x. f_equal. eapply (proj1 (NoDup_nth_error _) Hdup); [apply nth_error_Some; congruence|congruence].
    - exfalso. eapply find_none in Ef; [|apply in_seq; split; [lia|]; exact Hlt]. rewrite Hn, String.eqb_refl in Ef. discriminate. }
  exists listed. split.
  - rewrite Hx. f_equal. unfold listing, join. f_equal. rewrite Ht.
    assert (Hgen' : forall l k, (forall i nm, nth_error l i = Some nm -> index nm = Some (k + i)) ->
      flat_map (fun '(t, str) => match act s (Some t) with Some _ => [str] | None => [] end) (combine (seq k (List.length l)) l) = filter listed l).
    { induction l as [|nm l IH]; intros k Hk; [reflexivity|]. cbn [List.length seq combine flat_map filter].
      rewrite (IH (S k)) by (intros i nm' Hi; rewrite (Hk (S i) nm' Hi); f_equal; lia).
      unfold listed at 2. rewrite (Hk 0 nm eq_refl), Nat.add_0_r. destruct (act s (Some k)); reflexivity. }
    unfold enumerate. apply Hgen'. intros i nm Hi. apply Hidx; auto.
  - intros t nm Hn. unfold listed. rewrite (Hidx t nm Hn).
    assert (Hlt : t < n_terminals g) by (unfold n_terminals; rewrite Ht; apply nth_error_Some; congruence).
    destruct (gn_action _ _ _ _ _ _ _ Hgen s (Some t) Hs Hlt) as (r & Hr & Hf). cbn [la_col] in Hr.
    change (index2 (gp_action gp) s t) with (array_at (gp_action gp) s t) in Hr. rewrite Hr.
    destruct (act s (Some t)) as [a|] eqn:Ea; split; intro H; auto; try discriminate.
    + destruct r as [r|]; [eauto|]. destruct a; contradiction.
    + destruct H as (r' & E). injection E as ->. contradiction.
Qed.
Lemma array_lt {X} (a : list (list X)) i j x : array_at a i j = Some x -> i < List.length a.
Proof. unfold array_at. destruct (nth_error a i) eqn:E; [|discriminate]. intros _. apply nth_error_Some. congruence. Qed.
(** Every number stored in the module indexes the array it is used with. *)
Theorem c25_in_range {A} (items : list (grammar_item A)) gp : expands items gp ->
  (forall s t r, array_at (gp_action gp) s t = Some (Some r) ->
     match r with
     | RShift s' => s' < List.length (gp_action gp)
     | RReduce nt k idx => idx < List.length (gp_sem_actions gp) /\ Forall (fun row => nt < List.length row) (gp_goto gp)
     | RAccept => True
     end) /\
  (forall s n s', array_at (gp_goto gp) s n = Some (Some s') -> s' < List.length (gp_action gp)) /\
  List.length (gp_goto gp) = List.length (gp_action gp) /\ List.length (gp_expected gp) = List.length (gp_action gp) /\
  (forall pr, In pr (gp_parsers gp) -> pr_init_state pr < List.length (gp_action gp) /\ pr_action_idx pr < List.length (gp_sem_actions gp)) /\
  Forall (fun row => List.length row = List.length (gp_terminal_strs gp) /\ gp_n_terminals gp < List.length row) (gp_action gp).
Proof.
  intro Hx. destruct (expands_expansion items gp Hx) as (g & tbl & states & entries & He).
  destruct (c25_dimensions items _ _ _ _ _ He) as (D1 & D2 & D3 & D4 & D5 & D6 & D7 & D8).
  destruct (expansion_data items _ _ _ _ _ He) as (ti & act & Hlow & Hwf & Hgen & _).
  pose proof (gn_aut _ _ _ _ _ _ _ Hgen) as Haut.
  assert (Htr : forall s X s', transition states s X = Some s' -> s' < List.length states).
  { intros s X s' H. unfold transition in H. destruct (nth_error states s) as [st|] eqn:Es; [|discriminate].
    destruct (ao_goto _ _ _ _ Haut s st X s' Es H) as (st' & Hs' & _). apply nth_error_Some. congruence. }
  split; [|split; [|split; [|split; [|split]]]]; try congruence.
  - intros s t r Hr. assert (Hs : s < List.length states) by (rewrite <- D1; eapply array_lt; eauto).
    assert (Hcol : exists la, lookahead g la /\ column g la = t).
    { unfold array_at in Hr. destruct (nth_error (gp_action gp) s) as [row|] eqn:Er; [|discriminate].
      rewrite Forall_forall in D2. specialize (D2 row (nth_error_In _ _ Er)).
      assert (Hlt : t < List.length row) by (apply nth_error_Some; congruence). rewrite D2 in Hlt.
      destruct (Nat.eq_dec t (n_terminals g)) as [->|Hne]; [exists None; split; [exact Logic.I|reflexivity]|].
      exists (Some t). split; [cbn; lia|reflexivity]. }
    destruct Hcol as (la & Hla & <-). pose proof (c17_entries items _ _ _ _ _ s la r He Hs Hla Hr) as H. destruct r as [s'|nt k idx|]; auto.
    + destruct H as (it & t & _ & _ & _ & Ht). rewrite D1. eauto.
    + destruct H as (it & pr & f & _ & _ & (N & HN & _) & _ & _ & _ & _ & Hf & _). split; [apply nth_error_Some; congruence|].
      apply Forall_forall. intros row Hrow. rewrite Forall_forall in D4. rewrite (D4 row Hrow). eapply nt_in_range; eauto.
  - intros s n s' H. pose proof (array_lt _ _ _ _ H) as Hs. rewrite D3 in Hs. rewrite D1.
    assert (Hn : n < n_non_terminals g).
    { unfold array_at in H. destruct (nth_error (gp_goto gp) s) as [row|] eqn:Er; [|discriminate].
      rewrite Forall_forall in D4. rewrite <- (D4 row (nth_error_In _ _ Er)). apply nth_error_Some. congruence. }
    rewrite (c25_goto items _ _ _ _ _ s n He Hs Hn) in H. injection H as H. eauto.
  - intros pr Hpr. destruct (gn_parser _ _ _ _ _ _ _ Hgen pr Hpr) as (nt & e & N & f & q & Hin & _ & _ & _ & -> & _ & _ & Hf & _).
    destruct (ao_entry _ _ _ _ Haut nt e Hin) as (_ & st & Hs & _). rewrite D1. split; apply nth_error_Some; congruence.
  - apply Forall_forall. intros row Hrow. rewrite Forall_forall in D2. rewrite (D2 row Hrow), D6, D7, app_length, map_length, <- D8. cbn. lia.
Qed.
Example case_c25 : (List.length (gp_action arith_gp), List.length (gp_goto arith_gp)) = (24, 24) /\
  array_at (gp_goto arith_gp) 7 3 = Some (transition arith_states 7 (NT 3)) /\ array_at (gp_goto arith_gp) 7 3 = Some (Some 15).
Proof.
  destruct (c25_dimensions arith arith_g arith_tbl arith_states arith_entries arith_gp arith_expansion) as (H1 & _ & H2 & _). rewrite H1, H2.
  split; [reflexivity|]. split; [|reflexivity].
  apply (c25_goto arith arith_g arith_tbl arith_states arith_entries arith_gp 7 3 arith_expansion); vm_compute; lia.
Qed.
Example case_c25_expected : exists listed, nth_error (gp_expected arith_gp) 3 = Some (listing arith listed).
Proof.
  destruct (c25_expected arith arith_g arith_tbl arith_states arith_entries arith_gp 3 arith_expansion) as (l & H & _); [vm_compute; lia|eauto].
Qed.

(** ** C26: numbers fit the types they are emitted as *)
Theorem c26_bounds {A} (items : list (grammar_item A)) gp : expands items gp ->
  (forall s t r, array_at (gp_action gp) s t = Some (Some r) ->
     match r with
     | RShift s' => (N.of_nat s' < 2 ^ 32)%N
     | RReduce nt k idx => (N.of_nat nt < 2 ^ 16 /\ N.of_nat k < 2 ^ 16 /\ N.of_nat idx < 2 ^ 16)%N
     | RAccept => True
     end) /\
  (forall s n s', array_at (gp_goto gp) s n = Some (Some s') -> (N.of_nat s' < 2 ^ 32)%N) /\
  (forall pr, In pr (gp_parsers gp) -> (N.of_nat (pr_init_state pr) < 2 ^ 32 /\ N.of_nat (pr_action_idx pr) < 2 ^ 16)%N).
Proof.
  intro Hx. destruct (expands_expansion items gp Hx) as (g & tbl & states & entries & He).
  destruct (expansion_data items _ _ _ _ _ He) as (ti & act & Hlow & Hwf & Hgen & Hnd & Hsh & _).
  split; [|split].
  - intros s t r H. destruct (array_at_In _ _ _ _ H) as (row & _ & _ & H1 & H2).
    pose proof (sh_action_bound _ _ _ _ Hsh row _ H1 H2) as Hb. exact Hb.
  - intros s n s' H. destruct (array_at_In _ _ _ _ H) as (row & _ & _ & H1 & H2). exact (sh_goto_bound _ _ _ _ Hsh row _ H1 H2).
  - intros pr Hpr. exact (sh_parser_bound _ _ _ _ Hsh pr Hpr).
Qed.
(** One function per production and entry point, and at most 65536 of them: grammars with more panic. *)
Theorem c26_functions {A} (items : list (grammar_item A)) gp : expands items gp ->
  List.length (gp_sem_actions gp) =
    list_sum (map (fun N => List.length (an_productions N) + (if an_pub N then 1 else 0)) (nts items)) /\
  (N.of_nat (List.length (gp_sem_actions gp)) <= 2 ^ 16)%N.
Proof.
  intro Hx. destruct (expands_expansion items gp Hx) as (g & tbl & states & entries & He).
  destruct (expansion_data items _ _ _ _ _ He) as (ti & act & Hlow & Hwf & Hgen & Hnd & Hsh & ho & fuel & Hho & Hg & _).
  destruct (sem_actions_count ho fuel g _ gp Hg) as (H1 & H2). split; [|exact H2]. rewrite H1.
  destruct He as (ho' & fuel' & _ & _ & Hl & _). exact (lower_count _ _ _ Hl).
Qed.
Example case_c26 : List.length (gp_sem_actions arith_gp) = 8.
Proof. exact (proj1 (c26_functions arith arith_gp arith_expands)). Qed.

(** ** C27, C28, C29: semantic actions (the statement is [numbering] in GenSpec.v) *)
Theorem c27_numbering {A} (items : list (grammar_item A)) gp : distinct_names items -> expands items gp ->
  exists nt_number action_number variant, numbering items gp nt_number action_number variant.
Proof. intros Hn He. apply numbering_exists; auto. Qed.
(** E.g. the function of [E1 -> E1 "+" T]: on a stack with the values of [e "+" t] on top it pushes [e + t]. *)
Example case_c27 : exists nt_number action_number variant, numbering arith arith_gp nt_number action_number variant /\
  exists f, nth_error (gp_sem_actions arith_gp) (action_number "E1" 0) = Some f /\
    run_sem_fn (user_env arith_gp (fun v => v) sem vec_next) f
      [VNonTerminal (variant "T") (RVOther 2); VToken 2 []; VNonTerminal (variant "E1") (RVOther 3); VToken 0 []] [] =
    inl ([VNonTerminal (variant "E1") (RVOther 5); VToken 0 []], ["e + t"]).
Proof.
  destruct (c27_numbering arith arith_gp arith_names arith_expands) as (nn & an & va & H). exists nn, an, va. split; [exact H|].
  destruct (nb_function _ _ _ _ _ H "E1" 0 _ eq_refl) as (f & Hf & _ & Hrun). exists f. split; [exact Hf|].
  pose proof (Hrun _ _ _ _ _ (user_env arith_gp (fun v => v) sem vec_next) [BVal (RVOther 3); BTok []; BVal (RVOther 2)]
    [VNonTerminal (va "E1") (RVOther 3); VToken 2 []; VNonTerminal (va "T") (RVOther 2)] [VToken 0 []] []) as Hr.
  cbn [rev app] in Hr. rewrite Hr; [reflexivity|]. repeat constructor.
Qed.

(** ** C30: token classification *)

(** A token is classified by the first entry whose pattern matches it, and its value is built by that
    entry: the selected sub-values in source order. *)
Theorem c30_token_functions {A} (items : list (grammar_item A)) gp tok : plain_patterns items -> expands items gp ->
  match token_terminal_idx (gp_conversions gp) tok with
  | Some i => exists c fs, nth_error (cs items) i = Some c /\ pmatch (cv_to c) tok = Some fs /\
      (forall j d, j < i -> nth_error (cs items) j = Some d -> pmatch (cv_to d) tok = None) /\
      token_value (gp_conversions gp) tok = Some (i, fs) /\
      nth_error (gp_terminal_strs gp) i = Some (cv_from c)
  | None => token_value (gp_conversions gp) tok = None /\ forall c, In c (cs items) -> pmatch (cv_to c) tok = None
  end.
Proof.
  intros Hp Hx. destruct (expands_expansion items gp Hx) as (g & tbl & states & entries & He).
  destruct (c25_dimensions items _ _ _ _ _ He) as (_ & _ & _ & _ & _ & _ & D7 & _).
  destruct (expansion_data items _ _ _ _ _ He) as (ti & act & Hlow & Hwf & Hgen & _).
  rewrite (gn_conv _ _ _ _ _ _ _ Hgen), D7. pose proof (token_functions_spec (cs items) tok Hp) as H.
  destruct (first_match (cs items) tok) as [[s fs]|] eqn:E.
  - destruct H as (i & c & H1 & H2 & H3 & H4 & -> & ->). exists c, fs. repeat (split; [auto; fail|]).
    rewrite nth_error_app1; [apply map_nth_error; auto|]. rewrite map_length. apply nth_error_Some. congruence.
  - destruct H as (-> & ->). split; auto. clear - E. induction (cs items) as [|c l IH]; [contradiction|]. cbn in E.
    destruct (pmatch (cv_to c) tok) eqn:Ec; [discriminate|]. intros d [<-|Hd]; auto.
Qed.
Example case_c30 : token_terminal_idx (gp_conversions arith_gp) (RVCtor "Token::Int" [RVOther 7]) = Some 4 /\
  token_value (gp_conversions arith_gp) (RVCtor "Token::Int" [RVOther 7]) = Some (4, [RVOther 7]).
Proof.
  pose proof (c30_token_functions arith arith_gp (RVCtor "Token::Int" [RVOther 7]) eq_refl arith_expands) as H.
  change (token_terminal_idx (gp_conversions arith_gp) (RVCtor "Token::Int" [RVOther 7])) with (Some 4) in H.
  destruct H as (c & fs & Hc & Hm & _ & Hv & _). split; [reflexivity|]. rewrite Hv. injection Hc as <-. vm_compute in Hm. injection Hm as <-. reflexivity.
Qed.

(** ** C31: lowering preserves trees, token strings and values

    For any way [cidx] of classifying tokens: the parse trees of a [pub] non-terminal correspond one to one
    to the parse trees of the entry point lowering creates for it. *)
Theorem c31_lowering_trees {A Tok V W} (items : list (grammar_item A)) (g : grammar (lexpr A)) (cidx : Tok -> option nat)
  (flds : Tok -> list V) (usem : A -> list (string * bval V) -> W -> option (V * W)) N :
  distinct_names items -> lower (nts items) (cs items) = Ok g -> In N (nts items) -> an_pub N = true ->
  exists e (f : utree Tok -> tree Tok),
    entry_point g e /\ option_map nt_name (get_non_terminal g e) = Some (an_name N) /\
    (let cls tok := match cidx tok with Some i => nth_error (map cv_from (cs items)) i | None => None end in
     (forall t, utree_of (nts items) cls t (ASNonTerminal (an_name N)) ->
        wf_tree g cidx (f t) (NT e) /\ yield (f t) = uyield t /\
        forall w, eval_tree g flds (lsem usem) (f t) w = ueval (nts items) flds usem t w) /\
     (forall tr, wf_tree g cidx tr (NT e) -> exists t, utree_of (nts items) cls t (ASNonTerminal (an_name N)) /\ tr = f t) /\
     (forall t t', utree_of (nts items) cls t (ASNonTerminal (an_name N)) -> utree_of (nts items) cls t' (ASNonTerminal (an_name N)) ->
        f t = f t' -> t = t')).
Proof.
  intros Hn Hl HN Hp. pose proof (lower_spec (nts items) (cs items)) as Hs. rewrite Hl in Hs. destruct Hs as (ti & Hlow).
  destruct (slot_exists _ N HN) as (i & Hi). pose proof (entry_nt _ _ ti g Hlow N i Hi Hp) as He.
  exists (S i), (fun t => Node (S i) 0 [ltree (nts items) t]). split; [eexists; split; [exact He|reflexivity]|].
  split; [rewrite He; reflexivity|]. cbv zeta.
  set (cls := fun tok => match cidx tok with Some i => nth_error (map cv_from (cs items)) i | None => None end).
  assert (Hc : forall tok, cls tok = match cidx tok with Some i => nth_error (map cv_from (cs items)) i | None => None end) by reflexivity.
  split; [|split].
  - intros t Ht. exact (entry_down _ _ ti g Hlow Hn cidx cls Hc flds usem N i t Hi Hp Ht).
  - intros tr Ht. exact (entry_up _ _ ti g Hlow Hn cidx cls Hc N i tr Hi Hp Ht).
  - intros t t' Ht Ht' Heq. injection Heq as Heq. eapply (proj1 (ltree_inj (nts items) cls)); eauto.
Qed.
(** Hence the same token strings. *)
Theorem c31_lowering_language {A Tok} (items : list (grammar_item A)) (g : grammar (lexpr A)) (cidx : Tok -> option nat) N toks :
  distinct_names items -> lower (nts items) (cs items) = Ok g -> In N (nts items) -> an_pub N = true ->
  exists e, entry_point g e /\ option_map nt_name (get_non_terminal g e) = Some (an_name N) /\
    ((exists tr, wf_tree g cidx tr (NT e) /\ yield tr = toks) <->
     sentence (nts items) (fun tok => match cidx tok with Some i => nth_error (map cv_from (cs items)) i | None => None end) (an_name N) toks).
Proof.
  intros Hn Hl HN Hp.
  destruct (c31_lowering_trees (V := unit) (W := unit) items g cidx (fun _ => []) (fun _ _ _ => None) N Hn Hl HN Hp) as (e & f & H1 & H2 & H3 & H4 & _).
  exists e. split; auto. split; auto. split.
  - intros (tr & Ht & Hy). destruct (H4 tr Ht) as (t & Hu & ->). destruct (H3 t Hu) as (_ & Hy' & _). exists t. split; auto. congruence.
  - intros (t & Hu & Hy). destruct (H3 t Hu) as (Hw & Hy' & _). exists (f t). split; auto. congruence.
Qed.
Lemma arith_lowers : lower (nts arith) (cs arith) = Ok arith_g. Proof. vm_compute. reflexivity. Qed.
Example case_c31 (toks : list rval) : exists e, entry_point arith_g e /\
  ((exists tr, wf_tree arith_g (token_terminal_idx (cs arith)) tr (NT e) /\ yield tr = toks) <->
   sentence (nts arith) (fun tok => match token_terminal_idx (cs arith) tok with Some i => nth_error (map cv_from (cs arith)) i | None => None end) "E" toks).
Proof.
  destruct (c31_lowering_language arith arith_g (token_terminal_idx (cs arith)) the_E toks arith_names arith_lowers) as (e & H1 & _ & H2);
    [left; reflexivity|reflexivity|]. exists e. split; [exact H1|exact H2].
Qed.

(** ** C32: what lowering rejects, and why *)
Theorem c32_lowering_accepts {A} (ns : list (ast_non_terminal A)) tes : (exists g, lower ns tes = Ok g) <-> supported ns tes.
Proof. apply lower_ok_iff. Qed.
Theorem c32_lowering_diagnoses {A} (ns : list (ast_non_terminal A)) tes p : lower ns tes = Panic p ->
  lowering_diagnostic ns tes p /\ ~ supported ns tes.
Proof. intro H. pose proof (lower_diagnostic ns tes p H). split; auto. apply lowering_diagnostic_unsupported with p; auto. Qed.
Theorem c32_lowering_total {A} (ns : list (ast_non_terminal A)) tes : ~ supported ns tes -> exists p, lower ns tes = Panic p.
Proof.
  intro H. destruct (lower ns tes) as [g|p|] eqn:E; eauto.
  - exfalso. apply H. apply lower_ok_iff. eauto.
  - exfalso. exact (lower_no_fuel ns tes E).
Qed.
Example case_c32 : supported (nts arith) (cs arith) /\
  lower (nts [rule true "S" "()" [([$"a"; #"Missing"], "()")]]) (cs [tokens [unit_tok "a" "Token::A"]]) = Panic (PUnknownNonTerminal "Missing").
Proof. split; [apply c32_lowering_accepts; exists arith_g; exact arith_lowers|vm_compute; reflexivity]. Qed.

(** ** C34: entry points *)

(** The parsers are the [pub] non-terminals, with their types (what each recognises: C01, C11). *)
Theorem c34_parsers {A} (items : list (grammar_item A)) gp : distinct_names items -> expands items gp ->
  Permutation (map (fun pr => (pr_name pr, pr_return_ty pr)) (gp_parsers gp))
              (map (fun N => (an_name N, an_type N)) (filter an_pub (nts items))).
Proof.
  intros Hn Hx. destruct (expands_expansion items gp Hx) as (g & tbl & states & entries & He).
  destruct (expansion_data items _ _ _ _ _ He) as (ti & act & Hlow & Hwf & Hgen & Hnd & Hsh & _).
  pose proof (gn_aut _ _ _ _ _ _ _ Hgen) as Haut.
  assert (Hnames : Permutation (map pr_name (gp_parsers gp)) (map an_name (filter an_pub (nts items)))).
  { apply NoDup_Permutation.
    - destruct (sh_parsers _ _ _ _ Hsh) as (l & Hl & HF).
      assert (Hnd' : NoDup (map fst l)).
      { eapply Permutation_NoDup; [apply Permutation_map, Permutation_sym; exact Hl|apply (ao_entries_nodup _ _ _ _ Haut)]. }
      assert (Hinj : forall x y pr pr', In x l -> In y l -> parser_for g (gp_sem_actions gp) entries pr (fst x) (snd x) ->
        parser_for g (gp_sem_actions gp) entries pr' (fst y) (snd y) -> pr_name pr = pr_name pr' -> fst x = fst y).
      { intros x y pr pr' _ _ (M & f & q & Hin & HM & Hnm & _) (M' & f' & q' & Hin' & HM' & Hnm' & _) Heq.
        destruct (ao_entry _ _ _ _ Haut _ _ Hin) as ((M0 & HM0 & Hpu) & _). destruct (ao_entry _ _ _ _ Haut _ _ Hin') as ((M0' & HM0' & Hpu') & _).
        assert (M0 = M) by congruence; assert (M0' = M') by congruence; subst M0 M0'.
        destruct (public_inv _ _ ti g Hlow _ _ HM Hpu) as (N & i & Hi & _ & -> & E1 & _).
        destruct (public_inv _ _ ti g Hlow _ _ HM' Hpu') as (N' & i' & Hi' & _ & -> & E1' & _).
        f_equal. assert (N = N') by (eapply (name_unique _ Hn); eauto using slots_In; congruence). subst N'.
        pose proof (slot_index _ Hn _ _ Hi) as Q. pose proof (slot_index _ Hn _ _ Hi') as Q'. congruence. }
      clear - HF Hnd' Hinj. induction HF as [|pr x ps l Hp HF IH]; cbn; constructor.
      + intro Hin. apply in_map_iff in Hin. destruct Hin as (pr' & Heq & Hin).
        assert (Hy : exists y, In y l /\ parser_for g (gp_sem_actions gp) entries pr' (fst y) (snd y)).
        { clear - HF Hin. induction HF as [|a b la lb Hab HF IH]; [contradiction|]. destruct Hin as [->|Hin]; [exists b; split; [left|]; auto|].
          destruct (IH Hin) as (y & Hy & Hp). exists y; split; [right|]; auto. }
        destruct Hy as (y & Hy & Hpy). cbn in Hnd'. inversion Hnd'; subst. match goal with H : ~ In _ _ |- _ => apply H end.
        rewrite (Hinj x y pr pr' (or_introl eq_refl) (or_intror Hy) Hp Hpy (eq_sym Heq)). apply in_map; auto.
      + apply IH; [cbn in Hnd'; inversion Hnd'; auto|]. intros a b pr1 pr2 Ha Hb. apply Hinj; right; auto.
    - assert (Hsub : forall l : list (ast_non_terminal A), NoDup (map an_name l) -> NoDup (map an_name (filter an_pub l))).
      { induction l as [|N l IH]; cbn; intro H; [constructor|]. inversion H; subst. destruct (an_pub N); cbn; auto. constructor; auto.
        intro Hin. match goal with H : ~ In _ _ |- _ => apply H end. apply in_map_iff in Hin. destruct Hin as (M & <- & HM).
        apply filter_In in HM. apply in_map. tauto. }
      apply Hsub. exact Hn.
    - intro nm. split; intro H; apply in_map_iff in H.
      + destruct H as (pr & <- & Hpr). destruct (parser_entry items gp ti g tbl states entries act Hlow Hgen pr Hpr) as (N & i & e & Hi & Hp & Hnm & _).
        rewrite Hnm. apply in_map. apply filter_In. split; auto. eapply slots_In; eauto.
      + destruct H as (N & <- & HN). apply filter_In in HN. destruct HN as (HN & Hp). destruct (slot_exists _ N HN) as (i & Hi).
        destruct (entry_parser items gp ti g tbl states entries act Hlow Hgen N i Hi Hp) as (pr & e & Hpr & Hnm & _). rewrite <- Hnm. apply in_map; auto. }
  (* types are determined by names *)
  set (typ := fun nm => match find (fun N => String.eqb (an_name N) nm) (nts items) with Some N => an_type N | None => ""%string end).
  replace (map (fun pr => (pr_name pr, pr_return_ty pr)) (gp_parsers gp)) with (map (fun nm => (nm, typ nm)) (map pr_name (gp_parsers gp))).
  2:{ rewrite map_map. apply map_ext_in. intros pr Hpr.
      destruct (parser_entry items gp ti g tbl states entries act Hlow Hgen pr Hpr) as (N & i & e & Hi & Hp & Hnm & Hty & _).
      unfold typ. rewrite Hnm, (find_unique _ Hn N (slots_In _ _ _ _ Hi)), Hty. reflexivity. }
  replace (map (fun N => (an_name N, an_type N)) (filter an_pub (nts items))) with (map (fun nm => (nm, typ nm)) (map an_name (filter an_pub (nts items)))).
  2:{ rewrite map_map. apply map_ext_in. intros N HN. apply filter_In in HN. unfold typ. rewrite (find_unique _ Hn N (proj1 HN)). reflexivity. }
  apply Permutation_map. exact Hnames.
Qed.
Example case_c34 : Permutation (map pr_name (gp_parsers exprs_gp)) ["BinOpExpr"; "UnOpExpr"; "AppExpr"; "SimpleExpr"].
Proof.
  destruct exprs_parser as (Hn & _ & He & _). pose proof (Permutation_map fst (c34_parsers exprs exprs_gp Hn He)) as H.
  rewrite !map_map in H. exact H.
Qed.

(** ** C37: top-level declarations *)

(** Expansion reports a declaration problem exactly if [enum Token] is missing or repeated or [type State] is repeated. *)
Theorem c37_declarations {A} (items : list (grammar_item A)) :
  (exists p, expansion_panics items p /\ (p = PDupToken \/ p = PDupState \/ p = PNoToken)) <->
  List.length (declared_tokens items) <> 1 \/ 2 <= List.length (declared_states items).
Proof.
  split.
  - intros (p & Hp & Hk). destruct (panic_cases items p Hp) as [(H & _)|[(H & _)|[(H & _)|[(_ & _ & Hd)|(_ & _ & _ & [[-> _]|[[-> _]|(Hc & _)]])]]]].
    + left. lia.
    + right. exact H.
    + left. rewrite H. discriminate.
    + destruct Hk as [->|[->| ->]]; contradiction.
    + destruct Hk as [H|[H|H]]; discriminate.
    + destruct Hk as [H|[H|H]]; discriminate.
    + destruct Hk as [->|[->| ->]]; contradiction.
  - intro H. destruct (expands_or_panics items) as [(gp & ho & fuel & Hho & Hm)|(p & Hp)].
    + exfalso. pose proof (macro_unfold ho fuel items) as Hu. rewrite Hm in Hu. destruct Hu as (te & g & Ht & Hs & _).
      rewrite Ht in H. cbn in H. lia.
    + exists p. split; auto. destruct (panic_cases items p Hp) as [(_ & ->)|[(_ & ->)|[(_ & _ & ->)|[(H1 & H2 & _)|(H1 & H2 & _)]]]]; auto; lia.
Qed.
Example case_c37 : exists p, expansion_panics (arith_tokens :: arith) p /\ (p = PDupToken \/ p = PDupState \/ p = PNoToken).
Proof. apply c37_declarations. left. discriminate. Qed.
(** The order of the different kinds of items does not matter. *)
Theorem c37_item_order {A} (items items' : list (grammar_item A)) :
  nts items = nts items' -> declared_tokens items = declared_tokens items' -> declared_states items = declared_states items' ->
  (forall gp, expands items gp <-> expands items' gp) /\
  (forall p, p <> PDupToken -> p <> PDupState -> expansion_panics items p <-> expansion_panics items' p).
Proof.
  assert (Hgen : forall i1 i2 : list (grammar_item A), nts i1 = nts i2 -> declared_tokens i1 = declared_tokens i2 ->
            declared_states i1 = declared_states i2 -> forall ho fuel,
            (forall gp, macro ho fuel i1 = Ok gp -> macro ho fuel i2 = Ok gp) /\
            (forall p, p <> PDupToken -> p <> PDupState -> macro ho fuel i1 = Panic p -> macro ho fuel i2 = Panic p)).
  { intros i1 i2 En Et Es ho fuel. pose proof (macro_unfold ho fuel i1) as H1. pose proof (macro_unfold ho fuel i2) as H2.
    rewrite <- En, <- Et, <- Es in H2. split.
    - intros gp Hm. rewrite Hm in H1. destruct H1 as (te & g & Ht & Hs & Hl & Hg). rewrite Ht in H2.
      destruct (macro ho fuel i2) as [gp'|p|].
      + destruct H2 as (te' & g' & Ht' & _ & Hl' & Hg'). injection Ht' as <-. congruence.
      + exfalso. destruct H2 as [(H & _)|[(H & _)|[(H & _)|(te' & Ht' & _ & [H|(g' & H & H')])]]]; try (cbn in H; lia); try discriminate; injection Ht' as <-; congruence.
      + exfalso. destruct H2 as (te' & g' & Ht' & _ & Hl' & Hg'). injection Ht' as <-. congruence.
    - intros p Hp1 Hp2 Hm. rewrite Hm in H1.
      destruct H1 as [(_ & H)|[(_ & H)|[(H & Hs & ->)|(te & Ht & Hs & Hor)]]]; try congruence.
      + rewrite H in H2. destruct (macro ho fuel i2) as [gp'|p|].
        * destruct H2 as (te' & g' & Ht' & _). discriminate.
        * destruct H2 as [(H' & _)|[(H' & _)|[(_ & _ & ->)|(te' & Ht' & _)]]]; try (cbn in H'; lia); try discriminate. reflexivity.
        * destruct H2 as (te' & g' & Ht' & _). discriminate.
      + rewrite Ht in H2. destruct (macro ho fuel i2) as [gp'|p'|].
        * exfalso. destruct H2 as (te' & g' & Ht' & _ & Hl' & Hg'). injection Ht' as <-. destruct Hor as [H|(g'' & H & H')]; congruence.
        * destruct H2 as [(H' & _)|[(H' & _)|[(H' & _)|(te' & Ht' & _ & Hor')]]]; try (cbn in H'; lia); try discriminate.
          injection Ht' as <-. f_equal. destruct Hor as [H|(g1 & H & H1)], Hor' as [H'|(g2 & H' & H2)]; congruence.
        * exfalso. destruct H2 as (te' & g' & Ht' & _ & Hl' & Hg'). injection Ht' as <-. destruct Hor as [H|(g'' & H & H')]; congruence. }
  intros En Et Es. pose proof (Hgen items items' En Et Es) as G1. pose proof (Hgen items' items (eq_sym En) (eq_sym Et) (eq_sym Es)) as G2.
  split.
  - intro gp. split; intros (ho & fuel & Hho & Hm); exists ho, fuel; split; auto; [apply (proj1 (G1 ho fuel))|apply (proj1 (G2 ho fuel))]; auto.
  - intros p Hp1 Hp2. split; intros (ho & fuel & Hho & Hm); exists ho, fuel; split; auto; [apply (proj2 (G1 ho fuel))|apply (proj2 (G2 ho fuel))]; auto.
Qed.
Example case_c37_order gp : expands arith gp <-> expands (tl arith ++ [arith_tokens]) gp.
Proof. apply (c37_item_order arith (tl arith ++ [arith_tokens])); reflexivity. Qed.

(** ** C38: the order of declarations does not change what the parser does

    For LR(1) grammars in [tails_plain] whose token patterns do not overlap: non-terminals, productions and
    token entries may be declared in any order; every input is accepted by both parsers or by neither, with
    the same value and side effects. *)
Theorem c38_declaration_order {A E V W I} (items items' : list (grammar_item A)) gp gp' pr pr' (inj : rval -> V)
  (usem : A -> list (string * bval V) -> W -> option (V * W)) (next : I -> option (rval + E) * I) it w it' v w' :
  parser_of items gp pr -> parser_of items' gp' pr' -> pr_name pr = pr_name pr' ->
  reordered (nts items) (nts items') -> Permutation (cs items) (cs items') -> disjoint_patterns (cs items) ->
  ulr1_grammar (nts items) -> tails_plain (nts items) ->
  returns gp inj usem next pr it w {| oc_result := POk v; oc_iter := it'; oc_world := w' |} <->
  returns gp' inj usem next pr' it w {| oc_result := POk v; oc_iter := it'; oc_world := w' |}.
Proof.
  intros Hp Hp' Hnm Hre Hperm Hdis Hlr Htp.
  assert (Hdis' : disjoint_patterns (cs items')).
  { intros tok c d Hc Hd. apply Hdis; eapply Permutation_in; try (apply Permutation_sym; exact Hperm); auto. }
  assert (Hone : forall (i1 i2 : list (grammar_item A)) g1 g2 p1 p2, parser_of i1 g1 p1 -> parser_of i2 g2 p2 -> pr_name p1 = pr_name p2 ->
    reordered (nts i1) (nts i2) -> Permutation (cs i1) (cs i2) -> disjoint_patterns (cs i1) -> ulr1_grammar (nts i2) -> tails_plain (nts i2) ->
    returns g1 inj usem next p1 it w {| oc_result := POk v; oc_iter := it'; oc_world := w' |} ->
    returns g2 inj usem next p2 it w {| oc_result := POk v; oc_iter := it'; oc_world := w' |}).
  { clear. intros i1 i2 g1 g2 p1 p2 Hp1 Hp2 Hnm Hre Hperm Hdis Hlr Htp Hr.
    destruct (c02_value_of_tree i1 g1 p1 inj usem next it w Hp1 _ v Hr eq_refl) as (t & Ht & Hfd & He). cbn [oc_iter oc_world] in Hfd, He.
    assert (Hfm : forall tok, first_match (cs i1) tok = first_match (cs i2) tok) by (intro; apply first_match_perm; auto).
    destruct Hp1 as (Hn1 & _). pose proof (proj1 Hp2) as Hn2.
    destruct (renumbering (nts i2) (nts i1) Hn2 (reordered_sym _ _ Hre)) as (sigma & _ & Hs).
    destruct (proj1 (tree_transfer (nts i2) (nts i1) sigma Hs (class i1) (fields i1 inj) usem) t _ Ht) as (t' & Ht' & Hy & He').
    assert (Hcl : forall tok, class i1 tok = class i2 tok) by (intro; unfold token_class; rewrite Hfm; reflexivity).
    assert (Hfl : forall tok, fields i1 inj tok = fields i2 inj tok) by (intro; unfold token_fields; rewrite Hfm; reflexivity).
    rewrite <- Hy in Hfd. rewrite <- He' in He. rewrite Hnm in Ht'.
    assert (Ht2 : utree_of (nts i2) (class i2) t' (ASNonTerminal (pr_name p2))).
    { assert (Hx : (forall t s, utree_of (nts i2) (class i1) t s -> utree_of (nts i2) (class i2) t s) /\
                   (forall ts ss, uforest_of (nts i2) (class i1) ts ss -> uforest_of (nts i2) (class i2) ts ss)).
      { apply utree_uforest_ind; intros; econstructor; eauto. rewrite <- Hcl. auto. }
      apply Hx. exact Ht'. }
    destruct (c11_complete i2 g2 p2 inj usem next it w Hp2 t' it' Hlr Htp Ht2 Hfd) as (o & Ho & Hm).
    rewrite <- (ueval_ext (nts i2) (fields i1 inj) (fields i2 inj) Hfl usem) in Hm. rewrite He in Hm. subst o. exact Ho. }
  destruct (renumbering (nts items) (nts items') (proj1 Hp) Hre) as (sigma & Hinj & Hs). split.
  - apply (Hone items items' gp gp' pr pr'); auto; [eapply ulr1_transfer; eauto|eapply tails_plain_transfer; eauto].
  - apply (Hone items' items gp' gp pr' pr); auto using reordered_sym, Permutation_sym.
Qed.
(** [arith], with the rules, the productions of [F] and the token entries reversed. *)
Definition htira : list (grammar_item string) :=
  [ rule false "F" "u64" [(["i" ::= $"int"], "i"); ([$"("; "e" ::= #"E"; $")"], "e")];
    rule false "T" "u64" [(["t" ::= #"T"; $"*"; "f" ::= #"F"], "t * f"); (["f" ::= #"F"], "f")];
    rule false "E1" "u64" [(["e" ::= #"E1"; $"+"; "t" ::= #"T"], "e + t"); (["t" ::= #"T"], "t")];
    rule true "E" "u64" [(["e" ::= #"E1"], "e")];
    tokens [val_tok "int" "Token::Int" "u64"; unit_tok "*" "Token::Star"; unit_tok "+" "Token::Plus";
            unit_tok ")" "Token::RParen"; unit_tok "(" "Token::LParen"] ].
Definition htira_gp : generated (lexpr string) := Eval vm_compute in module_of htira.
Definition htira_E : parser_struct := Eval vm_compute in parser_named htira_gp "E".
Lemma htira_parser : parser_of htira htira_gp htira_E. Proof. prove_parser_of. Qed.
Lemma unit_disjoint x c : In c (cs arith) -> pmatch (cv_to c) x <> None ->
  (exists p, x = RVUnit p /\ cv_to c = PatPath p) \/ (exists v, x = RVCtor "Token::Int" [v] /\ cv_from c = "int" /\ c = val_tok "int" "Token::Int" "u64").
Proof.
  intros Hc Hm. cbn in Hc. destruct Hc as [<-|[<-|[<-|[<-|[<-|[]]]]]]; cbn -[String.eqb] in Hm; destruct x; try congruence.
  1-4: destruct (String.eqb _ _) eqn:E; [apply String.eqb_eq in E; subst; left; eexists; split; reflexivity|congruence].
  destruct (String.eqb _ _) eqn:E; [apply String.eqb_eq in E; subst; right|congruence].
  match goal with |- context [RVCtor _ ?l] => destruct l as [|v [|? ?]] end; try (cbn in Hm; congruence). exists v. repeat split.
Qed.
Lemma arith_disjoint : disjoint_patterns (cs arith).
Proof.
  intros tok c d Hc Hd H1 H2. destruct (unit_disjoint tok c Hc H1) as [(p & Hx & Hp)|(v & Hx & _ & ->)], (unit_disjoint tok d Hd H2) as [(q & Hy & Hq)|(v' & Hy & _ & ->)];
    try reflexivity; try (rewrite Hx in Hy; discriminate Hy).
  rewrite Hx in Hy. injection Hy as <-. rewrite <- Hp in Hq.
  cbn in Hc, Hd. destruct Hc as [<-|[<-|[<-|[<-|[<-|[]]]]]], Hd as [<-|[<-|[<-|[<-|[<-|[]]]]]]; try reflexivity; discriminate Hq.
Qed.
Example case_c38 l w' it' v :
  returns arith_gp (fun v => v) sem vec_next arith_E l [] {| oc_result := POk v; oc_iter := it'; oc_world := w' |} <->
  returns htira_gp (fun v => v) sem vec_next htira_E l [] {| oc_result := POk v; oc_iter := it'; oc_world := w' |}.
Proof.
  apply (c38_declaration_order arith htira); [exact arith_parser|exact htira_parser|reflexivity| | |exact arith_disjoint|exact arith_lr1|exact arith_plain].
  - exists (rev (nts arith)). split; [apply Permutation_rev|]. cbn. repeat constructor; try (split; [reflexivity|]; split; [reflexivity|]; split; [reflexivity|]); try apply Permutation_refl; try apply perm_swap.
  - exact (Permutation_rev (cs arith)).
Qed.

(** ** C39: what expansion can panic with

    Only diagnostics about the declarations, conflicts, numbers that do not fit, and raw identifiers as names
    of the token type or of entry points; never an index out of bounds, a failed assertion or an unwrapped [None]
    inside the macro. *)
Theorem c39_panics {A} (items : list (grammar_item A)) p : expansion_panics items p ->
  declaration_panic p \/ conflict_panic p \/ (p = PTryFrom /\ too_large items) \/
  (p = PRawName /\ (raw_token_type items \/ raw_entry_point items)).
Proof.
  intro H. destruct (panic_cases items p H) as [(_ & ->)|[(_ & ->)|[(_ & _ & ->)|[(_ & _ & Hd)|(_ & _ & _ & [Ht|[Hr|(Hc & _)]])]]]];
    try (left; exact Logic.I); auto.
  - destruct p; try contradiction; try (left; exact Logic.I). right. right. left. split; auto. left. cbn in Hd. lia.
  - right. left. apply is_conflict_panic; auto.
Qed.
(** A raw identifier as the name of the token type or of an entry point always stops the expansion. *)
Theorem c39_raw_names {A} (items : list (grammar_item A)) gp : expands items gp -> ~ raw_token_type items /\ ~ raw_entry_point items.
Proof.
  intros He. destruct (expands_data items gp He) as (ho & fl & Hho & ti & g & tbl & states & entries & act & Hlow & Hwf & _ & _ & _ & _ & Hgen).
  pose proof (generate_not_raw ho Hho fl g _ gp Hwf Hgen) as Hno. split; intro Hr; apply Hno.
  - left. assert (Hd : exists te, declared_tokens items = [te]).
    { destruct He as (ho' & fl' & _ & Hm). pose proof (macro_unfold ho' fl' items) as Hu. rewrite Hm in Hu. destruct Hu as (te & _ & Hte & _). eauto. }
    destruct Hd as (te & Hte). destruct Hr as (te' & r & Hin & Hr). rewrite Hte in Hin. destruct Hin as [<-|[]].
    rewrite (the_tokens_one _ _ Hte). apply is_raw_spec. exists r. exact Hr.
  - right. apply (pub_raw_source items _ _ _ Hlow). exact Hr.
Qed.
(** A grammar that is accepted, with its entry point renamed to a raw identifier. *)
Definition raw_start : list (grammar_item string) :=
  [ tokens [unit_tok "a" "Token::A"]; rule true "r#type" "()" [([$"a"], "()")] ].
Definition raw_inner : list (grammar_item string) :=
  [ tokens [unit_tok "a" "Token::A"]; rule true "S" "()" [([#"r#type"], "()")]; rule false "r#type" "()" [([$"a"], "()")] ].
Example case_c39_raw_names : raw_entry_point raw_start /\ expansion_panics raw_start PRawName /\ exists gp, expands raw_inner gp.
Proof.
  split; [|split].
  - eexists _, _. split; [left; reflexivity|]. split; reflexivity.
  - exists ho_id, 100. split; [exact ho_id_ok|vm_compute; reflexivity].
  - eexists. exists ho_id, 100. split; [exact ho_id_ok|vm_compute; reflexivity].
Qed.
(** The same grammar with a raw name for the token type. *)
Definition raw_tokens : list (grammar_item string) :=
  [ GITokenEnum {| te_type_name := "r#Token"; te_lifetimes := []; te_conversions := [unit_tok "a" "Token::A"] |}; rule true "S" "()" [([$"a"], "()")] ].
Example case_c39_raw_token_type : raw_token_type raw_tokens /\ expansion_panics raw_tokens PRawName.
Proof.
  split.
  - eexists _, _. split; [left; reflexivity|]. reflexivity.
  - exists ho_id, 100. split; [exact ho_id_ok|vm_compute; reflexivity].
Qed.
(** 65536 productions in a rule that is not used: one more than there is room for. *)
Definition big (n : nat) : list (grammar_item string) :=
  [ tokens [unit_tok "a" "Token::A"]; rule true "S" "()" [([$"a"], "()")]; rule false "U" "()" (repeat ([$"a"], "()") n) ].
Example case_c39_too_large n : (65535 <= N.of_nat n)%N -> too_large (big n) /\ (forall gp, ~ expands (big n) gp) /\ exists p, expansion_panics (big n) p.
Proof.
  intro Hn. assert (Hno : forall gp, ~ expands (big n) gp).
  { intros gp He. destruct (c26_functions (big n) gp He) as (H1 & H2). rewrite H1 in H2.
    assert (Hs : list_sum (map (fun N : ast_non_terminal string => List.length (an_productions N) + (if an_pub N then 1 else 0)) (nts (big n))) = S (S n)).
    { cbn. rewrite map_length, repeat_length. lia. }
    rewrite Hs in H2. change (2 ^ 16)%N with 65536%N in H2. lia. }
  split; [|split; [exact Hno|]].
  - right. left. assert (Hs : List.length (filter an_pub (nts (big n))) + List.length (flat_map an_productions (nts (big n))) = S (S n)).
    { cbn. rewrite app_nil_r, map_length, repeat_length. lia. }
    cbv zeta. rewrite Hs. lia.
  - destruct (c21_expansion_terminates (big n) ho_id ho_id_ok) as (fuel & [(gp & Hf)|(p & Hf)]); specialize (Hf fuel (le_n _)).
    + exfalso. apply (Hno gp). exists ho_id, fuel. split; [exact ho_id_ok|exact Hf].
    + exists p, ho_id, fuel. split; [exact ho_id_ok|exact Hf].
Qed.
