(** * PropertiesEndless: C82, a parser takes linear time or never returns

    Vocabulary: PropSpec.v ([running], [returns_with], [feeds_then]). *)
From Verif Require Import EndlessEffects Findings.
From Verif Require Export ParamSpec Properties.
Local Open Scope string_scope. Local Open Scope list_scope.

Section Loop.
Context {A E V W I : Type}.
Variable gp : generated (lexpr A).
Variable env : env_t (lexpr A) rval E V W I.
Variable pr : parser_struct.
Lemma iterations_then n : forall st st' fuel o, iterations gp env pr n st = Some st' -> run gp env fuel pr st = Some o -> n < fuel /\ run gp env (fuel - n) pr st' = Some o.
Proof.
  induction n as [|n IH]; intros st st' fuel o Hi Hr; cbn [iterations] in Hi.
  - injection Hi as ->. destruct fuel; [discriminate|]. split; [lia|]. rewrite Nat.sub_0_r. exact Hr.
  - destruct (step gp env pr st) as [st1|] eqn:Es; [|discriminate]. destruct fuel as [|fuel]; [discriminate|]. cbn [run] in Hr. rewrite Es in Hr.
    destruct (IH _ _ _ _ Hi Hr) as (H1 & H2). split; [lia|exact H2].
Qed.
Lemma events_then n : forall st st' fuel, iterations gp env pr n st = Some st' -> n <= fuel ->
  run_events gp env fuel pr st = run_events gp env n pr st ++ run_events gp env (fuel - n) pr st'.
Proof.
  induction n as [|n IH]; intros st st' fuel Hi Hf; cbn [iterations] in Hi.
  - injection Hi as ->. rewrite Nat.sub_0_r. reflexivity.
  - destruct (step gp env pr st) as [st1|] eqn:Es; [|discriminate]. destruct fuel as [|fuel]; [lia|]. cbn [run_events Nat.sub]. rewrite Es, <- app_assoc. f_equal. apply IH; [exact Hi|lia].
Qed.
Lemma iterations_more n : forall m st st', iterations gp env pr (n + m) st = Some st' -> exists st1, iterations gp env pr n st = Some st1 /\ iterations gp env pr m st1 = Some st'.
Proof.
  induction n as [|n IH]; intros m st st' H; cbn [iterations Nat.add] in *; [eauto|]. destruct (step gp env pr st) as [st1|]; [|discriminate]. apply IH. exact H.
Qed.
Lemma run_last fuel : forall st o, run gp env fuel pr st = Some o -> exists n st', iterations gp env pr n st = Some st' /\ step gp env pr st' = inr o /\ n < fuel /\
  run_events gp env fuel pr st = run_events gp env n pr st ++ step_events gp env pr st'.
Proof.
  induction fuel as [|fuel IH]; intros st o H; [discriminate|]. cbn [run] in H. destruct (step gp env pr st) as [st1|o1] eqn:Es.
  - destruct (IH _ _ H) as (n & st' & H1 & H2 & H3 & H4). exists (S n), st'. cbn [iterations run_events]. rewrite Es, H4, app_assoc. repeat split; auto. lia.
  - injection H as <-. exists 0, st. cbn [iterations run_events]. rewrite Es, app_nil_r. repeat split; auto. lia.
Qed.
Lemma none_iterates n : forall st, run gp env n pr st = None -> exists st', iterations gp env pr n st = Some st'.
Proof.
  induction n as [|n IH]; intros st H; cbn [run iterations] in *; [eauto|]. destruct (step gp env pr st) as [st1|]; [auto|discriminate].
Qed.
Lemma few_calls st : List.length (calls_of (step_events gp env pr st)) <= 1.
Proof.
  unfold calls_of, step_events, dispatch_events. destruct (ps_states st); [simpl; lia|].
  destruct (ps_token st) as [[tok|er]|]; [destruct (e_tok_idx _ tok); [|simpl; lia]|simpl; lia|];
    (match goal with |- context [index2 ?a ?b ?c] => destruct (index2 a b c) as [[[|? ? ?|]|]|] end); simpl; lia.
Qed.
Lemma calls_bound n : forall st st', iterations gp env pr n st = Some st' -> List.length (calls_of (run_events gp env n pr st)) <= n.
Proof.
  induction n as [|n IH]; intros st st' H; cbn [iterations run_events] in *; [cbn; lia|]. destruct (step gp env pr st) as [st1|] eqn:Es; [|discriminate].
  pose proof (few_calls st) as Hf. pose proof (IH _ _ H) as Hn. unfold calls_of in *. rewrite flat_map_app, app_length. lia.
Qed.
End Loop.

(** ** C82: linear time, or never

    For whatever tables (those of an accepted grammar, without any condition on it, in particular) there is a number [K] such that for all actions,
    iterators, tokens and worlds
    - once a parser has made more than [K] iterations per call of [next()], it will not call [next()] again, and it will not return but by a panic;
    - when [parse] returns, not by a panic, at most [K] actions were called per call of [next()]. *)
Theorem c82_linear_or_never {A} (gp : generated (lexpr A)) : exists K, forall (E V W I : Type) (inj : rval -> V)
  (usem : A -> list (string * bval V) -> W -> option (V * W)) (next : I -> option (rval + E) * I) (pr : parser_struct) (it : I) (w : W), In pr (gp_parsers gp) ->
  (forall n it' w' evs, running gp inj usem next pr it w n it' w' evs -> K * List.length (nexts_of evs) < n ->
     (forall m it2 w2 evs2, n <= m -> running gp inj usem next pr it w m it2 w2 evs2 -> nexts_of evs2 = nexts_of evs) /\
     (forall o evs2, returns_with gp inj usem next pr it w o evs2 -> nexts_of evs2 = nexts_of evs /\ exists p, oc_result o = PPanic p)) /\
  (forall o evs, returns_with gp inj usem next pr it w o evs -> (forall p, oc_result o <> PPanic p) ->
     List.length (calls_of evs) <= K * List.length (nexts_of evs)).
Proof.
  exists (rate gp + 1). intros E V W I inj usem next pr it w Hpr. set (env := user_env gp inj usem next). set (st0 := init_pstate env pr it w).
  assert (Hs : forall n st, iterations gp env pr n st0 = Some st -> spent gp env st n (List.length (nexts_of (parse_events gp env n pr it w)))).
  { intros n st Hi. destruct (iterations_steps gp pr inj usem next _ _ _ Hi) as (evs & Hes & <-).
    exact (spent_steps gp env pr n _ _ _ Hes 0 1 (spent_init gp env pr Hpr it w)). }
  assert (Hlate : forall n st, iterations gp env pr n st0 = Some st -> (rate gp + 1) * List.length (nexts_of (parse_events gp env n pr it w)) < n -> endless_at gp env st).
  { intros n st Hi Hn. destruct (spent_bound gp env st n _ (Hs n st Hi)) as [He|Hb]; [exact He|lia]. }
  split.
  - intros n it' w' evs (st & Hi & _ & _ & <-) Hn. fold env in Hi, Hn |- *. fold st0 in Hi. pose proof (Hlate n st Hi Hn) as He. split.
    + intros m it2 w2 evs2 Hm (st2 & Hi2 & _ & _ & <-). fold env in Hi2 |- *. fold st0 in Hi2. replace m with (n + (m - n)) in Hi2 by lia. apply iterations_more in Hi2. destruct Hi2 as (st1 & Hi1 & Hi2).
      assert (st1 = st) by congruence. subst st1.
      destruct (iterations_steps gp pr inj usem next _ _ _ Hi2) as (evs & Hes & Hev). destruct (endless_run gp env pr _ _ _ _ Hes He) as (_ & Hn2).
      unfold parse_events. fold st0. rewrite (events_then gp env pr n _ st m Hi Hm). fold env in Hev. rewrite Hev. unfold nexts_of in *. cbn [flat_map].
      rewrite flat_map_app, Hn2, app_nil_r. reflexivity.
    + intros o evs2 (fuel & Hp & <-). unfold parse in Hp. fold env in Hp |- *. fold st0 in Hp. destruct (iterations_then gp env pr n _ st fuel o Hi Hp) as (Hlt & Hr).
      destruct (run_last gp env pr _ _ _ Hr) as (k & st' & Hk & Ho & _ & Hev). destruct (iterations_steps gp pr inj usem next _ _ _ Hk) as (evs & Hes & Hev2). fold env in Hev2, Hes.
      destruct (endless_run gp env pr _ _ _ _ Hes He) as (He' & Hn2). destruct (endless_stop gp env pr _ _ He' Ho) as (Hpan & Hn3). split; [|exact Hpan].
      unfold parse_events. fold st0. rewrite (events_then gp env pr n _ st fuel Hi) by lia. rewrite Hev, Hev2. unfold nexts_of in *. cbn [flat_map].
      rewrite !flat_map_app, Hn2, Hn3, !app_nil_r. reflexivity.
  - intros o evs (fuel & Hp & <-) Hnp. unfold parse in Hp. fold env in Hp |- *. fold st0 in Hp. destruct (run_last gp env pr _ _ _ Hp) as (n & st & Hi & Ho & Hlt & Hev).
    destruct (spent_bound gp env st n _ (Hs n st Hi)) as [He|Hb]; [exfalso; destruct (endless_stop gp env pr _ _ He Ho) as ((p & Hpp) & _); exact (Hnp p Hpp)|].
    pose proof (calls_bound gp env pr n _ _ Hi) as Hc. pose proof (few_calls gp env pr st) as Hc1. fold env. fold st0. unfold parse_events in *. fold st0 in Hb, Hev |- *. rewrite Hev.
    unfold calls_of, nexts_of in *. cbn [flat_map] in *. rewrite !flat_map_app, !app_length in *. cbn [app List.length] in *. clear - Hb Hc Hc1. lia.
Qed.

(** Whether [parse] returns can be found out by waiting: for a parser of an accepted grammar, actions that do not panic and an iterator that yields
    tokens of the grammar and then [None] or [Err], it has returned after [K * (|toks| + 1)] iterations, or never will. *)
Theorem c82_decided {A} (items : list (grammar_item A)) (gp : generated (lexpr A)) : distinct_names items -> plain_patterns items -> expands items gp ->
  exists K, forall (E V W I : Type) (inj : rval -> V) (usem : A -> list (string * bval V) -> W -> option (V * W)) (next : I -> option (rval + E) * I)
    (pr : parser_struct) (it : I) (w : W) toks r it', In pr (gp_parsers gp) -> (forall a b w, usem a b w <> None) ->
    feeds_then next it toks r it' -> r = None \/ (exists e, r = Some (inr e)) -> (forall tok, In tok toks -> token_class (token_entries items) tok <> None) ->
    (exists o, parse gp (user_env gp inj usem next) (K * (List.length toks + 1)) pr it w = Some o /\ forall p, oc_result o <> PPanic p) \/
    (forall fuel, parse gp (user_env gp inj usem next) fuel pr it w = None).
Proof.
  intros Hnames Hplain Hexp. destruct (c82_linear_or_never gp) as (K & HK). exists (K + 1).
  intros E V W I inj usem next pr it w toks r it' Hpr Htot Hf Hr Hcl. assert (Hp : parser_of items gp pr) by (repeat split; auto).
  assert (Hnp : forall o p, returns gp inj usem next pr it w o -> oc_result o <> PPanic p).
  { intros o p Ho Er. destruct (c04_no_panic items gp pr inj usem next it w Hp o p Ho Er) as [(_ & n & k & q & kids & vs & w1 & w2 & _ & _ & _ & _ & Hno)|(_ & toks' & tok & Hfd' & Hno)]; [exact (Htot _ _ _ Hno)|].
    assert (Hin : In tok toks); [|exact (Hcl tok Hin Hno)]. destruct Hf as (i1 & F1 & N1), Hfd' as (i2 & F2 & N2). clear - F1 N1 F2 N2 Hr.
    revert toks' F2. induction F1 as [i|i tk i3 toks i4 Hn Hf IH]; intros toks' F2; inversion F2; subst.
    - rewrite N1 in N2. destruct Hr as [->|(e & ->)]; discriminate.
    - destruct Hr as [->|(e & ->)]; congruence.
    - rewrite Hn in N2. injection N2 as <- _. left. reflexivity.
    - rewrite Hn in H. injection H as <- <-. right. eapply IH; eauto. }
  destruct (parse gp (user_env gp inj usem next) ((K + 1) * (List.length toks + 1)) pr it w) as [o|] eqn:Eo.
  - left. exists o. split; [reflexivity|]. intro p. apply Hnp. eexists. exact Eo.
  - right. intro fuel. destruct (parse gp (user_env gp inj usem next) fuel pr it w) as [o|] eqn:Eo2; [exfalso|reflexivity].
    unfold parse in Eo. destruct (none_iterates _ _ _ _ _ Eo) as (st & Hi).
    destruct (run_prefix_st items gp pr Hp inj usem next it w _ _ Hi) as (toks2 & syms & forest & vs & rest & Hfd & Hn2 & _).
    assert (Hle : List.length toks2 <= List.length toks).
    { destruct Hf as (it1 & Hf1 & Hf2), Hfd as (it2 & Hg1 & Hg2).
      destruct (feeds_fun _ _ _ _ Hf1 _ _ Hg1) as [(x & ->)|(x & ->)]; [|rewrite app_length; lia].
      destruct x as [|tok x]; [rewrite app_nil_r; lia|]. exfalso.
      clear - Hf1 Hf2 Hg1 Hr. revert Hg1. induction Hf1 as [it|it tk ix toks iy Hnx Hfx IH]; intros Hg1; inversion Hg1; subst.
      - destruct Hr as [Hr|(e & Hr)]; congruence.
      - apply IH; auto. congruence. }
    destruct (HK E V W I inj usem next pr it w Hpr) as (H1 & _).
    destruct (H1 _ _ _ _ (ex_intro _ st (conj Hi (conj eq_refl (conj eq_refl eq_refl))))) as (_ & H2).
    + rewrite Hn2, app_length, map_length. cbn [List.length]. clear - Hle.
      assert (K * (List.length toks2 + 1) <= K * (List.length toks + 1)) by (apply Nat.mul_le_mono_l; lia). lia.
    + destruct (H2 o _ (ex_intro _ fuel (conj Eo2 eq_refl))) as (_ & p & Hpp). exact (Hnp o p (ex_intro _ fuel Eo2) Hpp).
Qed.

(** The same for user code that does anything: [next()], actions and [clone()] share a state, may panic, and actions may [return].  [log] is a part of
    the state that records the results of [next()]. *)
Theorem c82_effects {A} (gp : generated (lexpr A)) : exists K, forall (E V St : Type) (inj : rval -> V)
  (usem : A -> list (string * bval V) -> St -> completion V * St) (next : St -> option (option (rval + E)) * St) (clone : E -> St -> option E * St)
  (log : St -> list (option (rval + E))) pr u n st, records usem next clone log -> In pr (gp_parsers gp) ->
  let xparse k := x_parse gp (user_xenv gp inj usem next clone) k pr u in
  xparse n = inl st -> K * (List.length (log (xs_user st)) - List.length (log u)) < n ->
  forall m, n <= m -> match xparse m with
                      | inl st' => log (xs_user st') = log (xs_user st)
                      | inr o => log (xo_user o) = log (xs_user st) /\ exists p, xo_result o = PPanic p
                      end.
Proof.
  exists (rate gp). intros E V St inj usem next clone log pr u n st Hlog Hpr xparse Hn Hk m Hm. unfold xparse in *.
  destruct (xspent_parse gp inj usem next clone log Hlog pr Hpr n u st Hn) as (d & Hd & Hs).
  destruct (xspent_bound gp inj usem next clone st n d Hs) as [He|Hb]; [|exfalso; clear - Hd Hk Hb; rewrite Hd in Hk; replace (List.length (log u) + d - List.length (log u)) with d in Hk by lia; lia].
  unfold x_parse in *. replace m with (n + (m - n)) by lia. rewrite x_run_more, Hn.
  destruct (x_run gp (user_xenv gp inj usem next clone) (m - n) pr (inl st)) as [st'|o] eqn:Ex.
  - exact (xendless_run gp inj usem next clone log Hlog pr _ _ _ He Ex).
  - exact (xendless_stop gp inj usem next clone log Hlog pr _ _ _ He Ex).
Qed.

(** *** Cases *)
(** The parser of [looping] (Findings.v: accepted, not LR(1), C05 fails for it) never returns on "t". *)
Example case_c82_never : forall fuel, parse looping_gp (user_env looping_gp (fun v => v) sem vec_next) fuel looping_X [ok "Token::T"] [] = None.
Proof.
  intro fuel. destruct (parse looping_gp (user_env looping_gp (fun v => v) sem vec_next) fuel looping_X [ok "Token::T"] []) as [o|] eqn:Eo; [exfalso|reflexivity].
  destruct (looping_runs fuel) as (w' & evs & st & Hst & _). exact (iterations_no_return _ _ _ _ _ _ _ Hst Eo).
Qed.
Definition unit_sem (e : string) (b : list (string * bval rval)) (w : list string) : option (rval * list string) := Some (RVTuple [], e :: w).
Example case_c82_other l : (exists K o, parse looping_gp (user_env looping_gp (fun v => v) unit_sem vec_next) (K * (List.length l + 1)) looping_X (map (fun _ => ok "Token::T") (l : list unit)) [] = Some o) \/
  forall fuel, parse looping_gp (user_env looping_gp (fun v => v) unit_sem vec_next) fuel looping_X (map (fun _ => ok "Token::T") l) [] = None.
Proof.
  destruct looping_parser as (H1 & H2 & H3 & H4). destruct (c82_decided looping looping_gp H1 H2 H3) as (K & HK).
  destruct (HK string rval (list string) _ (fun v => v) unit_sem vec_next looping_X (map (fun _ => ok "Token::T") l) [] (map (fun _ => RVUnit "Token::T") l) None [] H4) as [(o & Ho & _)|H]; [| | | | |right; exact H].
  - intros a b w. discriminate.
  - exists []. split; [|reflexivity]. clear. induction l as [|u l IH]; [constructor|]. econstructor; [reflexivity|exact IH].
  - left. reflexivity.
  - intros tok Ht. apply in_map_iff in Ht. destruct Ht as (u & <- & _). vm_compute. discriminate.
  - left. exists K, o. rewrite map_length in Ho. exact Ho.
Qed.
