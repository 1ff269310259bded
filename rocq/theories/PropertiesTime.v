(** * PropertiesTime: the running time of generated parsers (C51)

    Vocabulary: PropSpec.v ([running], [returns_with], [nexts_of], [feeds_then]), USpec.v (conditions on the grammar). *)
From Verif Require Import TimeProofs.
From Verif Require Export ParamSpec Properties.
Local Open Scope string_scope. Local Open Scope list_scope.

(** ** C51: parsing takes time linear in the number of tokens read

    Under the conditions of C05 there is a number [K], depending on the grammar only, such that for all
    actions, iterators, tokens and worlds
    - after [n] iterations of the loop at least [n / K] calls of [next()] were made (amortised: there may be
      many reductions after one token, but then there were few after the tokens before it);
    - when [parse] returns, at most [K] actions were called per call of [next()];
    - on an iterator that yields [toks] and then [None] or [Err], [parse] returns within [K * (|toks| + 1)]
      iterations. *)
Section C51.
Context {A : Type}.
Variable items : list (grammar_item A).
Variable gp : generated (lexpr A).

Theorem c51_linear : distinct_names items -> plain_patterns items -> expands items gp ->
  tails_productive (nts items) -> tails_plain (nts items) \/ empty_direct (nts items) \/ ulr1_grammar (nts items) ->
  exists K, forall (E V W I : Type) (inj : rval -> V) (usem : A -> list (string * bval V) -> W -> option (V * W))
    (next : I -> option (rval + E) * I) (pr : parser_struct) (it : I) (w : W), In pr (gp_parsers gp) ->
    (forall n it' w' evs, running gp inj usem next pr it w n it' w' evs -> n <= K * List.length (nexts_of evs)) /\
    (forall o evs, returns_with gp inj usem next pr it w o evs -> List.length (calls_of evs) <= K * List.length (nexts_of evs)) /\
    (forall toks r it', feeds_then next it toks r it' -> r = None \/ (exists e, r = Some (inr e)) ->
       exists o, parse gp (user_env gp inj usem next) (K * (List.length toks + 1)) pr it w = Some o).
Proof.
  intros Hnames Hplain Hexp Hprod Hcond.
  destruct (linear_bound items gp Hnames Hplain Hexp Hprod Hcond) as (K & HK).
  exists K. intros E V W I inj usem next pr it w Hpr.
  assert (Hp : parser_of items gp pr) by (repeat split; auto).
  assert (Hruns : forall fuel o, parse gp (user_env gp inj usem next) fuel pr it w = Some o ->
    exists n st, steps gp (user_env gp inj usem next) pr n (init_pstate (user_env gp inj usem next) pr it w) st /\
      step gp (user_env gp inj usem next) pr st = inr o /\
      iterations gp (user_env gp inj usem next) pr n (init_pstate (user_env gp inj usem next) pr it w) = Some st /\
      n < fuel /\
      parse_events gp (user_env gp inj usem next) fuel pr it w =
        parse_events gp (user_env gp inj usem next) n pr it w ++ step_events gp (user_env gp inj usem next) pr st).
  { intros fuel o H. destruct (run_steps _ _ _ _ _ _ H) as (n & st & Hlt & H1 & H2). exists n, st.
    split; [exact H1|]. split; [exact H2|]. split; [|split; [exact Hlt|]].
    - clear - H1. induction H1 as [st|n st st1 st2 Hs Hr IH]; [reflexivity|]. cbn [iterations]. rewrite Hs. exact IH.
    - unfold parse_events. cbn [app]. f_equal. clear - H1 H2 Hlt. revert fuel Hlt.
      induction H1 as [st|n st st1 st2 Hs Hr IH]; intros [|fuel] Hlt; try lia; cbn [run_events].
      + rewrite H2. apply app_nil_r.
      + rewrite Hs, <- app_assoc. f_equal. apply IH; [exact H2|lia]. }
  split; [|split].
  - intros n it' w' evs (st & Hit & _ & _ & <-).
    destruct (HK E V W I inj usem next pr it w n st Hpr Hit) as (evs & toks & <- & _ & Hn & Hb).
    rewrite Hn, app_length, map_length. simpl. rewrite Nat.add_1_r. lia.
  - intros o evs (fuel & Ho & <-). destruct (Hruns _ _ Ho) as (n & st & _ & _ & Hit & _ & ->).
    destruct (HK E V W I inj usem next pr it w n st Hpr Hit) as (evs & toks & <- & Hl & Hn & Hb).
    unfold calls_of, nexts_of in *. rewrite !flat_map_app, !app_length, Hn, app_length, map_length.
    assert (Hc : forall l : list (event rval E), List.length (flat_map (fun v => match v with EvNext _ => [] | EvCall a => [a] end) l) <= List.length l).
    { induction l as [|[|] l IH]; simpl; lia. }
    pose proof (Hc (parse_events gp (user_env gp inj usem next) n pr it w)) as Hc1. rewrite Hl in Hc1.
    pose proof (Hc (step_events gp (user_env gp inj usem next) pr st)) as Hc2.
    assert (Hs1 : List.length (step_events gp (user_env gp inj usem next) pr st) <= 1).
    { unfold step_events, dispatch_events. destruct (ps_states st); [simpl; lia|].
      destruct (ps_token st) as [[tok|er]|]; [destruct (e_tok_idx _ tok); [|simpl; lia]|simpl; lia|];
        (match goal with |- context [index2 ?a ?b ?c] => destruct (index2 a b c) as [[[|? ? ?|]|]|] end); simpl; lia. }
    change (List.length [ps_token st]) with 1. rewrite Nat.add_1_r.
    assert (K * S (List.length toks) <= K * (S (List.length toks) + List.length (flat_map (fun v => match v with EvNext r => [r] | EvCall _ => [] end) (step_events gp (user_env gp inj usem next) pr st)))) by (apply Nat.mul_le_mono_l; lia).
    eapply Nat.le_trans; [|exact H]. eapply Nat.le_trans; [|exact Hb]. lia.
  - intros toks r it' Hf Hr.
    destruct (c05_terminates items gp pr inj usem next it w Hp Hprod Hcond) as (o & fuel & Ho); [exists toks, r, it'; auto|].
    exists o. destruct (Hruns _ _ Ho) as (n & st & Hst & Hs & Hit & Hlt & He).
    destruct (HK E V W I inj usem next pr it w n st Hpr Hit) as (evs & toks' & <- & Hl & Hn & Hb).
    destruct (run_prefix_st items gp pr Hp inj usem next it w _ _ Hit) as (toks2 & syms & forest & vs & rest & Hfd & Hn2 & _).
    assert (Hlen : List.length toks' = List.length toks2).
    { rewrite Hn in Hn2. apply (f_equal (@List.length _)) in Hn2. rewrite !app_length, !map_length in Hn2. simpl in Hn2. lia. }
    assert (Hle : List.length toks2 <= List.length toks).
    { destruct Hf as (it1 & Hf1 & Hf2), Hfd as (it2 & Hg1 & Hg2).
      destruct (feeds_fun _ _ _ _ Hf1 _ _ Hg1) as [(x & ->)|(x & ->)]; [|rewrite app_length; lia].
      destruct x as [|tok x]; [rewrite app_nil_r; lia|]. exfalso.
      clear - Hf1 Hf2 Hg1 Hr. revert Hg1. induction Hf1 as [it|it tk ix toks iy Hnx Hfx IH]; intros Hg1; inversion Hg1; subst.
      - destruct Hr as [Hr|(e & Hr)]; congruence.
      - apply IH; auto. congruence. }
    eapply steps_run; [exact Hst|exact Hs|].
    assert (K * S (List.length toks') <= K * (List.length toks + 1)) by (apply Nat.mul_le_mono_l; lia).
    unfold lt. eapply Nat.le_trans; [|exact H]. eapply Nat.le_trans; [|exact Hb]. lia.
Qed.
End C51.

(** Case: the parser of test_grammar_6 returns within [K * (n + 1)] iterations on every vector of [n] tokens. *)
Example case_linear : exists K, forall toks : list rval,
  exists o, parse arith_gp (user_env arith_gp (fun v => v) sem vec_next) (K * (List.length toks + 1)) arith_E (map inl toks) [] = Some o.
Proof.
  destruct arith_parser as (H1 & H2 & H3 & H4). destruct arith_reliable as (H5 & _).
  destruct (c51_linear arith arith_gp H1 H2 H3 H5 (or_introl arith_plain)) as (K & HK). exists K. intros toks.
  destruct (HK string rval (list string) _ (fun v => v) sem vec_next arith_E (map inl toks) [] H4) as (_ & _ & H).
  apply (H toks None []); [|left; reflexivity]. clear. exists []. split; [|reflexivity].
  induction toks as [|tok toks IH]; [constructor|]. econstructor; [reflexivity|exact IH].
Qed.
