(** * LocalProofs: Knuth's machine depends only on the rules below the entry point *)
From Verif Require Export KnuthProofs.
From Coq Require Import Permutation.

Section Local.
Context {A : Type}.
Variables ns ns' : list (ast_non_terminal A).

Lemma uproduction_rules (l : list (ast_non_terminal A)) n p : uproduction l n p = nth_error (rules_of l n) p.
Proof. unfold uproduction, rules_of. destruct (find _ l); auto. destruct p; reflexivity. Qed.

Variable S : string.
Variable R : string -> Prop.
Hypothesis HS : R S.
Hypothesis HR : forall n, R n -> (forall pr, In pr (rules_of ns n) <-> In pr (rules_of ns' n)) /\
      forall pr m, In pr (rules_of ns n) -> In (ASNonTerminal m) (body pr) -> R m.

Lemma prod_in (l : list (ast_non_terminal A)) n p pr : uproduction l n p = Some pr -> In pr (rules_of l n).
Proof. rewrite uproduction_rules. apply nth_error_In. Qed.
Lemma prod_there n p pr : R n -> uproduction ns' n p = Some pr -> exists q, uproduction ns n q = Some pr.
Proof.
  intros Hn Hp. apply prod_in in Hp. apply (proj1 (HR n Hn)) in Hp. apply In_nth_error in Hp. destruct Hp as (q & Hq).
  exists q. rewrite uproduction_rules. exact Hq.
Qed.
Lemma prod_closed n p pr m : R n -> uproduction ns' n p = Some pr -> In (ASNonTerminal m) (body pr) -> R m.
Proof. intros Hn Hp Hm. apply prod_in in Hp. apply (proj1 (HR n Hn)) in Hp. eapply (proj2 (HR n Hn)); eauto. Qed.

Definition within (l : list ast_symbol) : Prop := forall m, In (ASNonTerminal m) l -> R m.

Lemma uderives_local l r : uderives ns' l r -> within l -> uderives ns l r.
Proof.
  induction 1 as [l|l m r Hd Hds IH]; intro Hw; [constructor|]. inversion Hd as [a n p pr b Hp]; subst.
  assert (Hn : R n) by (apply Hw, in_or_app; right; left; reflexivity).
  destruct (prod_there _ _ _ Hn Hp) as (q & Hq).
  econstructor; [econstructor; exact Hq|]. apply IH. intros m Hm. apply in_app_or in Hm. destruct Hm as [Hm|Hm].
  - apply Hw, in_or_app; auto.
  - apply in_app_or in Hm. destruct Hm as [Hm|Hm]; [eapply prod_closed; eauto|apply Hw, in_or_app; right; right; auto].
Qed.
Lemma uin_first_local l la x : within l -> uin_first ns' l la x -> uin_first ns l la x.
Proof.
  intros Hw [(t & r & -> & H)|(H & ->)]; [left; exists t, r; split; auto|right; split; auto]; apply uderives_local; auto.
Qed.

Definition in_R (lhs : option string) : Prop := match lhs with Some n => R n | None => True end.
(** [q] is in [ns] what [p] is in [ns']. *)
Definition matches (lhs : option string) (p q : nat) : Prop :=
  match lhs with Some n => exists pr, uproduction ns' n p = Some pr /\ uproduction ns n q = Some pr | None => p = q end.
Lemma urhs_within lhs p l : in_R lhs -> urhs ns' S lhs p = Some l -> within l.
Proof.
  destruct lhs as [n|]; cbn.
  - intros Hn H m Hm. destruct (uproduction ns' n p) as [pr|] eqn:E; [|discriminate]. injection H as <-. eapply prod_closed; eauto.
  - intros _ H. destruct (Nat.eqb p 0); [|discriminate]. injection H as <-. intros m [E|[]]. injection E as <-. exact HS.
Qed.
Lemma urhs_matches lhs p q : matches lhs p q -> urhs ns' S lhs p = urhs ns S lhs q.
Proof. destruct lhs as [n|]; cbn; [intros (pr & -> & ->)|intros ->]; reflexivity. Qed.
Lemma matches_exist lhs p l : in_R lhs -> urhs ns' S lhs p = Some l -> exists q, matches lhs p q.
Proof.
  destruct lhs as [n|]; cbn; [|eauto]. intros Hn H. destruct (uproduction ns' n p) as [pr|] eqn:E; [|discriminate].
  destruct (prod_there _ _ _ Hn E) as (q & Hq). eauto.
Qed.
Lemma ulr1_valid_local gamma lhs p k la : ulr1_valid ns' S gamma lhs p k la ->
  in_R lhs /\ forall q, matches lhs p q -> ulr1_valid ns S gamma lhs q k la.
Proof.
  induction 1 as [|gamma lhs p k la l C q l' x Hv (IR & IH) Hr Hn Hq Hf|gamma lhs p k la l X Hv (IR & IH) Hr Hn].
  - split; [exact Logic.I|]. intros q <-. constructor.
  - pose proof (urhs_within _ _ _ IR Hr) as Hw.
    assert (HC : R C) by (apply Hw; eapply nth_error_In; eauto). split; auto. intros q' Hq'.
    destruct (matches_exist _ _ _ IR Hr) as (p' & Hp'). rewrite (urhs_matches _ _ _ Hp') in Hr. rewrite (urhs_matches (Some C) _ _ Hq') in Hq.
    eapply ulv_closure; [apply IH; exact Hp'|exact Hr|exact Hn|exact Hq|]. apply uin_first_local; auto.
    intros m Hm. apply Hw. rewrite <- (firstn_skipn (k + 1) l). apply in_or_app; auto.
  - split; auto. intros q Hq. rewrite (urhs_matches _ _ _ Hq) in Hr. eapply ulv_move; eauto.
Qed.

Lemma reduces_local gamma lhs p la : ulr1_reduces ns' S gamma lhs p la ->
  in_R lhs /\ forall q, matches lhs p q -> ulr1_reduces ns S gamma lhs q la.
Proof.
  intros (l & Hl & Hv). destruct (ulr1_valid_local _ _ _ _ _ Hv) as (HI & H). split; auto.
  intros q Hq. exists l. rewrite <- (urhs_matches _ _ _ Hq). auto.
Qed.
Lemma reduces_exist gamma n p la : ulr1_reduces ns' S gamma (Some n) p la -> exists q, ulr1_reduces ns S gamma (Some n) q la.
Proof.
  intros H. destruct (reduces_local _ _ _ _ H) as (HI & H'). destruct H as (l & Hl & _).
  destruct (matches_exist _ _ _ HI Hl) as (q & Hq). eauto.
Qed.
Lemma shifts_local gamma la : kshifts ns' S gamma la -> kshifts ns S gamma la.
Proof.
  intros (t & -> & lhs & p & k & la0 & l & Hv & Hl & Hk). exists t. split; auto.
  destruct (ulr1_valid_local _ _ _ _ _ Hv) as (HI & H). destruct (matches_exist _ _ _ HI Hl) as (q & Hq).
  rewrite (urhs_matches _ _ _ Hq) in Hl. exists lhs, q, k, la0, l. auto.
Qed.
Lemma accepts_local gamma la : kaccepts ns' S gamma la -> kaccepts ns S gamma la.
Proof. intro H. apply (reduces_local _ _ _ _ H). reflexivity. Qed.
End Local.

Section Both.
Context {A : Type}.
Variables ns ns' : list (ast_non_terminal A).
Variable S : string.
Hypothesis Hag : agree_below ns ns' S.

Lemma agree_sym : agree_below ns' ns S.
Proof.
  destruct Hag as (R & HS & HR). exists R. split; auto. intros n Hn. destruct (HR n Hn) as (H1 & H2). split.
  - intro pr. symmetry. apply H1.
  - intros pr m Hp. apply H2. apply H1. exact Hp.
Qed.
End Both.

Section Machines.
Context {A Tok E V W I : Type}.
Variables ns ns' : list (ast_non_terminal A).
Variable S : string.
Hypothesis Hag : agree_below ns ns' S.

Lemma b_shifts gamma la : kshifts ns' S gamma la <-> kshifts ns S gamma la.
Proof.
  split; [destruct Hag as (R & HS & HR)|destruct (agree_sym _ _ _ Hag) as (R & HS & HR)]; eapply shifts_local; eauto.
Qed.
Lemma b_accepts gamma la : kaccepts ns' S gamma la <-> kaccepts ns S gamma la.
Proof.
  split; [destruct Hag as (R & HS & HR)|destruct (agree_sym _ _ _ Hag) as (R & HS & HR)]; eapply accepts_local; eauto.
Qed.
Lemma b_blocked gamma la : kblocked ns' S gamma la <-> kblocked ns S gamma la.
Proof.
  unfold kblocked. rewrite b_shifts, b_accepts.
  assert (H : (forall n p, ~ ulr1_reduces ns' S gamma (Some n) p la) <-> (forall n p, ~ ulr1_reduces ns S gamma (Some n) p la)); [|tauto].
  split; intros H n p Hr.
  - destruct (agree_sym _ _ _ Hag) as (R & HS & HR). destruct (reduces_exist _ _ _ R HS HR _ _ _ _ Hr) as (q & Hq). eapply H; eauto.
  - destruct Hag as (R & HS & HR). destruct (reduces_exist _ _ _ R HS HR _ _ _ _ Hr) as (q & Hq). eapply H; eauto.
Qed.
Lemma b_listed gamma listed : klisted ns' S gamma listed <-> klisted ns S gamma listed.
Proof. unfold klisted. split; intros H t; [rewrite <- b_blocked|rewrite b_blocked]; apply H. Qed.
Lemma b_reduces gamma la n p pr : kreduces ns' S gamma la n p -> uproduction ns' n p = Some pr ->
  exists q, kreduces ns S gamma la n q /\ uproduction ns n q = Some pr.
Proof.
  intros (Hr & Hs & Ha) Hp. rewrite b_shifts in Hs. rewrite b_accepts in Ha. destruct Hag as (R & HS & HR).
  destruct (reduces_local ns ns' S R HS HR _ _ _ _ Hr) as (HI & H). cbn in HI.
  destruct (prod_there ns ns' R HR _ _ _ HI Hp) as (q & Hq). exists q. split; auto. split; auto. apply H. cbn. eauto.
Qed.

Variables entries entries' : list string.
Variables class class' : Tok -> option string.
Variables fields fields' : Tok -> list V.
Hypothesis Hclass : forall tok, class tok = class' tok.
Hypothesis Hfields : forall tok, fields tok = fields' tok.
Hypothesis Hent : Permutation entries entries'.
Variable sem : A -> list (string * bval V) -> W -> option (V * W).
Variable next : I -> option (Tok + E) * I.
Notation kconf := (kconf Tok E V W I).
Notation kev := (kevent Tok E).

Inductive kev_same : kev -> kev -> Prop :=
| kv_next : forall r, kev_same (KNext r) (KNext r)
| kv_action : forall n p q pr, uproduction ns' n p = Some pr -> uproduction ns n q = Some pr -> kev_same (KAction n p) (KAction n q)
| kv_accept : kev_same KAccept KAccept.

Lemma b_look (tk : option (Tok + E)) la : klook class' tk la -> klook class tk la.
Proof. intros [|tok t H]; constructor. rewrite Hclass. exact H. Qed.

Lemma b_step (c : kconf) evs c' : kstep ns' class' fields' sem next S c evs c' ->
  exists evs', kstep ns class fields sem next S c evs' c' /\ Forall2 kev_same evs evs'.
Proof.
  intros [st tok t it w r it' Hc Hsh Hn|args rest tk it w la n p pr v w' Hk Hr Hp HL Hv].
  - exists [KNext r]. split; [|repeat constructor]. rewrite <- Hfields. constructor; auto; [rewrite Hclass; auto|apply b_shifts; auto].
  - destruct (b_reduces _ _ _ _ _ Hr Hp) as (q & Hq & Hpq). exists [KAction n q]. split.
    + eapply k_reduce; eauto using b_look.
    + repeat econstructor; eauto.
Qed.
Lemma Permutation_filter {X} (f : X -> bool) l l' : Permutation l l' -> Permutation (filter f l) (filter f l').
Proof.
  induction 1 as [|x l l' H IH|x y l|l1 l2 l3 H1 IH1 H2 IH2]; cbn; auto.
  - destruct (f x); auto.
  - destruct (f x), (f y); auto using Permutation_refl. constructor.
  - eapply perm_trans; eauto.
Qed.
Lemma b_stop (c : kconf) evs (o' : outcome E V W I) : kstop ns' entries' class' sem S c evs o' ->
  exists evs' o, kstop ns entries class sem S c evs' o /\ Forall2 kev_same evs evs' /\ same_outcome o o' /\ (entries = entries' -> o = o').
Proof.
  assert (Hrefl : forall o : outcome E V W I, same_outcome o o) by (intro o; split; [|split; [|left]]; reflexivity).
  intros [v it w Ha|args rest tk it w la n p pr Hk Hr Hp HL Hv|st e it w|st tok it w Hc|st tk it w la listed Hk Hb Hl].
  - exists [KAccept]. eexists. split; [constructor; apply b_accepts; auto|]. split; [repeat constructor|]. auto.
  - destruct (b_reduces _ _ _ _ _ Hr Hp) as (q & Hq & Hpq). exists [KAction n q]. eexists. split.
    + eapply k_action_panics; eauto using b_look.
    + split; [repeat econstructor; eauto|]. auto.
  - exists []. eexists. split; [constructor|]. split; [constructor|auto].
  - exists []. eexists. split; [constructor; rewrite Hclass; auto|]. split; [constructor|auto].
  - exists []. eexists. split; [eapply k_error; [apply b_look; eauto|apply b_blocked; eauto|apply b_listed; eauto]|]. split; [constructor|]. split.
    + split; [reflexivity|]. split; [reflexivity|]. right. do 3 eexists. split; [reflexivity|]. split; [reflexivity|].
      apply Permutation_filter. exact Hent.
    + intros ->. reflexivity.
Qed.
Lemma b_steps n (c : kconf) evs c' : ksteps ns' class' fields' sem next S n c evs c' ->
  exists evs', ksteps ns class fields sem next S n c evs' c' /\ Forall2 kev_same evs evs'.
Proof.
  induction 1 as [c|n c evs c1 evs' c2 Hs Hks (es & H1 & H2)]; [exists []; repeat constructor|].
  destruct (b_step _ _ _ Hs) as (es0 & H3 & H4). exists (es0 ++ es). split; [econstructor; eauto|apply Forall2_app; auto].
Qed.
Lemma b_runs it w n c evs : kruns ns' class' fields' sem next S it w n c evs ->
  exists evs', kruns ns class fields sem next S it w n c evs' /\ Forall2 kev_same evs evs'.
Proof.
  intros (evs' & H & ->). destruct (b_steps _ _ _ _ H) as (es & H1 & H2). exists (KNext (fst (next it)) :: es).
  split; [exists es; auto|constructor; auto; constructor].
Qed.
Lemma b_returns it w o' evs : kreturns ns' entries' class' fields' sem next S it w o' evs ->
  exists evs' o, kreturns ns entries class fields sem next S it w o evs' /\ Forall2 kev_same evs evs' /\
    same_outcome o o' /\ (entries = entries' -> o = o').
Proof.
  intros (n & c & e1 & e2 & Hr & Hs & ->). destruct (b_runs _ _ _ _ _ Hr) as (e1' & H1 & H2).
  destruct (b_stop _ _ _ Hs) as (e2' & o & H3 & H4 & H5 & H6). exists (e1' ++ e2'), o. split; [exists n, c, e1', e2'; auto|].
  split; auto. apply Forall2_app; auto.
Qed.
End Machines.

(** ** Generated parsers *)
Lemma accept_function {A} (items : list (grammar_item A)) gp pr : expands items gp -> In pr (gp_parsers gp) ->
  option_map sf_action (nth_error (gp_sem_actions gp) (pr_action_idx pr)) = Some (EVar "x"%string).
Proof.
  intros Hexp Hpr.
  destruct (expands_data items gp Hexp) as (ho & fl & Hho & ti & g & tbl & states & entries & act & H1 & H2 & H3 & H4 & H5 & H6 & H7).
  destruct (parser_entry items gp ti g tbl states entries act H1 H3 pr Hpr) as (N & i & e & HN & Hpub & Hnm & _ & Hpf).
  destruct Hpf as (M & f & q & _ & HM & _ & _ & _ & _ & Hq & Hf & Hfn & _). rewrite Hf. cbn.
  unfold get_production in Hq. rewrite (entry_nt _ _ ti g H1 N i HN Hpub) in Hq. cbn in Hq. injection Hq as <-. rewrite Hfn. reflexivity.
Qed.

Section Parsers.
Context {A : Type}.
Variables items items' : list (grammar_item A).
Variables gp gp' : generated (lexpr A).
Variables pr pr' : parser_struct.
Hypothesis Hp : parser_of items gp pr.
Hypothesis Hp' : parser_of items' gp' pr'.
Hypothesis Hnm : pr_name pr = pr_name pr'.
Hypothesis Htp : tails_plain (declared_nts items).
Hypothesis Htp' : tails_plain (declared_nts items').
Hypothesis Hag : agree_below (declared_nts items) (declared_nts items') (pr_name pr).
Hypothesis Hfm : forall tok, first_match (token_entries items) tok = first_match (token_entries items') tok.
Hypothesis Hperm : Permutation (map cv_from (token_entries items)) (map cv_from (token_entries items')).
Context {E V W I : Type}.
Variable inj : rval -> V.
Variable usem : A -> list (string * bval V) -> W -> option (V * W).
Variable next : I -> option (rval + E) * I.
Variable it : I.
Variable w : W.

Lemma same_calls nt_no no variant nt_no' no' variant' kevs kevs' :
  numbering items gp nt_no no variant -> numbering items' gp' nt_no' no' variant' ->
  Forall2 (kev_same (declared_nts items) (declared_nts items')) kevs' kevs ->
  map (called gp) (map (rendered (Tok := rval) (E := E) no pr) kevs) = map (called gp') (map (rendered no' pr') kevs').
Proof.
  intros N N' H. induction H as [|x y l l' Hxy _ IH]; cbn [map]; auto. f_equal; auto.
  destruct Hxy as [r|n p q u H1 H2|]; cbn [rendered called]; auto.
  - destruct (nb_function _ _ _ _ _ N _ _ _ H2) as (f & F1 & F2 & _). destruct (nb_function _ _ _ _ _ N' _ _ _ H1) as (f' & F1' & F2' & _).
    rewrite F1, F1'. cbn. congruence.
  - destruct Hp as (_ & _ & He & Hi), Hp' as (_ & _ & He' & Hi'). rewrite (accept_function items gp pr He Hi), (accept_function items' gp' pr' He' Hi'). reflexivity.
Qed.

Lemma local_returns o' evs' : returns_with gp' inj usem next pr' it w o' evs' ->
  exists o evs, returns_with gp inj usem next pr it w o evs /\ map (called gp) evs = map (called gp') evs' /\ same_outcome o o' /\
    (map cv_from (token_entries items) = map cv_from (token_entries items') -> o = o').
Proof.
  intro Hr. destruct (knuth items gp pr Hp Htp) as (nn & no & va & Hn & K). destruct (knuth items' gp' pr' Hp' Htp') as (nn' & no' & va' & Hn' & K').
  specialize (K E V W I inj usem next it w). specialize (K' E V W I inj usem next it w). cbv zeta in K, K'.
  apply (proj1 K') in Hr. destruct Hr as (kevs' & Hk & ->). rewrite <- Hnm in Hk.
  destruct (b_returns (declared_nts items) (declared_nts items') (pr_name pr) Hag _ _ (token_class (token_entries items)) (token_class (token_entries items')) (fun tok => map inj (token_fields (token_entries items) tok)) (fun tok => map inj (token_fields (token_entries items') tok))
    (fun tok => ltac:(unfold token_class; rewrite Hfm; reflexivity)) (fun tok => ltac:(unfold token_fields; rewrite Hfm; reflexivity)) Hperm usem next it w o' kevs' Hk) as (kevs & o & Hk' & Hs & Ho).
  exists o, (map (rendered no pr) kevs). split; [apply (proj1 K); eauto|]. split; auto. eapply same_calls; eauto.
Qed.
Lemma local_running n it1 w1 evs' : running gp' inj usem next pr' it w n it1 w1 evs' ->
  exists evs, running gp inj usem next pr it w n it1 w1 evs /\ map (called gp) evs = map (called gp') evs'.
Proof.
  intro Hr. destruct (knuth items gp pr Hp Htp) as (nn & no & va & Hn & K). destruct (knuth items' gp' pr' Hp' Htp') as (nn' & no' & va' & Hn' & K').
  specialize (K E V W I inj usem next it w). specialize (K' E V W I inj usem next it w). cbv zeta in K, K'.
  apply (proj2 K') in Hr. destruct Hr as (c & kevs' & Hk & Hc1 & Hc2 & ->). rewrite <- Hnm in Hk.
  destruct (b_runs (declared_nts items) (declared_nts items') (pr_name pr) Hag (token_class (token_entries items)) (token_class (token_entries items')) (fun tok => map inj (token_fields (token_entries items) tok)) (fun tok => map inj (token_fields (token_entries items') tok))
    (fun tok => ltac:(unfold token_class; rewrite Hfm; reflexivity)) (fun tok => ltac:(unfold token_fields; rewrite Hfm; reflexivity)) usem next it w n c kevs' Hk) as (kevs & Hk' & Hs).
  exists (map (rendered no pr) kevs). split; [apply (proj2 K); eauto 7|]. eapply same_calls; eauto.
Qed.
End Parsers.
