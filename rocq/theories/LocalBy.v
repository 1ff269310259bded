(** * LocalBy: machines with computed FIRST sets depend only on what is below the entry point *)
From Verif Require Export EntryProofs LocalProofs.
From Coq Require Import Permutation.
Local Open Scope list_scope.

Section LocalBy.
Context {A : Type}.
Variables ns ns' : list (ast_non_terminal A).
Variables F F' : fsets.
Variable S : string.
Variable R : string -> Prop.
Hypothesis HS : R S.
Hypothesis HR : forall n, R n -> (forall pr, In pr (rules_of ns n) <-> In pr (rules_of ns' n)) /\
      forall pr m, In pr (rules_of ns n) -> In (ASNonTerminal m) (body pr) -> R m.
Hypothesis HFR : forall n, R n -> (f_empty F' n -> f_empty F n) /\ forall t, f_terms F' n t -> f_terms F n t.

Notation within := (within R).
Notation matches := (matches ns ns').
Lemma ffirst_local l la x : ffirst F' l la x -> within l -> ffirst F l la x.
Proof.
  induction 1 as [la|t r la|n r la t H|n r la x H _ IH]; intro Hw; [constructor|constructor| |].
  - apply ff_nt. apply HFR; auto. apply Hw. left. reflexivity.
  - apply ff_skip; [apply HFR; auto; apply Hw; left; reflexivity|]. apply IH. intros m Hm. apply Hw. right. exact Hm.
Qed.
Lemma valid_local_by gamma lhs p k la : uvalid_by ns' (ffirst F') S gamma lhs p k la ->
  in_R R lhs /\ forall q, matches lhs p q -> uvalid_by ns (ffirst F) S gamma lhs q k la.
Proof.
  induction 1 as [|gamma lhs p k la l C q l' x Hv (IR & IH) Hr Hn Hq Hf|gamma lhs p k la l X Hv (IR & IH) Hr Hn].
  - split; [exact Logic.I|]. intros q <-. constructor.
  - pose proof (urhs_within _ _ S R HS HR _ _ _ IR Hr) as Hw.
    assert (HC : R C) by (apply Hw; eapply nth_error_In; eauto). split; auto. intros q' Hq'.
    destruct (matches_exist _ _ S R HR _ _ _ IR Hr) as (p' & Hp'). rewrite (urhs_matches _ _ S _ _ _ Hp') in Hr.
    rewrite (urhs_matches _ _ S (Some C) _ _ Hq') in Hq.
    eapply ulv_closure; [apply IH; exact Hp'|exact Hr|exact Hn|exact Hq|]. apply ffirst_local; auto.
    intros m Hm. apply Hw. rewrite <- (firstn_skipn (k + 1) l). apply in_or_app; auto.
  - split; auto. intros q Hq. rewrite (urhs_matches _ _ S _ _ _ Hq) in Hr. eapply ulv_move; eauto.
Qed.
Lemma reduces_local_by gamma lhs p la : ureduces_by ns' (ffirst F') S gamma lhs p la ->
  in_R R lhs /\ forall q, matches lhs p q -> ureduces_by ns (ffirst F) S gamma lhs q la.
Proof.
  intros (l & Hl & Hv). destruct (valid_local_by _ _ _ _ _ Hv) as (HI & H). split; auto.
  intros q Hq. exists l. rewrite <- (urhs_matches _ _ S _ _ _ Hq). auto.
Qed.
Lemma reduces_exist_by gamma n p la : ureduces_by ns' (ffirst F') S gamma (Some n) p la -> exists q, ureduces_by ns (ffirst F) S gamma (Some n) q la.
Proof.
  intros H. destruct (reduces_local_by _ _ _ _ H) as (HI & H'). destruct H as (l & Hl & _).
  destruct (matches_exist _ _ S R HR _ _ _ HI Hl) as (q & Hq). eauto.
Qed.
Lemma shifts_local_by gamma la : kshifts_by ns' (ffirst F') S gamma la -> kshifts_by ns (ffirst F) S gamma la.
Proof.
  intros (t & -> & lhs & p & k & la0 & l & Hv & Hl & Hk). exists t. split; auto.
  destruct (valid_local_by _ _ _ _ _ Hv) as (HI & H). destruct (matches_exist _ _ S R HR _ _ _ HI Hl) as (q & Hq).
  rewrite (urhs_matches _ _ S _ _ _ Hq) in Hl. exists lhs, q, k, la0, l. auto.
Qed.
Lemma accepts_local_by gamma la : kaccepts_by ns' (ffirst F') S gamma la -> kaccepts_by ns (ffirst F) S gamma la.
Proof. intro H. apply (reduces_local_by _ _ _ _ H). reflexivity. Qed.
End LocalBy.

(** Tokens that are not mentioned below the entry point are never expected. *)
Section Below.
Context {A : Type}.
Variable ns : list (ast_non_terminal A).
Variable F : fsets.
Hypothesis HF : first_sets ns F.
Variable S : string.
Variable R : string -> Prop.
Hypothesis HS : R S.
Hypothesis HR : forall n pr m, R n -> In pr (rules_of ns n) -> In (ASNonTerminal m) (body pr) -> R m.
Definition mentioned_in (t : string) : Prop := exists n pr, R n /\ In pr (rules_of ns n) /\ In (ASTerminal t) (body pr).

Lemma within_rhs lhs p l : in_R R lhs -> urhs ns S lhs p = Some l -> within R l /\ forall t, In (ASTerminal t) l -> mentioned_in t.
Proof.
  destruct lhs as [n|]; cbn.
  - intros Hn H. destruct (uproduction ns n p) as [pr|] eqn:E; [|discriminate]. injection H as <-. apply prod_in in E. split.
    + intros m Hm. eapply HR; eauto.
    + intros t Ht. exists n, pr. auto.
  - intros _ H. destruct (Nat.eqb p 0); [|discriminate]. injection H as <-. split.
    + intros m [E|[]]. injection E as <-. exact HS.
    + intros t [E|[]]. discriminate.
Qed.
Lemma derives_below l r : uderives ns l r -> within R l -> forall t, In (ASTerminal t) r -> In (ASTerminal t) l \/ mentioned_in t.
Proof.
  induction 1 as [l|l m r Hd _ IH]; auto. intros Hw t Ht. destruct Hd as [a n p pr b Hp].
  assert (Hn : R n) by (apply Hw, in_or_app; right; left; reflexivity). apply prod_in in Hp.
  destruct (IH) with (t := t) as [H|H]; auto.
  - intros m Hm. apply in_app_or in Hm. destruct Hm as [Hm|Hm]; [apply Hw, in_or_app; auto|]. apply in_app_or in Hm.
    destruct Hm as [Hm|Hm]; [eapply HR; eauto|apply Hw, in_or_app; right; right; auto].
  - apply in_app_or in H. destruct H as [H|H]; [left; apply in_or_app; auto|]. apply in_app_or in H.
    destruct H as [H|H]; [right; exists n, pr; auto|left; apply in_or_app; right; right; auto].
Qed.
Lemma ffirst_below l la t : ffirst F l la (Some t) -> within R l -> In (ASTerminal t) l \/ mentioned_in t \/ la = Some t.
Proof.
  remember (Some t) as x eqn:Ex. induction 1 as [la|t' r la|n r la t' H|n r la x H _ IH]; intro Hw; subst; auto.
  - injection Ex as ->. left. left. reflexivity.
  - injection Ex as ->. destruct (fst_terms _ _ HF _ _ H) as (r' & Hr).
    destruct (derives_below _ _ Hr) with (t := t) as [[E|[]]|Hu]; [|left; auto|discriminate|auto].
    intros m [E|[]]. injection E as <-. apply Hw. left. reflexivity.
  - destruct (IH eq_refl) as [H'|[H'|H']]; auto; [intros m Hm; apply Hw; right; exact Hm|]. left. right. exact H'.
Qed.
Lemma valid_below gamma lhs p k la : uvalid_by ns (ffirst F) S gamma lhs p k la -> in_R R lhs /\ forall t, la = Some t -> mentioned_in t.
Proof.
  induction 1 as [|gamma lhs p k la l C q l' x Hv (IR & IH) Hr Hn Hq Hf|gamma lhs p k la l X Hv (IR & IH) Hr Hn].
  - split; [exact Logic.I|]. discriminate.
  - destruct (within_rhs _ _ _ IR Hr) as (Hw & Ht). split; [apply Hw; eapply nth_error_In; eauto|]. intros t ->.
    assert (Hsk : forall X, In X (skipn (k + 1) l) -> In X l) by (intros X HX; rewrite <- (firstn_skipn (k + 1) l); apply in_or_app; auto).
    apply ffirst_below in Hf; [|intros m Hm; apply Hw; auto]. destruct Hf as [Hf|[Hf|Hf]]; auto.
  - split; auto.
Qed.
Lemma unmentioned_blocked gamma t : ~ mentioned_in t -> kblocked_by ns (ffirst F) S gamma (Some t).
Proof.
  intro Hu. split; [|split].
  - intros (t' & E & lhs & p & k & la & l & Hv & Hl & Hk). injection E as <-. apply Hu. destruct (valid_below _ _ _ _ _ Hv) as (HI & _).
    apply (within_rhs _ _ _ HI Hl). eapply nth_error_In; eauto.
  - intros (l & Hl & Hv). apply Hu. apply (proj2 (valid_below _ _ _ _ _ Hv)). reflexivity.
  - intros n p (l & Hl & Hv). apply Hu. apply (proj2 (valid_below _ _ _ _ _ Hv)). reflexivity.
Qed.
End Below.

Section MachinesBy.
Context {A Tok E V W I : Type}.
Variables ns ns' : list (ast_non_terminal A).
Variables F F' : fsets.
Variable S : string.
Variable R : string -> Prop.
Hypothesis HS : R S.
Hypothesis HR : forall n, R n -> (forall pr, In pr (rules_of ns n) <-> In pr (rules_of ns' n)) /\
      forall pr m, In pr (rules_of ns n) -> In (ASNonTerminal m) (body pr) -> R m.
Hypothesis HFR : forall n, R n -> (f_empty F n <-> f_empty F' n) /\ forall t, f_terms F n t <-> f_terms F' n t.
Hypothesis HF : first_sets ns F.

Lemma HR' : forall n, R n -> (forall pr, In pr (rules_of ns' n) <-> In pr (rules_of ns n)) /\
      forall pr m, In pr (rules_of ns' n) -> In (ASNonTerminal m) (body pr) -> R m.
Proof.
  intros n Hn. destruct (HR n Hn) as (H1 & H2). split; [intro pr; symmetry; apply H1|]. intros pr m Hpr. apply H2. apply H1. exact Hpr.
Qed.
Lemma HFR' : forall n, R n -> (f_empty F' n <-> f_empty F n) /\ forall t, f_terms F' n t <-> f_terms F n t.
Proof. intros n Hn. destruct (HFR n Hn) as (H1 & H2). split; [symmetry; exact H1|]. intro t. symmetry. apply H2. Qed.

Lemma HFR1 : forall n, R n -> (f_empty F' n -> f_empty F n) /\ forall t, f_terms F' n t -> f_terms F n t.
Proof. intros n Hn. destruct (HFR n Hn) as (H1 & H2). split; [apply H1|]. intro t. apply H2. Qed.
Lemma HFR1' : forall n, R n -> (f_empty F n -> f_empty F' n) /\ forall t, f_terms F n t -> f_terms F' n t.
Proof. intros n Hn. destruct (HFR n Hn) as (H1 & H2). split; [apply H1|]. intro t. apply H2. Qed.

Notation f := (ffirst F). Notation f' := (ffirst F').
Lemma c_shifts gamma la : kshifts_by ns f S gamma la <-> kshifts_by ns' f' S gamma la.
Proof. split; [exact (shifts_local_by ns' ns F' F S R HS HR' HFR1' gamma la)|exact (shifts_local_by ns ns' F F' S R HS HR HFR1 gamma la)]. Qed.
Lemma c_accepts gamma la : kaccepts_by ns f S gamma la <-> kaccepts_by ns' f' S gamma la.
Proof. split; [exact (accepts_local_by ns' ns F' F S R HS HR' HFR1' gamma la)|exact (accepts_local_by ns ns' F F' S R HS HR HFR1 gamma la)]. Qed.
Lemma c_blocked gamma la : kblocked_by ns f S gamma la <-> kblocked_by ns' f' S gamma la.
Proof.
  unfold kblocked_by. rewrite c_shifts, c_accepts.
  assert (H : (forall n p, ~ ureduces_by ns f S gamma (Some n) p la) <-> (forall n p, ~ ureduces_by ns' f' S gamma (Some n) p la)); [|tauto].
  split; intros H n p Hr.
  - destruct (reduces_exist_by ns ns' F F' S R HS HR HFR1 _ _ _ _ Hr) as (q & Hq). eapply H; eauto.
  - destruct (reduces_exist_by ns' ns F' F S R HS HR' HFR1' _ _ _ _ Hr) as (q & Hq). eapply H; eauto.
Qed.
Lemma c_listed gamma listed : klisted_by ns f S gamma listed <-> klisted_by ns' f' S gamma listed.
Proof. unfold klisted_by. split; intros H t; [rewrite <- c_blocked|rewrite c_blocked]; apply H. Qed.
Lemma c_reduces gamma la n p pr : kreduces_by ns f S gamma la n p -> uproduction ns n p = Some pr ->
  exists q, kreduces_by ns' f' S gamma la n q /\ uproduction ns' n q = Some pr.
Proof.
  intros (Hr & Hs & Ha) Hp. rewrite c_shifts in Hs. rewrite c_accepts in Ha.
  destruct (reduces_local_by ns' ns F' F S R HS HR' HFR1' _ _ _ _ Hr) as (HI & H). cbn in HI.
  destruct (prod_there ns' ns R HR' _ _ _ HI Hp) as (q & Hq). exists q. split; auto. split; auto. apply H. cbn. eauto.
Qed.

Variables entries entries' : list string.
Variables class class' : Tok -> option string.
Variables fields fields' : Tok -> list V.
Variable sem : A -> list (string * bval V) -> W -> option (V * W).
Variable next : I -> option (Tok + E) * I.
Notation kconf := (kconf Tok E V W I).
Notation known := (EntryProofs.known class class' fields fields').
Notation ahead := (EntryProofs.ahead class class' fields fields' next).
Notation good := (EntryProofs.good class class' fields fields' next).
Notation same := (kev_same ns' ns).

Lemma c_step (c : kconf) evs c' : good c -> kstep_by ns f class fields sem next S c evs c' ->
  good c' /\ exists evs', kstep_by ns' f' class' fields' sem next S c evs' c' /\ Forall2 same evs evs'.
Proof.
  intros Hk H. revert Hk. destruct H as [st tok t it w r it' Hc Hsh Hn|args rest tk it w la n p pr v w' Hl Hr Hp HL Hv]; intros (Hk & Ha); cbn [kc_token kc_iter] in Hk, Ha.
  - destruct (Hk tok eq_refl) as (K1 & K2). split; [exact (known_next _ _ _ _ _ _ _ _ Ha Hn)|]. exists [KNext r]. split; [|repeat constructor].
    rewrite K2. constructor; auto; [congruence|]. apply c_shifts. exact Hsh.
  - split; [split; auto|]. destruct (c_reduces _ _ _ _ _ Hr Hp) as (q & Hq & Hpq). exists [KAction n q]. split.
    + eapply k_reduce; eauto using m_look.
    + repeat econstructor; eauto.
Qed.
Lemma c_steps n (c : kconf) evs c' : ksteps_by ns f class fields sem next S n c evs c' -> good c ->
  good c' /\ exists evs', ksteps_by ns' f' class' fields' sem next S n c evs' c' /\ Forall2 same evs evs'.
Proof.
  induction 1 as [c|n c evs c1 evs' c2 Hs _ IH]; intro Hk; [split; auto; exists []; repeat constructor|].
  destruct (c_step _ _ _ Hk Hs) as (H2 & es0 & H3 & H4). destruct (IH H2) as (H5 & es & H6 & H7). split; auto.
  exists (es0 ++ es). split; [econstructor; eauto|apply Forall2_app; auto].
Qed.
Lemma c_runs it w n c evs : ahead it -> kruns_by ns f class fields sem next S it w n c evs ->
  good c /\ exists evs', kruns_by ns' f' class' fields' sem next S it w n c evs' /\ Forall2 same evs evs'.
Proof.
  intros Ha (evs' & H & ->). destruct (c_steps _ _ _ _ H) as (H1 & es & H2 & H3); [exact (known_next _ _ _ _ _ _ _ _ Ha (surjective_pairing _))|].
  split; auto. exists (KNext (fst (next it)) :: es). split; [exists es; auto|constructor; auto; constructor].
Qed.
Notation mentioned_in := (mentioned_in ns R).
Hypothesis Hnd : NoDup entries.
Hypothesis Hnd' : NoDup entries'.
Hypothesis Hent : forall t, mentioned_in t -> In t entries.
Hypothesis Hent' : forall t, mentioned_in t -> In t entries'.
Lemma c_closed : forall n pr m, R n -> In pr (rules_of ns n) -> In (ASNonTerminal m) (body pr) -> R m.
Proof. intros n pr m Hn. exact (proj2 (HR n Hn) pr m). Qed.
Lemma c_listed_in gamma listed (l : list string) t : klisted_by ns f S gamma listed -> (forall t, mentioned_in t -> In t l) -> listed t = true -> In t l.
Proof.
  intros Hl Hu Ht. destruct (in_dec String.string_dec t l) as [H|H]; auto. exfalso. apply Hl in Ht. apply Ht.
  apply (unmentioned_blocked ns F HF S R HS c_closed). auto.
Qed.
Definition same_order : Prop := exists keep, (forall t, mentioned_in t -> keep t = true) /\ filter keep entries = filter keep entries'.
Lemma c_stop (c : kconf) evs (o : outcome E V W I) : known (kc_token c) -> kstop_by ns f entries class sem S c evs o ->
  exists o' evs', kstop_by ns' f' entries' class' sem S c evs' o' /\ Forall2 same evs evs' /\ same_outcome o o' /\ (same_order -> o = o').
Proof.
  assert (Hrefl : forall o : outcome E V W I, same_outcome o o) by (intro x; split; [|split; [|left]]; reflexivity).
  intros Hkn Hst. revert Hkn. destruct Hst as [v it w Ha|args rest tk it w la n p pr Hk Hr Hp HL Hv|st e it w|st tok it w Hc|st tk it w la listed Hk Hb Hl]; cbn [kc_token]; intro Hkn.
  - eexists. exists [KAccept]. split; [constructor; apply c_accepts; auto|]. split; [repeat constructor|auto].
  - destruct (c_reduces _ _ _ _ _ Hr Hp) as (q & Hq & Hpq). eexists. exists [KAction n q]. split; [eapply k_action_panics; eauto using m_look|].
    split; [repeat econstructor; eauto|auto].
  - eexists. exists []. split; [constructor|]. split; [constructor|auto].
  - eexists. exists []. split; [constructor; rewrite <- (proj1 (Hkn tok eq_refl)); exact Hc|]. split; [constructor|auto].
  - eexists. exists []. split; [eapply k_error; [eapply m_look; eauto|apply c_blocked; eauto|apply c_listed; eauto]|]. split; [constructor|]. split.
    + split; [reflexivity|]. split; [reflexivity|]. right. do 3 eexists. split; [reflexivity|]. split; [reflexivity|].
      apply NoDup_Permutation; [apply NoDup_filter; auto|apply NoDup_filter; auto|]. intro t. rewrite !filter_In.
      split; intros (_ & Ht); (split; [|exact Ht]); eapply c_listed_in; eauto.
    + intros (keep & Hkeep & Hf). do 2 f_equal. f_equal.
      assert (Hfk : forall l, filter listed (filter keep l) = filter listed l).
      { intro l. induction l as [|t l IHl]; cbn; auto. destruct (keep t) eqn:Ek; cbn; [destruct (listed t); congruence|].
        destruct (listed t) eqn:Elt; auto. exfalso. apply Hl in Elt. apply Elt. apply (unmentioned_blocked ns F HF S R HS c_closed). intro Hu. apply Hkeep in Hu. congruence. }
      rewrite <- (Hfk entries), <- (Hfk entries'), Hf. reflexivity.
Qed.
Lemma c_returns it w o evs : ahead it -> kreturns_by ns f entries class fields sem next S it w o evs ->
  exists o' evs', kreturns_by ns' f' entries' class' fields' sem next S it w o' evs' /\ Forall2 same evs evs' /\ same_outcome o o' /\ (same_order -> o = o').
Proof.
  intros Ha (n & c & e1 & e2 & Hr & Hs & ->). destruct (c_runs _ _ _ _ _ Ha Hr) as ((H1 & _) & es & H2 & H3).
  destruct (c_stop _ _ _ H1 Hs) as (o' & es' & H4 & H5 & H6). exists o', (es ++ es'). split; [exists n, c, es, es'; auto|]. split; auto. apply Forall2_app; auto.
Qed.
End MachinesBy.

(** ** Parsers *)
Section ParsersBy.
Context {A : Type}.
Variables items items' : list (grammar_item A).
Variables gp gp' : generated (lexpr A).
Variables pr pr' : parser_struct.
Hypothesis Hp : parser_of items gp pr.
Hypothesis Hp' : parser_of items' gp' pr'.
Hypothesis Hnm : pr_name pr = pr_name pr'.
Variable R : string -> Prop.
Hypothesis HS : R (pr_name pr).
Hypothesis HR : forall n, R n -> (forall p, In p (rules_of (declared_nts items) n) <-> In p (rules_of (declared_nts items') n)) /\
      forall p m, In p (rules_of (declared_nts items) n) -> In (ASNonTerminal m) (body p) -> R m.
Hypothesis HFR : forall n, R n -> (f_empty (computed items) n <-> f_empty (computed items') n) /\
      forall t, f_terms (computed items) n t <-> f_terms (computed items') n t.
Context {E V W I : Type}.
Variable inj : rval -> V.
Variable usem : A -> list (string * bval V) -> W -> option (V * W).
Variable next : I -> option (rval + E) * I.
Variable it : I.
Hypothesis Hnext : forall tok, upcoming next it tok -> first_match (token_entries items) tok = first_match (token_entries items') tok.
Variable w : W.

Lemma rules_mentioned (ns : list (ast_non_terminal A)) t : mentioned_in ns R t -> mentioned ns t.
Proof.
  intros (n & p & _ & Hin & Ht). unfold rules_of in Hin. destruct (find _ ns) as [N|] eqn:Ef; [|destruct Hin]. apply find_some in Ef.
  exists N, p. tauto.
Qed.
Lemma mentioned_there t : mentioned_in (declared_nts items) R t -> mentioned_in (declared_nts items') R t.
Proof. intros (n & p & Hn & Hin & Ht). exists n, p. split; auto. split; auto. apply (proj1 (HR n Hn)). exact Hin. Qed.

Lemma below_returns o evs : returns_with gp inj usem next pr it w o evs ->
  exists o' evs', returns_with gp' inj usem next pr' it w o' evs' /\ map (called gp) evs = map (called gp') evs' /\ same_outcome o o' /\
    (same_order (declared_nts items) R (map cv_from (token_entries items)) (map cv_from (token_entries items')) -> o = o').
Proof.
  intro Hr. pose proof Hp as (Hn & Hpl & He & Hi). pose proof Hp' as (Hn' & Hpl' & He' & Hi').
  destruct (c59_machine items gp Hn Hpl He) as (nn & no & va & Hnum & K). destruct (c59_machine items' gp' Hn' Hpl' He') as (nn' & no' & va' & Hnum' & K').
  specialize (K pr Hi E V W I inj usem next it w). specialize (K' pr' Hi' E V W I inj usem next it w).
  apply (proj1 K) in Hr. destruct Hr as (kevs & Hk & ->).
  pose proof (expands_supported _ _ He) as Hs. pose proof (expands_supported _ _ He') as Hs'.
  pose proof (c59_sets items Hn Hs) as HF.
  assert (Hent : forall t, mentioned_in (declared_nts items) R t -> In t (map cv_from (token_entries items)))
    by (intros t Ht; apply (supported_used _ _ _ Hs), rules_mentioned; exact Ht).
  assert (Hent' : forall t, mentioned_in (declared_nts items) R t -> In t (map cv_from (token_entries items')))
    by (intros t Ht; apply (supported_used _ _ _ Hs'), rules_mentioned, mentioned_there; exact Ht).
  destruct (c_returns _ _ _ _ _ R HS HR HFR HF _ (map cv_from (token_entries items')) _ (class items') _ (fields items' inj) usem next (proj1 Hs) (proj1 Hs') Hent Hent'
    it w o kevs (next_classes items items' inj next it Hnext) Hk) as (o' & kevs' & Hk' & Hev & Ho & Heq).
  exists o', (map (rendered no' pr') kevs'). split; [apply (proj1 K'); exists kevs'; split; auto; rewrite <- Hnm; exact Hk'|]. split; [|auto].
  symmetry. apply (same_calls items' items gp' gp pr' pr Hp' Hp _ _ _ _ _ _ _ _ Hnum' Hnum). exact Hev.
Qed.
Lemma below_running n it1 w1 evs : running gp inj usem next pr it w n it1 w1 evs ->
  exists evs', running gp' inj usem next pr' it w n it1 w1 evs' /\ map (called gp) evs = map (called gp') evs'.
Proof.
  intro Hr. pose proof Hp as (Hn & Hpl & He & Hi). pose proof Hp' as (Hn' & Hpl' & He' & Hi').
  destruct (c59_machine items gp Hn Hpl He) as (nn & no & va & Hnum & K). destruct (c59_machine items' gp' Hn' Hpl' He') as (nn' & no' & va' & Hnum' & K').
  specialize (K pr Hi E V W I inj usem next it w). specialize (K' pr' Hi' E V W I inj usem next it w).
  apply (proj2 K) in Hr. destruct Hr as (c & kevs & Hk & Hc1 & Hc2 & ->).
  destruct (c_runs _ _ _ _ _ R HS HR HFR _ (class items') _ (fields items' inj) usem next it w n c kevs (next_classes items items' inj next it Hnext) Hk)
    as (_ & kevs' & Hk' & Hev).
  exists (map (rendered no' pr') kevs'). split; [apply (proj2 K'); exists c, kevs'; rewrite <- Hnm; auto|].
  symmetry. apply (same_calls items' items gp' gp pr' pr Hp' Hp _ _ _ _ _ _ _ _ Hnum' Hnum). exact Hev.
Qed.
End ParsersBy.
