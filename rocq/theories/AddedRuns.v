(** * AddedRuns: machines with larger FIRST sets go at least as far *)
From Verif Require Export AddedProofs LocalBy.
From Verif Require Import ComputedProofs UserProofs PropertiesHygiene.
Local Open Scope list_scope.

Section Grow.
Context {A Tok E V W I : Type}.
(** [ns], [F]: the smaller one. *)
Variables ns ns' : list (ast_non_terminal A).
Variables F F' : fsets.
Variable S : string.
Variable R : string -> Prop.
Hypothesis HS : R S.
Hypothesis HR : forall n, R n -> (forall pr, In pr (rules_of ns' n) <-> In pr (rules_of ns n)) /\
      forall pr m, In pr (rules_of ns' n) -> In (ASNonTerminal m) (body pr) -> R m.
Hypothesis HFR : forall n, R n -> (f_empty F n -> f_empty F' n) /\ forall t, f_terms F n t -> f_terms F' n t.
Hypothesis HF' : first_sets ns' F'.
(** The grammar is LR(1). *)
Hypothesis Hlr : forall gamma,
    (forall a p b q la, ureduces_by ns' (uin_first ns') S gamma a p la -> ureduces_by ns' (uin_first ns') S gamma b q la -> a = b /\ p = q) /\
    (forall a p t, ureduces_by ns' (uin_first ns') S gamma a p (Some t) -> ushifts_by ns' (uin_first ns') S gamma t -> False).

Notation f := (ffirst F). Notation f' := (ffirst F').
Lemma true_valid gamma lhs p k la : uvalid_by ns' f' S gamma lhs p k la -> uvalid_by ns' (uin_first ns') S gamma lhs p k la.
Proof. induction 1; [constructor| |econstructor; eauto]. eapply ulv_closure; eauto. apply (ffirst_sound ns' F' HF'). assumption. Qed.
Lemma true_reduces gamma lhs p la : ureduces_by ns' f' S gamma lhs p la -> ureduces_by ns' (uin_first ns') S gamma lhs p la.
Proof. intros (l & Hl & Hv). exists l. split; auto. apply true_valid. exact Hv. Qed.
Lemma g_shifts gamma la : kshifts_by ns f S gamma la -> kshifts_by ns' f' S gamma la.
Proof. exact (shifts_local_by ns' ns F' F S R HS HR HFR gamma la). Qed.
Lemma g_accepts gamma la : kaccepts_by ns f S gamma la -> kaccepts_by ns' f' S gamma la.
Proof. exact (accepts_local_by ns' ns F' F S R HS HR HFR gamma la). Qed.
Lemma g_reduces gamma la n p pr : kreduces_by ns f S gamma la n p -> uproduction ns n p = Some pr ->
  exists q, kreduces_by ns' f' S gamma la n q /\ uproduction ns' n q = Some pr.
Proof.
  intros (Hr & _ & _) Hp.
  destruct (reduces_local_by ns' ns F' F S R HS HR HFR _ _ _ _ Hr) as (HI & H). cbn in HI.
  destruct (prod_there ns' ns R HR _ _ _ HI Hp) as (q & Hq). exists q. split; auto.
  assert (Hr' : ureduces_by ns' f' S gamma (Some n) q la) by (apply H; cbn; eauto). split; auto. apply true_reduces in Hr'. split.
  - intros (t & -> & lhs & p0 & k & la0 & l & Hv & Hl & Hk). apply (proj2 (Hlr gamma) _ _ _ Hr'). exists lhs, p0, k, la0, l. split; [apply true_valid|]; auto.
  - intro Ha. apply true_reduces in Ha. destruct (proj1 (Hlr gamma) _ _ _ _ _ Hr' Ha). discriminate.
Qed.

Variables entries entries' : list string.
Variables class class' : Tok -> option string.
Variables fields fields' : Tok -> list V.
Variable sem : A -> list (string * bval V) -> W -> option (V * W).
Variable next : I -> option (Tok + E) * I.
Notation kconf := (kconf Tok E V W I).
Notation known := (EntryProofs.known class class' fields fields').
Notation ahead := (EntryProofs.ahead class class' fields fields' next).
Notation good := (EntryProofs.good class class' fields fields' next).
Notation same := (kev_same ns' ns).

Lemma g_step (c : kconf) evs c' : good c -> kstep_by ns f class fields sem next S c evs c' ->
  good c' /\ exists evs', kstep_by ns' f' class' fields' sem next S c evs' c' /\ Forall2 same evs evs'.
Proof.
  intros Hk H. revert Hk. destruct H as [st tok t it w r it' Hc Hsh Hn|args rest tk it w la n p pr v w' Hl Hr Hp HL Hv]; intros (Hk & Ha); cbn [kc_token kc_iter] in Hk, Ha.
  - destruct (Hk tok eq_refl) as (K1 & K2). split; [exact (known_next _ _ _ _ _ _ _ _ Ha Hn)|]. exists [KNext r]. split; [|repeat constructor].
    rewrite K2. constructor; auto; [congruence|]. apply g_shifts. exact Hsh.
  - split; [split; auto|]. destruct (g_reduces _ _ _ _ _ Hr Hp) as (q & Hq & Hpq). exists [KAction n q]. split.
    + eapply k_reduce; eauto using m_look.
    + repeat econstructor; eauto.
Qed.
Lemma g_steps n (c : kconf) evs c' : ksteps_by ns f class fields sem next S n c evs c' -> good c ->
  good c' /\ exists evs', ksteps_by ns' f' class' fields' sem next S n c evs' c' /\ Forall2 same evs evs'.
Proof.
  induction 1 as [c|n c evs c1 evs' c2 Hs _ IH]; intro Hk; [split; auto; exists []; repeat constructor|].
  destruct (g_step _ _ _ Hk Hs) as (H2 & es0 & H3 & H4). destruct (IH H2) as (H5 & es & H6 & H7). split; auto.
  exists (es0 ++ es). split; [econstructor; eauto|apply Forall2_app; auto].
Qed.
Lemma g_runs it w n c evs : ahead it -> kruns_by ns f class fields sem next S it w n c evs ->
  good c /\ exists evs', kruns_by ns' f' class' fields' sem next S it w n c evs' /\ Forall2 same evs evs'.
Proof.
  intros Ha (evs' & H & ->). destruct (g_steps _ _ _ _ H) as (H1 & es & H2 & H3); [exact (known_next _ _ _ _ _ _ _ _ Ha (surjective_pairing _))|].
  split; auto. exists (KNext (fst (next it)) :: es). split; [exists es; auto|constructor; auto; constructor].
Qed.
Lemma g_stop (c : kconf) evs (o : outcome E V W I) : known (kc_token c) -> (forall x y, oc_result o <> PParserError x y) ->
  kstop_by ns f entries class sem S c evs o -> exists evs', kstop_by ns' f' entries' class' sem S c evs' o /\ Forall2 same evs evs'.
Proof.
  intros Hkn Ho Hst. revert Hkn Ho. destruct Hst as [v it w Ha|args rest tk it w la n p pr Hk Hr Hp HL Hv|st e it w|st tok it w Hc|st tk it w la listed Hk Hb Hl]; cbn [kc_token]; intros Hkn Ho.
  - exists [KAccept]. split; [constructor; apply g_accepts; auto|repeat constructor].
  - destruct (g_reduces _ _ _ _ _ Hr Hp) as (q & Hq & Hpq). exists [KAction n q]. split; [eapply k_action_panics; eauto using m_look|].
    repeat econstructor; eauto.
  - exists []. split; [constructor|constructor].
  - exists []. split; [constructor; rewrite <- (proj1 (Hkn tok eq_refl)); exact Hc|constructor].
  - exfalso. eapply Ho. reflexivity.
Qed.
Lemma g_returns it w o evs : ahead it -> (forall x y, oc_result o <> PParserError x y) -> kreturns_by ns f entries class fields sem next S it w o evs ->
  exists evs', kreturns_by ns' f' entries' class' fields' sem next S it w o evs' /\ Forall2 same evs evs'.
Proof.
  intros Ha Ho (n & c & e1 & e2 & Hr & Hs & ->). destruct (g_runs _ _ _ _ _ Ha Hr) as ((H1 & _) & es & H2 & H3).
  destruct (g_stop _ _ _ H1 Ho Hs) as (es' & H4 & H5). exists (es ++ es'). split; [exists n, c, es, es'; auto|]. apply Forall2_app; auto.
Qed.
End Grow.

(** ** Parsers *)
Lemma rules_kept {A} keep (l : list (ast_non_terminal A)) n : NoDup (map an_name l) -> In n (map an_name (filter keep l)) ->
  rules_of (filter keep l) n = rules_of l n.
Proof.
  unfold rules_of. intros Hnd Hin. induction l as [|N l IH]; [reflexivity|]. inversion Hnd as [|? ? H1 H2]; subst. cbn [filter] in *. cbn [find].
  destruct (String.eqb (an_name N) n) eqn:E.
  - apply String.eqb_eq in E. subst n. destruct (keep N); cbn [find]; [rewrite String.eqb_refl; reflexivity|].
    exfalso. apply H1. apply in_map_iff in Hin. destruct Hin as (M & <- & HM). apply filter_In in HM. apply in_map. tauto.
  - destruct (keep N); cbn [find]; [rewrite E|]; apply IH; auto. cbn in Hin. destruct Hin as [<-|Hin]; auto. rewrite String.eqb_refl in E. discriminate.
Qed.
Lemma supported_closed {A} (l : list (ast_non_terminal A)) cs n pr m : supported l cs -> In pr (rules_of l n) -> In (ASNonTerminal m) (body pr) ->
  In m (map an_name l).
Proof.
  intros (_ & _ & H) Hin Hm. unfold rules_of in Hin. destruct (find _ l) as [N|] eqn:Ef; [|destruct Hin]. apply find_some in Ef.
  destruct (H N pr (proj1 Ef) Hin) as (Hsym & _). unfold body in Hm. apply in_map_iff in Hm.
  destruct Hm as (s & Es & Hs). rewrite Forall_forall in Hsym. specialize (Hsym s Hs). unfold symbol_ok in Hsym. rewrite Es in Hsym. exact Hsym.
Qed.

Section Added.
Context {A : Type}.
Variables items items' : list (grammar_item A).
Variables gp gp' : generated (lexpr A).
Variables pr pr' : parser_struct.
Hypothesis Hp : parser_of items gp pr.
Hypothesis Hp' : parser_of items' gp' pr'.
Hypothesis Hnm : pr_name pr = pr_name pr'.
Variable keep : ast_non_terminal A -> bool.
Hypothesis Hnts : declared_nts items = filter keep (declared_nts items').
Hypothesis Hlr : ulr1_grammar (declared_nts items).
Context {E V W I : Type}.
Variable inj : rval -> V.
Variable usem : A -> list (string * bval V) -> W -> option (V * W).
Variable next : I -> option (rval + E) * I.
Variable it : I.
Hypothesis Hnext : forall tok, upcoming next it tok -> first_match (token_entries items) tok = first_match (token_entries items') tok.
Variable w : W.
Notation R := (fun n => In n (map an_name (declared_nts items))).
Notation S := (pr_name pr).

Lemma a_start : exists N, In N (declared_nts items) /\ an_pub N = true /\ an_name N = S.
Proof. destruct Hp as (Hn & _ & He & Hi). apply (entry_name_In items gp Hn He). apply in_map. exact Hi. Qed.
Lemma a_S : R S.
Proof. destruct a_start as (N & H & _ & <-). apply in_map. exact H. Qed.
Lemma a_same n : R n -> rules_of (declared_nts items) n = rules_of (declared_nts items') n.
Proof. rewrite Hnts. apply rules_kept. exact (proj1 Hp'). Qed.
Lemma a_HR : forall n, R n -> (forall p, In p (rules_of (declared_nts items') n) <-> In p (rules_of (declared_nts items) n)) /\
      forall p m, In p (rules_of (declared_nts items') n) -> In (ASNonTerminal m) (body p) -> R m.
Proof.
  intros n Hn. rewrite (a_same n Hn). split; [reflexivity|]. intros p m Hin Hm. rewrite <- (a_same n Hn) in Hin.
  eapply supported_closed; eauto. eapply expands_supported. apply Hp.
Qed.
Lemma a_HR' : forall n, R n -> (forall p, In p (rules_of (declared_nts items) n) <-> In p (rules_of (declared_nts items') n)) /\
      forall p m, In p (rules_of (declared_nts items) n) -> In (ASNonTerminal m) (body p) -> R m.
Proof. intros n Hn. pose proof (a_HR n Hn) as H. rewrite <- (a_same n Hn) in *. exact H. Qed.
Lemma a_matches lhs p : in_R R lhs -> (exists l, urhs (declared_nts items') S lhs p = Some l) -> matches (declared_nts items) (declared_nts items') lhs p p.
Proof.
  destruct lhs as [n|]; cbn; [|reflexivity]. intros Hn (l & Hl). rewrite !uproduction_rules in *. rewrite (a_same n Hn).
  destruct (nth_error _ p) as [q|]; [eauto|discriminate].
Qed.
Lemma a_reduces gamma lhs p la : ulr1_reduces (declared_nts items') S gamma lhs p la -> ulr1_reduces (declared_nts items) S gamma lhs p la.
Proof.
  intro H. destruct (reduces_local _ _ S R a_S a_HR' _ _ _ _ H) as (HI & H1). apply H1. apply a_matches; auto. destruct H as (l & Hl & _). eauto.
Qed.
Lemma a_lr gamma :
    (forall a p b q la, ulr1_reduces (declared_nts items') S gamma a p la -> ulr1_reduces (declared_nts items') S gamma b q la -> a = b /\ p = q) /\
    (forall a p t, ulr1_reduces (declared_nts items') S gamma a p (Some t) -> ulr1_shifts (declared_nts items') S gamma t -> False).
Proof.
  destruct a_start as (N & HN & HNp & HNn). destruct (Hlr N gamma HN HNp) as (L1 & L2). rewrite HNn in L1, L2. split.
  - intros a p b q la Ha Hb. apply (L1 _ _ _ _ la); apply a_reduces; assumption.
  - intros a p t Ha Hb. apply (L2 a p t (a_reduces _ _ _ _ Ha)).
    destruct (shifts_local _ _ S R a_S a_HR' gamma (Some t)) as (t' & Et & Ht); [exists t; auto|]. injection Et as <-. exact Ht.
Qed.
Lemma a_HFR : forall n, R n -> (f_empty (computed items) n -> f_empty (computed items') n) /\ forall t, f_terms (computed items) n t -> f_terms (computed items') n t.
Proof.
  apply (computed_grows items items' keep Hnts (proj1 Hp')); eapply expands_supported; [apply Hp|apply Hp'].
Qed.
Lemma a_sets : first_sets (declared_nts items') (computed items').
Proof. apply c59_sets; [apply Hp'|]. eapply expands_supported. apply Hp'. Qed.

Lemma added_returns o evs : (forall x y, oc_result o <> PParserError x y) -> returns_with gp inj usem next pr it w o evs ->
  exists evs', returns_with gp' inj usem next pr' it w o evs' /\ map (called gp) evs = map (called gp') evs'.
Proof.
  intros Ho Hr. pose proof Hp as (Hn & Hpl & He & Hi). pose proof Hp' as (Hn' & Hpl' & He' & Hi').
  destruct (c59_machine items gp Hn Hpl He) as (nn & no & va & Hnum & K). destruct (c59_machine items' gp' Hn' Hpl' He') as (nn' & no' & va' & Hnum' & K').
  specialize (K pr Hi E V W I inj usem next it w). specialize (K' pr' Hi' E V W I inj usem next it w).
  apply (proj1 K) in Hr. destruct Hr as (kevs & Hk & ->).
  destruct (g_returns _ _ _ _ _ R a_S a_HR a_HFR a_sets a_lr _ (map cv_from (token_entries items')) _ (class items') _ (fields items' inj) usem next
    it w o kevs (next_classes items items' inj next it Hnext) Ho Hk) as (kevs' & Hk' & Hev).
  exists (map (rendered no' pr') kevs'). split; [apply (proj1 K'); exists kevs'; split; auto; rewrite <- Hnm; exact Hk'|].
  symmetry. apply (same_calls items' items gp' gp pr' pr Hp' Hp _ _ _ _ _ _ _ _ Hnum' Hnum). exact Hev.
Qed.
Lemma added_running n it1 w1 evs : running gp inj usem next pr it w n it1 w1 evs ->
  exists evs', running gp' inj usem next pr' it w n it1 w1 evs' /\ map (called gp) evs = map (called gp') evs'.
Proof.
  intros Hr. pose proof Hp as (Hn & Hpl & He & Hi). pose proof Hp' as (Hn' & Hpl' & He' & Hi').
  destruct (c59_machine items gp Hn Hpl He) as (nn & no & va & Hnum & K). destruct (c59_machine items' gp' Hn' Hpl' He') as (nn' & no' & va' & Hnum' & K').
  specialize (K pr Hi E V W I inj usem next it w). specialize (K' pr' Hi' E V W I inj usem next it w).
  apply (proj2 K) in Hr. destruct Hr as (c & kevs & Hk & Hc1 & Hc2 & ->).
  destruct (g_runs _ _ _ _ _ R a_S a_HR a_HFR a_sets a_lr _ (class items') _ (fields items' inj) usem next it w n c kevs (next_classes items items' inj next it Hnext) Hk)
    as (_ & kevs' & Hk' & Hev).
  exists (map (rendered no' pr') kevs'). split; [apply (proj2 K'); exists c, kevs'; rewrite <- Hnm; auto|].
  symmetry. apply (same_calls items' items gp' gp pr' pr Hp' Hp _ _ _ _ _ _ _ _ Hnum' Hnum). exact Hev.
Qed.
End Added.
