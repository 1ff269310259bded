(** * Wf: well-formed lowered grammars; what [lower] establishes (theorem [lowered_wf] in LowerProofs.v) *)
From Verif Require Export GSpec BaseProofs.

Section Wf.
Context {A : Type}.
Variable g : grammar A.

(** [n] is a [pub] non-terminal (an entry point). *)
Definition is_public (n : nat) : Prop :=
  exists N, get_non_terminal g n = Some N /\ nt_public N = true.
Definition is_private (n : nat) : Prop :=
  exists N, get_non_terminal g n = Some N /\ nt_public N = false.

Record wf_grammar : Prop := {
  (** right-hand sides mention declared private non-terminals and declared terminals only *)
  wfg_nt : forall n p pr m, get_production g n p = Some pr -> In (NT m) (rhs pr) -> is_private m;
  wfg_t : forall n p pr t, get_production g n p = Some pr -> In (T t) (rhs pr) -> t < n_terminals g;
  (** an entry point has the single production [S -> S1] *)
  wfg_pub : forall n N, get_non_terminal g n = Some N -> nt_public N = true ->
            exists pr m, nt_productions N = [pr] /\ rhs pr = [NT m]
}.

Lemma public_private_excl n : is_public n -> is_private n -> False.
Proof. intros (N & H1 & H2) (N' & H3 & H4). congruence. Qed.

Lemma get_production_nt n p pr : get_production g n p = Some pr ->
  exists N, get_non_terminal g n = Some N /\ nth_error (nt_productions N) p = Some pr.
Proof.
  unfold get_production. destruct (get_non_terminal g n) as [N|]; [|discriminate]. eauto.
Qed.

Lemma public_or_private n p pr : get_production g n p = Some pr -> is_public n \/ is_private n.
Proof.
  intro H. apply get_production_nt in H. destruct H as (N & H & _).
  destruct (nt_public N) eqn:E; [left|right]; exists N; auto.
Qed.

Lemma wf_public_prod (Hwf : wf_grammar) n p pr :
  get_production g n p = Some pr -> is_public n -> p = 0 /\ exists m, rhs pr = [NT m] /\ is_private m.
Proof.
  intros H (N & HN & Hp). pose proof H as H'. apply get_production_nt in H.
  destruct H as (N' & HN' & Hpr). rewrite HN in HN'; inversion HN'; subst N'.
  destruct (wfg_pub Hwf n N HN Hp) as (pr' & m & Hprs & Hrhs).
  rewrite Hprs in Hpr. destruct p as [|[|p]]; simpl in Hpr; try discriminate.
  inversion Hpr; subst pr'. split; auto. exists m; split; auto.
  eapply wfg_nt; eauto. rewrite Hrhs; left; auto.
Qed.

Lemma production_index_iff n p :
  In p (non_terminal_production_indices g n) <-> exists pr, get_production g n p = Some pr.
Proof.
  unfold non_terminal_production_indices, get_production.
  destruct (get_non_terminal g n) as [N|]; simpl.
  - rewrite in_seq. split.
    + intros [_ H]. destruct (nth_error (nt_productions N) p) eqn:E; eauto.
      apply nth_error_None in E. lia.
    + intros (pr & H). split; [lia|]. simpl. apply nth_error_Some. congruence.
  - split; [tauto|]. intros (pr & H); discriminate.
Qed.

Lemma nt_in_range n N : get_non_terminal g n = Some N -> n < n_non_terminals g.
Proof. intro H. apply nth_error_Some. unfold get_non_terminal in H. congruence. Qed.
End Wf.
