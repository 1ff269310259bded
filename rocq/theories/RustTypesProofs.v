(** * RustTypesProofs: facts about well-typed modules *)
From Coq Require Import NArith Ascii.
From Verif Require Export RustTypes.
Local Open Scope string_scope. Local Open Scope list_scope.

Scheme rt_min := Minimality for rpat_typed Sort Prop with rts_min := Minimality for rpats_typed Sort Prop with rf_min := Minimality for rfields_typed Sort Prop.
Combined Scheme rpats_mutind from rt_min, rts_min, rf_min.
Scheme pt_min := Minimality for pat_typed Sort Prop with pts_min := Minimality for pats_typed Sort Prop.
Combined Scheme pats_mutind from pt_min, pts_min.
Section Binds.
Context {A : Type}.
Variables (M : list (item A)) (S : sigs) (U : user_types A).
Notation free := (Forall (fun x => is_constant M x = false)).
Lemma rpat_typed_binds : (forall b r t vs, rpat_typed M U b r t vs -> free (rpat_binds r)) /\
  (forall b rs ts vs, rpats_typed M U b rs ts vs -> free (flat_map rpat_binds rs)) /\
  (forall b fs fts vs, rfields_typed M U b fs fts vs -> free (flat_map (fun '(_, r) => rpat_binds r) fs)).
Proof.
  apply rpats_mutind; intros; cbn [rpat_binds flat_map]; auto; try (apply Forall_app; auto); try constructor; auto.
Qed.
Lemma pat_typed_binds self : (forall b p t vs, pat_typed M S U self b p t vs -> free (pat_binds p)) /\
  (forall b ps ts vs, pats_typed M S U self b ps ts vs -> free (flat_map pat_binds ps)).
Proof.
  apply pats_mutind; intros; cbn [pat_binds flat_map]; auto; try (apply Forall_app; auto).
  - eapply (proj1 rpat_typed_binds); eauto.
Qed.
Variable sc : scope.
Lemma typed_binds : forall l G e t, typed M S U sc l G e t -> free (expr_binds e).
Proof.
  fix IH 5. intros l G e t H.
  destruct H; cbn [expr_binds];
    try (match goal with D : (_ = "" /\ _) \/ _ |- _ => destruct D as [(_ & -> & _)|(_ & ->)]; constructor end);
    try (constructor; fail); try (eapply IH; eassumption);
    try (cbn [flat_map]; rewrite ?app_nil_r; apply Forall_app; split; eapply IH; eassumption);
    try (cbn [flat_map]; rewrite ?app_nil_r; eapply IH; eassumption).
  - clear H0. induction H as [|e t es ts He _ IHl]; [constructor|]. cbn [flat_map]. apply Forall_app. split; [eapply IH; exact He|exact IHl].
  - induction H as [|e es He _ IHl]; [constructor|]. cbn [flat_map]. apply Forall_app. split; [eapply IH; exact He|exact IHl].
  - induction H as [|e es He _ IHl]; [constructor|]. cbn [flat_map]. apply Forall_app. split; [eapply IH; exact He|exact IHl].
  - clear H H0 H1. assert (Hl : Forall (fun e => free (expr_binds e)) (map snd fs)).
    { induction H2 as [|e t es ts He _ IHl]; [constructor|]. constructor; [eapply IH; exact He|exact IHl]. }
    clear - Hl. induction fs as [|[f e] fs IHf]; [constructor|]. cbn in *. inversion Hl; subst. apply Forall_app. auto.
  - apply Forall_app. split; [eapply IH; exact H|]. clear H1 H. induction H0 as [|e t es us He _ IHl]; [constructor|]. cbn [flat_map]. apply Forall_app. split; [eapply IH; exact He|exact IHl].
  - apply Forall_app. split; [eapply IH; exact H|]. clear H5 H. induction H4 as [|e t' es us He _ IHl]; [constructor|]. cbn [flat_map]. apply Forall_app. split; [eapply IH; exact He|exact IHl].
  - constructor; [exact H|]. apply Forall_app. split; eapply IH; eassumption.
  - apply Forall_app. split; [eapply IH; exact H|]. clear H H1. induction H0 as [|[p e'] arms (vs & Hp & _ & He) _ IHl]; [constructor|]. cbn [flat_map fst snd] in *.
    apply Forall_app. split; [|exact IHl]. apply Forall_app. split; [eapply (proj1 (pat_typed_binds _)); exact Hp|eapply IH; exact He].
  - apply Forall_app. split; [eapply (proj1 (pat_typed_binds _)); eassumption|]. apply Forall_app. split; eapply IH; eassumption.
Qed.
End Binds.
Lemma module_binds_ok {A} (M : list (item A)) S U : module_ok M S U -> forall x, In x (module_binds M) -> is_constant M x = false.
Proof.
  intros (_ & _ & H) x Hx. unfold module_binds in Hx. apply in_flat_map in Hx. destruct Hx as (i & Hi & Hx). rewrite Forall_forall in H. specialize (H i Hi).
  assert (Hfn : forall self s f, fn_ok M S U self s f -> In x (fn_binds f) -> is_constant M x = false).
  { intros self s f (_ & ts & r & _ & _ & _ & Hp & Hb) Hin. unfold fn_binds in Hin. apply in_app_or in Hin. destruct Hin as [Hin|Hin]; [rewrite Forall_forall in Hp; auto|].
    apply typed_binds in Hb. rewrite Forall_forall in Hb. auto. }
  destruct i as [nm ls vs|nm d e|nm f|nm|nm fs]; cbn in Hx; try contradiction.
  - destruct H as (u & t & _ & _ & H). apply typed_binds in H. rewrite Forall_forall in H. auto.
  - destruct H as (s & _ & H). eauto.
  - destruct H as (_ & _ & H). apply in_flat_map in Hx. destruct Hx as ([y f] & Hin & Hx). rewrite Forall_forall in H. destruct (H _ Hin) as (s & _ & Hf). eauto.
Qed.
