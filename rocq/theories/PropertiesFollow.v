(** * PropertiesFollow: C77, the FOLLOW sets of src/follow.rs

    Vocabulary: FollowSpec.v ([follows g n la]: the terminal [la], or the end of what the first non-terminal derives, can come
    right after [n]), GSpec.v (derivations).  The file is not compiled into the macro (src/lib.rs:14). *)
From Verif Require Import FollowProofs LowerProofs Decide Grammars PropertiesGen Findings.
From Verif Require Export FollowSpec Follow.
Local Open Scope string_scope. Local Open Scope list_scope.

Section Any.
Context {A : Type}.
Variable g : grammar A.
Notation has tbl n la := (match la with Some t => In t (fo_terminals (get_follow tbl n)) | None => fo_end (get_follow tbl n) = true end).
(** Right-hand sides mention non-terminals of the grammar. *)
Definition closed_grammar : Prop := forall m p pr n, get_production g m p = Some pr -> In (NT n) (rhs pr) -> n < n_non_terminals g.

Lemma exact ho f1 f2 first tbl n la : hash_order_ok ho -> closed_grammar -> generate_first_table ho f1 g = Ok first ->
  generate_follow_table ho first f2 g = Ok tbl -> 0 < n_non_terminals g -> has tbl n la <-> jfol g first n la.
Proof.
  intros Hho Hg _ H Hpos. destruct la as [t|]; [exact (table_exact g ho (hok_terms _ Hho) first Hg f2 tbl n (Some t) H Hpos)|exact (table_exact g ho (hok_terms _ Hho) first Hg f2 tbl n None H Hpos)].
Qed.

(** Nothing wrong is in the table. *)
Theorem c77_sound ho f1 f2 first tbl n la : hash_order_ok ho -> closed_grammar -> generate_first_table ho f1 g = Ok first ->
  generate_follow_table ho first f2 g = Ok tbl -> 0 < n_non_terminals g -> has tbl n la -> follows g n la.
Proof.
  intros Hho Hg Hf H Hpos Hh. apply (exact ho f1 f2 first tbl n la Hho Hg Hf H Hpos) in Hh.
  destruct (first_table_sound g ho (hok_terms ho Hho) f1 first Hf) as (H1 & H2). exact (jfol_follows g first H1 H2 n la Hh).
Qed.
(** If the FIRST sets it is given are right, the FOLLOW sets are. *)
Theorem c77_exact ho f1 f2 first tbl n la : hash_order_ok ho -> closed_grammar -> generate_first_table ho f1 g = Ok first ->
  (forall m, (forall t, derives_first g [NT m] t -> In t (fs_terminals (get_first first m))) /\
     (derives_empty g [NT m] -> fs_empty (get_first first m) = true)) ->
  generate_follow_table ho first f2 g = Ok tbl -> 0 < n_non_terminals g -> has tbl n la <-> follows g n la.
Proof.
  intros Hho Hg Hf Hc H Hpos. split; [apply (c77_sound ho f1 f2 first tbl n la); auto|]. intro Hl.
  apply (exact ho f1 f2 first tbl n la Hho Hg Hf H Hpos). apply follows_jfol; auto.
  - intros m Hm. apply (Hc m). apply nullable_iff. exact Hm.
  - intros m t Hm. apply (Hc m). apply first_of_iff. exact Hm.
Qed.
(** They are right if no right-hand side begins with a non-terminal that derives the empty string (C20). *)
Theorem c77_plain ho f1 f2 first tbl n la : hash_order_ok ho -> closed_grammar -> generate_first_table ho f1 g = Ok first ->
  (forall m p pr k r, get_production g m p = Some pr -> rhs pr = NT k :: r -> ~ derives_empty g [NT k]) ->
  generate_follow_table ho first f2 g = Ok tbl -> 0 < n_non_terminals g -> has tbl n la <-> follows g n la.
Proof.
  intros Hho Hg Hf Hc. apply (c77_exact ho f1 f2 first tbl n la Hho Hg Hf). intro m. apply (c20_first_complete_partial g ho f1 first (fun _ => True) m Hho Hf); auto.
  intros k p pr q r _ Hp Hr. split; [exact (Hc k p pr q r Hp Hr)|exact Logic.I].
Qed.
(** The order of hash sets does not matter, neither that of FIRST nor that of FOLLOW. *)
Theorem c77_order ho ho' f1 f2 f2' first tbl tbl' n la : hash_order_ok ho -> hash_order_ok ho' -> closed_grammar -> generate_first_table ho f1 g = Ok first ->
  generate_follow_table ho first f2 g = Ok tbl -> generate_follow_table ho' first f2' g = Ok tbl' -> has tbl n la <-> has tbl' n la.
Proof.
  intros Hho Hho' Hg Hf H H'. destruct (n_non_terminals g) as [|k] eqn:E.
  - unfold generate_follow_table in H, H'. rewrite E in H, H'. cbn in H, H'. injection H as <-. injection H' as <-. reflexivity.
  - assert (Hpos : 0 < n_non_terminals g) by (rewrite E; lia).
    destruct la as [t|]; [pose (x := Some t)|pose (x := @None nat)];
      exact (iff_trans (table_exact g ho (hok_terms _ Hho) first Hg f2 tbl n x H Hpos) (iff_sym (table_exact g ho' (hok_terms _ Hho') first Hg f2' tbl' n x H' Hpos))).
Qed.
End Any.

(** For every grammar the macro lowers, the computation stops. *)
Theorem c77_terminates {A} (items : list (grammar_item A)) g ho : hash_order_ok ho -> lower (declared_nts items) (token_entries items) = Ok g ->
  closed_grammar g /\ exists fuel first tbl, generate_first_table ho fuel g = Ok first /\ generate_follow_table ho first fuel g = Ok tbl.
Proof.
  intros Hho Hl. pose proof (lower_spec (declared_nts items) (token_entries items)) as Hs. rewrite Hl in Hs. destruct Hs as (ti & Hlow).
  pose proof (lowered_wf _ _ _ _ Hlow) as Hwf. split.
  - intros m p pr n Hp Hn. destruct (wfg_nt g Hwf m p pr n Hp Hn) as (N & HN & _). exact (nt_in_range g n N HN).
  - set (fuel := S (List.length (facts g) + List.length (ffacts g))). exists fuel.
    pose proof (first_table_terminates g ho (hok_terms _ Hho) Hwf fuel) as H1.
    destruct (generate_first_table ho fuel g) as [first|p|] eqn:Ef.
    + exists first. destruct (table_stops g ho (hok_terms _ Hho) Hwf first) with (fuel := fuel) as (tbl & Ht).
      * exact (justified_range g Hwf first (proj1 (generate_first_table_ok g ho (hok_terms _ Hho) fuel first Ef))).
      * unfold fuel. lia.
      * exists tbl. auto.
    + exfalso. clear - Ef. unfold generate_first_table in Ef. revert Ef. generalize (first_table_new (n_non_terminals g)). induction fuel as [|f IH]; intros t E; [discriminate|].
      cbn in E. destruct (first_pass ho g t) as [t' []]; [eauto|discriminate].
    + exfalso. apply H1; [unfold fuel; lia|reflexivity].
Qed.

(** ** Cases *)
(** The dragon book's FOLLOW(F) = [ "+", "*", ")", $ ], with [arith] of Grammars.v. *)
Definition arith_follow : follow_table := Eval vm_compute in match generate_follow_table ho_id arith_tbl 100 arith_g with Ok t => t | _ => [] end.
Lemma arith_closed : closed_grammar arith_g.
Proof.
  intros m p pr n Hp Hn. unfold get_production in Hp. destruct (get_non_terminal arith_g m) as [N|] eqn:E; [|discriminate]. apply nth_error_In in E. apply nth_error_In in Hp.
  revert Hp Hn. cbn in E. destruct E as [<-|[<-|[<-|[<-|[<-|[]]]]]]; cbn; intros Hp Hn; repeat destruct Hp as [<-|Hp]; try contradiction; cbn in Hn; repeat destruct Hn as [Hn|Hn]; try contradiction; try discriminate; injection Hn as <-; unfold n_non_terminals; cbn; lia.
Qed.
Lemma arith_no_empty m p pr k r : get_production arith_g m p = Some pr -> rhs pr = NT k :: r -> ~ derives_empty arith_g [NT k].
Proof. intros _ _ H. apply nullable_iff in H. exact (eps_free_not_nullable arith_g arith_eps_free k H). Qed.
Example case_c77_exact la : (match la with Some t => In t (fo_terminals (get_follow arith_follow 4)) | None => fo_end (get_follow arith_follow 4) = true end) <-> follows arith_g 4 la.
Proof. apply (c77_plain arith_g ho_id 100 100 arith_tbl arith_follow 4 la ho_id_ok arith_closed arith_first arith_no_empty); [vm_compute; reflexivity|unfold n_non_terminals; cbn; lia]. Qed.
Example case_c77_terminates : exists fuel first tbl, generate_first_table ho_rev fuel arith_g = Ok first /\ generate_follow_table ho_rev first fuel arith_g = Ok tbl.
Proof. apply (c77_terminates arith arith_g ho_rev ho_rev_ok). vm_compute. reflexivity. Qed.
(** In general terminals are missing, since they are in FIRST: [A] of [hidden] (Findings.v) can be followed by "b". *)
Theorem c77_refuted : ~ (forall (g : grammar (lexpr string)) ho f1 f2 first tbl n t, hash_order_ok ho -> closed_grammar g ->
  generate_first_table ho f1 g = Ok first -> generate_follow_table ho first f2 g = Ok tbl -> follows g n (Some t) -> In t (fo_terminals (get_follow tbl n))).
Proof.
  intro H. assert (Hl : exists g first tbl, lower (declared_nts hidden) (token_entries hidden) = Ok g /\ generate_first_table ho_id 100 g = Ok first /\
            generate_follow_table ho_id first 100 g = Ok tbl /\ get_follow tbl 2 = {| fo_end := false; fo_terminals := [2] |} /\ follows g 2 (Some 1)).
  { eexists. eexists. eexists. split; [vm_compute; reflexivity|]. split; [vm_compute; reflexivity|]. split; [vm_compute; reflexivity|]. split; [reflexivity|].
    exists 0, [], [T 2]. expand_nt 0 (@nil symbol). eapply derives_step; [eapply (dstep_intro _ [NT 2] 3 0) with (r := []); reflexivity|]. cbn [app rhs p_symbols map bs_symbol].
    eapply derives_step; [eapply (dstep_intro _ [NT 2] 4 0) with (r := [T 2]); reflexivity|]. constructor. }
  destruct Hl as (g & first & tbl & Hl & Hf & Ht & Hg & Hd). destruct (c77_terminates hidden g ho_id ho_id_ok Hl) as (Hc & _).
  specialize (H g ho_id 100 100 first tbl 2 1 ho_id_ok Hc Hf Ht Hd). rewrite Hg in H. destruct H as [H|[]]. discriminate H.
Qed.
