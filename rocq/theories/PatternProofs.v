(** * PatternProofs: the generated token functions implement first-match classification (C30) *)
From Verif Require Export Spec BaseProofs.
From Coq Require Import Ascii.

Lemma pattern_ind' (P : pattern -> Prop) :
  (forall path ps, Forall P ps -> P (PatEnum path ps)) ->
  (forall path fs d, Forall (fun x => P (snd x)) fs -> P (PatStruct path fs d)) ->
  (forall ps, Forall P ps -> P (PatTuple ps)) ->
  (forall path, P (PatPath path)) -> P PatUnderscore -> P PatDotDot -> (forall l, P (PatLit l)) ->
  (forall t, P (PatChoose t)) -> forall p, P p.
Proof.
  intros H1 H2 H3 H4 H5 H6 H7 H8. fix IH 1. intros [path ps|path fs d|ps|path| | |l|t].
  - apply H1. induction ps as [|q ps IHps]; constructor; [apply IH|exact IHps].
  - apply H2. induction fs as [|[f q] fs IHfs]; constructor; [simpl; apply IH|exact IHfs].
  - apply H3. induction ps as [|q ps IHps]; constructor; [apply IH|exact IHps].
  - apply H4.
  - apply H5.
  - apply H6.
  - apply H7.
  - apply H8.
Qed.

(** Decimal numerals are injective. *)
Fixpoint dval (s : string) (acc : nat) : nat :=
  match s with
  | EmptyString => acc
  | String c s' => dval s' (10 * acc + (nat_of_ascii c - 48))
  end.
Lemma dval_app s1 : forall s2 acc, dval (s1 ++ s2) acc = dval s2 (dval s1 acc).
Proof. induction s1; simpl; intros; auto. Qed.
Lemma dval_digit n acc : n < 10 -> dval (digit n) acc = 10 * acc + n.
Proof. intro H. do 10 (destruct n as [|n]; [simpl; lia|]). lia. Qed.
Lemma dval_decimal f : forall n, n < f -> dval (decimal_fuel f n) 0 = n.
Proof.
  induction f as [|f IH]; intros n H; [lia|]. cbn [decimal_fuel].
  destruct (Nat.ltb_spec n 10) as [E|E].
  - rewrite dval_digit; lia.
  - rewrite dval_app, dval_digit by (apply Nat.mod_upper_bound; lia).
    rewrite IH. + symmetry. apply Nat.div_mod. lia.
    + assert (n / 10 < n) by (apply Nat.div_lt; lia). lia.
Qed.
Lemma field_ident_inj a b : field_ident a = field_ident b -> a = b.
Proof.
  unfold field_ident, decimal. intro H.
  assert (Hd : decimal_fuel (S a) a = decimal_fuel (S b) b).
  { revert H. generalize (decimal_fuel (S a) a) (decimal_fuel (S b) b). simpl. intros x y H. injection H; auto. }
  rewrite <- (dval_decimal (S a) a), <- (dval_decimal (S b) b) by lia. rewrite Hd. auto.
Qed.

(** ** The ignoring pattern *)
Lemma field_get_named f vs : field_get f vs = field_named f vs.
Proof.
  unfold field_named. induction vs as [|[g v] vs IH]; cbn [field_get find fst]; auto. rewrite (String.eqb_sym g f).
  destruct (String.eqb f g); auto.
Qed.
Lemma rmatch_list_ignore ps : Forall (fun p => forall v, rmatch (pattern_ignore p) v = option_map (fun _ => []) (pmatch p v)) ps ->
  forall vs, rmatch_list rmatch (map pattern_ignore ps) vs = option_map (fun _ => []) (pmatch_list pmatch ps vs).
Proof.
  induction 1 as [|p ps Hp Hps IH]; intro vs; simpl; [destruct vs; auto|].
  assert (Hgen : match vs with [] => None | v :: vs' => match rmatch (pattern_ignore p) v, rmatch_list rmatch (map pattern_ignore ps) vs' with
                    | Some b1, Some b2 => Some (b1 ++ b2) | _, _ => None end end =
          option_map (fun _ => []) (match vs with [] => None | v :: vs' => match pmatch p v, pmatch_list pmatch ps vs' with
                    | Some b1, Some b2 => Some (b1 ++ b2) | _, _ => None end end)).
  { destruct vs as [|v vs]; auto. rewrite Hp, IH.
    destruct (pmatch p v); simpl; auto. destruct (pmatch_list pmatch ps vs); auto. }
  destruct p; simpl in *; auto. rewrite map_length. destruct (List.length vs <? List.length ps); auto.
Qed.

Lemma rmatch_fields_ignore fs : Forall (fun x => forall v, rmatch (pattern_ignore (snd x)) v = option_map (fun _ => []) (pmatch (snd x) v)) fs ->
  forall vs, rmatch_fields rmatch (map (fun '(f, q) => (f, pattern_ignore q)) fs) vs = option_map (fun _ => []) (pmatch_fields pmatch fs vs).
Proof.
  induction 1 as [|[f p] fs Hp Hfs IH]; intro vs; simpl; auto.
  rewrite field_get_named. destruct (field_named f vs) as [v|]; auto. simpl in Hp. rewrite Hp, IH.
  destruct (pmatch p v); simpl; auto. destruct (pmatch_fields pmatch fs vs); auto.
Qed.

Lemma rmatch_ignore p : forall v, rmatch (pattern_ignore p) v = option_map (fun _ => []) (pmatch p v).
Proof.
  induction p as [path ps H|path fs d H|ps H|path| | |l|t] using pattern_ind'; intro v; simpl; auto; destruct v; auto.
  - destruct (path =? path0)%string; auto. apply rmatch_list_ignore; auto.
  - destruct (path =? path0)%string; auto. apply rmatch_fields_ignore; auto.
  - apply rmatch_list_ignore; auto.
  - destruct (path =? path0)%string; auto.
  - destruct (l =? lit)%string; auto.
Qed.

(** ** The binding pattern *)
Definition idents (from n : nat) : list string := map field_ident (seq from n).

Lemma idents_app a n m : idents a (n + m) = idents a n ++ idents (a + n) m.
Proof. unfold idents. rewrite seq_app, map_app. auto. Qed.
Lemma idents_length a n : List.length (idents a n) = n.
Proof. unfold idents. rewrite map_length, seq_length. auto. Qed.
Lemma idents_NoDup a n : NoDup (idents a n).
Proof.
  unfold idents. apply FinFun.Injective_map_NoDup; [|apply seq_NoDup]. intros x y; apply field_ident_inj.
Qed.

Lemma combine_app_eq {X Y} (a b : list X) (c d : list Y) : List.length a = List.length c ->
  combine (a ++ b) (c ++ d) = combine a c ++ combine b d.
Proof. revert c; induction a; intros [|x c]; simpl; intro H; try discriminate; auto. rewrite IHa; auto. Qed.

(** [n]: number of identifiers generated for a pattern *)
Definition chosen (p : pattern) : nat := List.length (pattern_types p).

Definition binds_ok (n : nat) (ids : list string) (sel : option (list rval)) (bs : option (list (string * rval))) : Prop :=
  match sel with
  | None => bs = None
  | Some vals => List.length vals = n /\ bs = Some (combine ids vals)
  end.

Definition gen_ok_pat (p : pattern) : Prop :=
  no_single_tuple p = true -> forall ids, exists r, gen_pattern p ids = (r, ids ++ idents (List.length ids) (chosen p)) /\
    (r = RPRest <-> p = PatDotDot) /\
    forall v, binds_ok (chosen p) (idents (List.length ids) (chosen p)) (pmatch p v) (rmatch r v).

Lemma binds_ok_app n m a s1 s2 b1 b2 :
  binds_ok n (idents a n) s1 b1 -> binds_ok m (idents (a + n) m) s2 b2 ->
  binds_ok (n + m) (idents a (n + m))
    (match s1, s2 with Some x, Some y => Some (x ++ y) | _, _ => None end)
    (match b1, b2 with Some x, Some y => Some (x ++ y) | _, _ => None end).
Proof.
  unfold binds_ok. intros H1 H2. destruct s1 as [x|]; [|subst b1; auto].
  destruct H1 as [H1 ->]. destruct s2 as [y|]; [|subst b2; auto]. destruct H2 as [H2 ->].
  split; [rewrite app_length; lia|]. rewrite idents_app, combine_app_eq; auto. rewrite idents_length. auto.
Qed.

Lemma gen_list_ok ps : Forall gen_ok_pat ps -> forallb no_single_tuple ps = true -> forall ids,
  exists rs, gen_list gen_pattern ps ids = (rs, ids ++ idents (List.length ids) (List.length (flat_map pattern_types ps))) /\
    List.length rs = List.length ps /\ (forall r, rs = [r] -> r = RPRest <-> ps = [PatDotDot]) /\
    forall vs, binds_ok (List.length (flat_map pattern_types ps)) (idents (List.length ids) (List.length (flat_map pattern_types ps)))
      (pmatch_list pmatch ps vs) (rmatch_list rmatch rs vs).
Proof.
  induction 1 as [|p ps Hp Hps IH]; intros Hs ids.
  - exists []. simpl. rewrite app_nil_r. repeat split; intros; try discriminate. destruct vs; simpl; auto.
  - simpl in Hs. apply andb_true_iff in Hs. destruct Hs as [Hs1 Hs2].
    destruct (Hp Hs1 ids) as (r & E1 & Hr & Hm).
    destruct (IH Hs2 (ids ++ idents (List.length ids) (chosen p))) as (rs & E2 & Hl & _ & Hms).
    cbn [gen_list]. rewrite E1, E2. exists (r :: rs).
    cbn [flat_map]. rewrite app_length. fold (chosen p). rewrite app_length, idents_length in *.
    split; [rewrite idents_app, app_assoc; auto|]. split; [simpl; auto|]. split.
    { intros r' Heq. inversion Heq; subst. simpl in Hl. destruct ps; [|discriminate].
      rewrite Hr. split; [intros ->; auto|]. intro H; inversion H; auto. }
    intro vs.
    assert (Hgen : r <> RPRest -> binds_ok (chosen p + List.length (flat_map pattern_types ps))
         (idents (List.length ids) (chosen p + List.length (flat_map pattern_types ps)))
         (pmatch_list pmatch (p :: ps) vs) (rmatch_list rmatch (r :: rs) vs)).
    { intro Hne. assert (Hne' : p <> PatDotDot) by (intro; apply Hne, Hr; auto).
      destruct vs as [|v vs]; [destruct p, r; simpl; auto; congruence|].
      pose proof (binds_ok_app _ _ _ _ _ _ _ (Hm v) (Hms vs)) as Hb.
      destruct p, r; simpl in *; auto; congruence. }
    destruct (Bool.bool_dec (match p with PatDotDot => true | _ => false end) true) as [Hd|Hd].
    + destruct p; try discriminate. assert (r = RPRest) by (apply Hr; auto). subst r.
      simpl. rewrite Hl. destruct (List.length vs <? List.length ps); simpl; auto.
      specialize (Hms (skipn (List.length vs - List.length ps) vs)). unfold chosen in Hms. simpl in Hms.
      rewrite Nat.add_0_r in Hms. auto.
    + apply Hgen. rewrite Hr. intros ->. congruence.
Qed.

Lemma gen_fields_ok fs : Forall (fun x => gen_ok_pat (snd x)) fs -> forallb (fun '(_, q) => no_single_tuple q) fs = true -> forall ids,
  let n := List.length (flat_map (fun '(_, q) => pattern_types q) fs) in
  exists rs, gen_fields gen_pattern fs ids = (rs, ids ++ idents (List.length ids) n) /\
    forall vs, binds_ok n (idents (List.length ids) n) (pmatch_fields pmatch fs vs) (rmatch_fields rmatch rs vs).
Proof.
  induction 1 as [|[f p] fs Hp Hfs IH]; intros Hs ids.
  - exists []. simpl. rewrite app_nil_r. split; auto.
  - simpl in Hs. apply andb_true_iff in Hs. destruct Hs as [Hs1 Hs2]. simpl in Hp.
    destruct (Hp Hs1 ids) as (r & E1 & _ & Hm).
    destruct (IH Hs2 (ids ++ idents (List.length ids) (chosen p))) as (rs & E2 & Hms).
    cbn zeta. cbn [gen_fields flat_map]. rewrite E1, E2. exists ((f, r) :: rs).
    rewrite app_length. fold (chosen p). rewrite app_length, idents_length in *.
    split; [rewrite idents_app, app_assoc; auto|].
    intro vs. simpl. rewrite field_get_named. destruct (field_named f vs) as [v|]; [|simpl; auto].
    apply binds_ok_app; auto.
Qed.

Lemma gen_pattern_ok p : gen_ok_pat p.
Proof.
  induction p as [path ps H|path fs d H|ps H|path| | |l|t] using pattern_ind'; intros Hs ids; unfold chosen; simpl.
  - destruct (gen_list_ok ps H Hs ids) as (rs & E & _ & _ & Hm). rewrite E. eexists; split; [reflexivity|].
    split; [split; discriminate|]. intros [| | | | |]; simpl; auto. destruct (path =? path0)%string; simpl; auto; apply Hm.
  - destruct (gen_fields_ok fs H Hs ids) as (rs & E & Hm). rewrite E. eexists; split; [reflexivity|].
    split; [split; discriminate|]. intros [| | | | |]; simpl; auto. destruct (path =? path0)%string; simpl; auto; apply Hm.
  - assert (Hs' : forallb no_single_tuple ps = true).
    { destruct ps as [|q [|q' ps]]; auto. simpl in Hs. destruct q; try discriminate. reflexivity. }
    destruct (gen_list_ok ps H Hs' ids) as (rs & E & Hl & Hd & Hm). rewrite E. eexists; split; [reflexivity|].
    assert (Ht : tuple_no_trailing_comma rs = RPTuple rs).
    { destruct rs as [|r [|r' rs]]; auto.
      - simpl in Hl. destruct ps as [|q [|q' ps]]; try discriminate. simpl in Hs. destruct q; try discriminate.
        assert (r = RPRest) by (apply (Hd r eq_refl); auto). subst; auto.
      - simpl. destruct r; auto. }
    rewrite Ht. split; [split; discriminate|]. intros [| | | | |]; simpl; auto; apply Hm.
  - rewrite app_nil_r. eexists; split; [reflexivity|]. split; [split; discriminate|].
    intros [| | | | |]; simpl; auto. destruct (path =? path0)%string; simpl; auto.
  - rewrite app_nil_r. eexists; split; [reflexivity|]. split; [split; discriminate|]. intro v; simpl; auto.
  - rewrite app_nil_r. eexists; split; [reflexivity|]. split; [split; auto|]. intro v; simpl; auto.
  - rewrite app_nil_r. eexists; split; [reflexivity|]. split; [split; discriminate|].
    intros [| | | | |]; simpl; auto. destruct (l =? lit)%string; simpl; auto.
  - eexists; split; [reflexivity|]. split; [split; discriminate|]. intro v; simpl; auto.
Qed.

Lemma var_get_combine ids vals : NoDup ids -> List.length vals = List.length ids ->
  vars_get ids (combine ids vals) = Some vals.
Proof.
  assert (H : forall ids vals pre, NoDup ids -> List.length vals = List.length ids ->
    (forall x, In x ids -> ~ In x (map fst pre)) -> vars_get ids (pre ++ combine ids vals) = Some vals).
  { clear. induction ids as [|x ids IH]; intros [|v vals] pre Hn Hl Hp; simpl in *; try discriminate; auto.
    inversion Hn; subst.
    assert (E : var_get x (pre ++ (x, v) :: combine ids vals) = Some v).
    { assert (~ In x (map fst pre)) by auto. clear - H. induction pre as [|[y u] pre IH]; simpl.
      - rewrite String.eqb_refl; auto.
      - simpl in H. destruct (String.eqb_spec x y); [subst; tauto|]. apply IH. tauto. }
    rewrite E.
    replace (pre ++ (x, v) :: combine ids vals) with ((pre ++ [(x, v)]) ++ combine ids vals) by (rewrite <- app_assoc; auto).
    rewrite IH; auto. intros y Hy. rewrite map_app, in_app_iff. simpl. intros [Hc|[Hc|[]]]; [eapply Hp; eauto|subst; auto]. }
  intros Hn Hl. apply (H ids vals []); auto.
Qed.

(** ** The two generated functions *)
Definition indexed (k : nat) (cs : list conversion) : list (nat * conversion) := combine (seq k (List.length cs)) cs.

(** Index and selected values of the first matching entry, counting from [k]. *)
Fixpoint first_match_idx (k : nat) (cs : list conversion) (v : rval) : option (nat * list rval) :=
  match cs with
  | [] => None
  | c :: cs' => match pmatch (cv_to c) v with
                | Some fs => Some (k, fs)
                | None => first_match_idx (S k) cs' v
                end
  end.

Lemma token_terminal_idx_spec cs v : token_terminal_idx cs v = option_map fst (first_match_idx 0 cs v).
Proof.
  unfold token_terminal_idx, enumerate.
  assert (H : forall cs k, option_map fst (match_arms (map (fun '(i, c) => (pattern_ignore (cv_to c), i)) (combine (seq k (List.length cs)) cs)) v) =
            option_map fst (first_match_idx k cs v)).
  { clear. induction cs as [|c cs IH]; intro k; simpl; auto. rewrite rmatch_ignore.
    destruct (pmatch (cv_to c) v); simpl; auto. }
  apply H.
Qed.

Lemma token_value_spec cs v : forallb (fun c => no_single_tuple (cv_to c)) cs = true ->
  token_value cs v = first_match_idx 0 cs v.
Proof.
  unfold token_value, enumerate.
  assert (H : forall cs k, forallb (fun c => no_single_tuple (cv_to c)) cs = true ->
      match match_arms (map (fun '(i, c) => let (r, xs) := generate_pattern_syn_with_idents (cv_to c) in
                                        (r, (i, xs))) (combine (seq k (List.length cs)) cs)) v with
      | None => None
      | Some ((i, xs), b) => option_map (pair i) (vars_get xs b)
      end = first_match_idx k cs v).
  { clear. induction cs as [|c cs IH]; intros k Hs; simpl in *; auto.
    apply andb_true_iff in Hs. destruct Hs as [Hs1 Hs2].
    destruct (gen_pattern_ok (cv_to c) Hs1 []) as (r & E & _ & Hm). specialize (Hm v).
    unfold generate_pattern_syn_with_idents at 1. rewrite E. simpl in *.
    unfold binds_ok in Hm. destruct (pmatch (cv_to c) v) as [vals|].
    - destruct Hm as [Hl ->]. rewrite var_get_combine; auto using idents_NoDup. rewrite idents_length; auto.
    - rewrite Hm. apply IH; auto. }
  apply H.
Qed.

Lemma first_match_idx_spec cs v : forall k,
  match first_match_idx k cs v with
  | Some (i, fs) => exists c, k <= i /\ nth_error cs (i - k) = Some c /\ first_match cs v = Some (cv_from c, fs)
  | None => first_match cs v = None
  end.
Proof.
  induction cs as [|c cs IH]; intro k; simpl; auto.
  destruct (pmatch (cv_to c) v) as [fs|].
  - exists c. rewrite Nat.sub_diag. auto.
  - specialize (IH (S k)). destruct (first_match_idx (S k) cs v) as [[i fs]|]; auto.
    destruct IH as (c' & H1 & H2 & H3). exists c'. split; [lia|]. split; auto.
    replace (i - k) with (S (i - S k)) by lia. auto.
Qed.

(** C30, in terms of the specification: both functions follow the first matching entry. *)
Theorem token_functions_spec cs v : forallb (fun c => no_single_tuple (cv_to c)) cs = true ->
  match first_match cs v with
  | None => token_terminal_idx cs v = None /\ token_value cs v = None
  | Some (s, fs) => exists i c, nth_error cs i = Some c /\ cv_from c = s /\ pmatch (cv_to c) v = Some fs /\
      (forall j d, j < i -> nth_error cs j = Some d -> pmatch (cv_to d) v = None) /\
      token_terminal_idx cs v = Some i /\ token_value cs v = Some (i, fs)
  end.
Proof.
  intro Hs. rewrite token_terminal_idx_spec, token_value_spec by auto. clear Hs.
  assert (H : forall k, match first_match cs v with
    | None => first_match_idx k cs v = None
    | Some (s, fs) => exists i c, nth_error cs i = Some c /\ cv_from c = s /\ pmatch (cv_to c) v = Some fs /\
      (forall j d, j < i -> nth_error cs j = Some d -> pmatch (cv_to d) v = None) /\
      first_match_idx k cs v = Some (k + i, fs) end).
  { induction cs as [|c cs' IH]; intro k; simpl; auto. destruct (pmatch (cv_to c) v) as [fs|] eqn:E.
    - exists 0, c. rewrite Nat.add_0_r. repeat split; auto. intros; lia.
    - specialize (IH (S k)). destruct (first_match cs' v) as [[s fs]|]; auto.
      destruct IH as (i & d & H1 & H2 & H3 & H4 & H5). exists (S i), d.
      split; auto. split; auto. split; auto. split; [|rewrite H5; do 2 f_equal; lia].
      intros [|j] x Hj Hx; simpl in Hx; [inversion Hx; subst; auto|eapply H4; eauto; lia]. }
  specialize (H 0). destruct (first_match cs v) as [[s fs]|].
  - destruct H as (i & c & H1 & H2 & H3 & H4 & H5). rewrite H5. exists i, c. repeat (split; auto).
  - rewrite H. auto.
Qed.
